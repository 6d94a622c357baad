(* Plots of eigenvalues, /repo/pyspod/utils/postproc.py:181-338, and axis limits of mode and data plots, 1500-1503.
   Coordinates are exact rationals.  Simplification: figure sizes, fonts, ticks and file output are left out. *)
From Coq Require Import QArith Qround Qabs.
From Verif Require Import Base_List Model_Reader2 Model_Base.
Set Implicit Arguments.
Local Open Scope nat_scope.

(* 211: np.ceil(np.absolute(z)): the least integer whose square is at least re^2 + im^2 *)
Definition ceil_abs (z : Q * Q) : Z := Z.sqrt_up (Qceiling (fst z * fst z + snd z * snd z)).
(* 211: np.max; of an empty array it raises *)
Definition limit (eigs : list (Q * Q)) : res Z :=
  match eigs with [] => Err ValueError | z :: l => Ok (fold_left Z.max (map ceil_abs l) (ceil_abs z)) end.
(* 198-223: the points drawn and the common limits of both axes *)
Definition plot_eigs (eigs : list (Q * Q)) : res (list (Q * Q) * (Q * Q)) :=
  do m <- limit eigs; Ok (eigs, (- (inject_Z m * (12 # 10)), inject_Z m * (12 # 10)))%Q.

(* a curve: its grey level and its points; a point that cannot be placed (1/0) is None *)
Record curve := Curve { grey : Q; points : list (option (Q * Q)) }.
(* 259-263, 315-319 *)
Definition grey_level (n k : nat) : Q :=
  let c := (qn k / qn n)%Q in if Qle_bool (95 # 100) c then (96 # 100)%Q else c.
(* eigs is a list of rows, one per frequency; np.real of every entry.  ax.plot raises if lengths differ; 1. / eigs.shape[1] if 0 *)
Definition n_columns (eigs : list (list (Q * Q))) : nat := match eigs with [] => 0 | r :: _ => length r end.
Definition curves (eigs : list (list (Q * Q))) (xs : list (option Q)) : res (list curve) :=
  match n_columns eigs with
  | 0 => Err ZeroDivisionError
  | n => if length xs =? length eigs
         then Ok (map (fun k => Curve (grey_level n k)
                (map (fun p => match fst p with Some x => Some (x, fst (nth k (snd p) (0, 0))) | None => None end) (combine xs eigs))) (seq 0 n))%Q
         else Err ValueError
  end.
(* 231-281 *)
Definition plot_eigs_vs_frequency (eigs : list (list (Q * Q))) (freq : list Q) : res (list curve) := curves eigs (map Some freq).
(* 284-338: 1. / freq is inf at 0 *)
Definition plot_eigs_vs_period (eigs : list (list (Q * Q))) (freq : list Q) : res (list curve) :=
  curves eigs (map (fun f => if Qeq_bool f 0 then None else Some (1 / f)%Q) freq).
(* both axes are logarithmic (264-265, 320-321): a point has a place only if both coordinates are positive *)
Definition on_log_axes (p : option (Q * Q)) : bool :=
  match p with Some (x, y) => negb (Qle_bool x 0) && negb (Qle_bool y 0) | None => false end.

(* 1500-1503 for one axis: ax.set_xlim(np.nanmin(x)*1.05, np.nanmax(x)*1.05) *)
Definition qmin_l (x : Q) (l : list Q) : Q := fold_right (fun a b => if Qle_bool a b then a else b) x l.
Definition qmax_l (x : Q) (l : list Q) : Q := fold_right (fun a b => if Qle_bool a b then b else a) x l.
Definition axes_limits (xs : list Q) : res (Q * Q) :=
  match xs with [] => Err ValueError | x :: l => Ok (qmin_l x l * (105 # 100), qmax_l x l * (105 # 100))%Q end.
