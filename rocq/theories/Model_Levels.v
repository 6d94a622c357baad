(* Contour levels of generate_2d_subplot (utils/postproc.py 1231-1288) and the score used in the training of the emulators
   (emulation/neural_nets.py 60-63, 73-74 and 82-85).  Rational numbers, no rounding. *)
From Coq Require Import QArith Qround.
From Verif Require Import Base_List Model_Stat.
Local Open Scope Q_scope.
Set Implicit Arguments.

(* ---- postproc.py 1231-1288 ---- *)
(* np.max, np.min of the values of a field; ValueError on an empty one *)
Definition qmax (l : list Q) : res Q := match l with [] => Err ValueError | x :: l => Ok (fold_left (fun a b => if Qle_bool a b then b else a) l x) end.
Definition qmin (l : list Q) : res Q := match l with [] => Err ValueError | x :: l => Ok (fold_left (fun a b => if Qle_bool a b then a else b) l x) end.
(* np.linspace(a, b, n), n > 1 *)
Definition linspace (a b : Q) (n : nat) : list Q := map (fun i => a + inject_Z (Z.of_nat i) * ((b - a) / inject_Z (Z.of_nat (n - 1)))) (seq 0 n).
(* 1248: 10 ** N_round *)
Definition multiplier (n_round : nat) : Z := (10 ^ Z.of_nat n_round)%Z.
(* 1249-1250: np.ceil(max * multiplier) / multiplier, np.floor(min * multiplier) / multiplier *)
Definition range_of (n_round : nat) (v : list Q) : res (Q * Q) :=
  do hi <- qmax v; do lo <- qmin v;
  let m := multiplier n_round in
  Ok (inject_Z (Qfloor (lo * inject_Z m)) / inject_Z m, inject_Z (Qceiling (hi * inject_Z m)) / inject_Z m).
(* matplotlib: contourf raises ValueError unless the levels increase; a value is painted when it lies between the first and the last level *)
Fixpoint increasing (l : list Q) : bool :=
  match l with x :: ((y :: _) as l') => negb (Qle_bool y x) && increasing l' | _ => true end.
Record panel := Panel { p_levels : list Q; p_ticks : list Q; p_values : list Q }.
Definition draw (lo hi : Q) (v : list Q) : res panel :=
  let levels := linspace lo hi 9 in
  if increasing levels then Ok (Panel levels (linspace lo hi 5) v) else Err ValueError.
(* 1252-1288: one, two or three panels; contourf(None) raises TypeError.
   Simplification: a field is the list of its values. *)
Definition generate_2d_subplot (n_round : nat) (var1 : list Q) (var2 var3 : option (list Q)) : res (list panel) :=
  do (lo, hi) <- range_of n_round var1;
  let n_subplots := match var3 with Some _ => 3%nat | None => match var2 with Some _ => 2%nat | None => 1%nat end end in
  do p1 <- draw lo hi var1;
  if (n_subplots =? 1)%nat then Ok [p1] else
  do p2 <- match var2 with Some v => draw lo hi v | None => Err TypeError end;
  match var3 with
  | None => Ok [p1; p2]
  | Some v => do p3 <- draw lo hi v; Ok [p1; p2; p3]
  end.

(* ---- neural_nets.py 60-63: an array is the list of its columns (one per output); keras.backend.sum, mean along axis 0 ---- *)
Definition qmean (l : list Q) : Q := qsum l / inject_Z (Z.of_nat (length l)).
Definition sq_diff (a b : list Q) : Q := qsum (map (fun xy => (fst xy - snd xy) * (fst xy - snd xy)) (combine a b)).
Definition spread (a : list Q) : Q := qsum (map (fun x => (x - qmean a) * (x - qmean a)) a).
(* the function as written: first argument y_pred, second y_true *)
Definition coeff_determination (epsilon : Q) (y_pred y_true : list (list Q)) : Q :=
  qmean (map (fun pt => 1 - sq_diff (snd pt) (fst pt) / (spread (snd pt) + epsilon)) (combine y_pred y_true)).
(* 73-74: Keras calls a metric with the true values first and the predictions second *)
Definition reported_score (epsilon : Q) (truth prediction : list (list Q)) : Q := coeff_determination epsilon truth prediction.
