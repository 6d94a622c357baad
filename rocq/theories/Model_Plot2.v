(* What the other plotting functions draw: /repo/pyspod/utils/postproc.py:743-936 (plot_3d_modes_slice_at_frequency), 938-1038
   (plot_mode_tracers), 1064-1161 (plot_2d_data), 1163-1229 (plot_data_tracers), 1352-1464 (generate_2d_data_video), 1516-1519
   (_apply_2d_vertical_lines) and the methods calling them, /repo/pyspod/spod/base.py:815-827 (get_data), 964-987, 1086-1097, and
   the peak search of plot_report, 989-1077.  Not modelled: axes, colours, titles, files; reading of modes; complex values are
   abstract (A), frequencies, eigenvalues and coordinates are rationals. *)
From Coq Require Import QArith Qabs.
From Verif Require Import Base_List Model_Select Model_Coords Model_Plot.
Set Implicit Arguments.
Local Open Scope nat_scope.

Section Plot2.
Variable A : Type.
Variable a0 : A.
(* a record of shape (nt, n1, n2, nv) *)
Record rec4 := Rec4 { d_nt : nat; d_n1 : nat; d_n2 : nat; d_nv : nat; d_at : nat -> nat -> nat -> nat -> A }.
(* data[a:b] with 0 <= a; b may be negative *)
Definition stop_of (nt : nat) (b : Z) : nat := Z.to_nat (Z.min (if (b <? 0)%Z then Z.of_nat nt + b else b) (Z.of_nat nt)).
Definition cut_time (X : rec4) (a : nat) (b : Z) : rec4 :=
  Rec4 (stop_of (d_nt X) b - a) (d_n1 X) (d_n2 X) (d_nv X) (fun t => d_at X (a + t)).
(* coordinates; both or none, 1105-1107 *)
Definition coords_of (n1 n2 : nat) (x1 x2 : option (list Q)) : res (list Q * list Q) :=
  let arange n := map (fun k => inject_Z (Z.of_nat k)) (seq 0 n) in
  match x1, x2 with
  | None, None => Ok (arange n1, arange n2)
  | Some a, Some b => Ok (a, b)
  | _, _ => Err AttributeError
  end.
Definition slab (X : rec4) (t v : nat) : mat A := map (fun i => map (fun j => d_at X t i j v) (seq 0 (d_n2 X))) (seq 0 (d_n1 X)).
(* contourf wants len(x2) rows of len(x1) entries, at least 2 x 2 *)
Definition contourf (x1 x2 : list Q) (m : mat A) : res (figure A) :=
  if (length m =? length x2) && (n_cols m =? length x1) && (2 <=? length m) && (2 <=? n_cols m) then Ok (Figure x1 x2 m) else Err TypeError.
(* 1117-1138 for one variable and time *)
Definition draw_data (X : rec4) (x1 x2 : list Q) (v : nat) (t : Z) : res (figure A) :=
  do i <- norm_index (d_nt X) t;
  if d_nv X <=? v then Err IndexError
  else if negb (length x1 * length x2 =? d_n1 X * d_n2 X) then Err ValueError
  else let m := slab X i v in
       contourf x1 x2 (if negb (length x1 =? d_n2 X) || negb (length x2 =? d_n1 X) then transpose a0 m else m).
Fixpoint draw_each {B C} (f : B -> res C) (l : list B) : res (list C) :=
  match l with [] => Ok [] | b :: r => do c <- f b; do cs <- draw_each f r; Ok (c :: cs) end.
Definition pairs {B C} (l : list B) (r : list C) : list (B * C) := flat_map (fun b => map (fun c => (b, c)) r) l.
Definition plot_2d_data (X : rec4) (times : list Z) (vars : list nat) (x1 x2 : option (list Q)) : res (list (figure A)) :=
  do c <- coords_of (d_n1 X) (d_n2 X) x1 x2;
  draw_each (fun p => draw_data X (fst c) (snd c) (fst p) (snd p)) (pairs vars times).
(* base.py:964-974: the record is cut after the largest index; np.max of nothing raises *)
Definition zmax (l : list Z) : option Z := match l with [] => None | z :: r => Some (fold_left Z.max r z) end.
Definition method_plot_2d_data (X : rec4) (times : list Z) (vars : list nat) (x1 x2 : option (list Q)) : res (list (figure A)) :=
  match zmax times with
  | None => Err ValueError
  | Some m => plot_2d_data (cut_time X 0 (m + 1)) times vars x1 x2
  end.

(* ---- data tracers, 1199-1219: one curve, at grid indices i1, i2; plt.plot wants as many values as times ---- *)
Definition tracer_at (X : rec4) (t0 t1 i1 i2 v : nat) : res (list (nat * A)) :=
  if negb ((i1 <? d_n1 X) && (i2 <? d_n2 X) && (v <? d_nv X)) then Err IndexError
  else let ts := seq t0 (t1 - t0) in
       let xs := map (fun t => d_at X t i1 i2 v) (seq t0 (Nat.min t1 (d_nt X) - t0)) in
       if length ts =? length xs then Ok (combine ts xs) else Err ValueError.
Definition one_tracer (X : rec4) (x : list (list Q)) (t0 t1 : nat) (c : list Q) (v : nat) : res (list Q * list (nat * A)) :=
  do r <- find_nearest_coords c x [d_n1 X; d_n2 X];
  match snd r with
  | [i1; i2] => do l <- tracer_at X t0 t1 i1 i2 v; Ok (fst r, l)
  | _ => Err ValueError
  end.
(* 1195: X[0,...,0].  Simplification: each element of coords has two entries *)
Definition plot_data_tracers (X : rec4) (coords : list (list Q)) (x : list (list Q)) (t0 t1 : nat) (vars : list nat) :=
  if (d_nt X =? 0) || (d_nv X =? 0) then Err IndexError else draw_each (fun p => one_tracer X x t0 t1 (fst p) (snd p)) (pairs coords vars).
(* base.py:977-987 *)
Definition method_plot_data_tracers (X : rec4) (coords : list (list Q)) (x : list (list Q)) (t0 t1 : nat) (vars : list nat) :=
  plot_data_tracers (cut_time X t0 (Z.of_nat t1)) coords x t0 t1 vars.

(* ---- video, 1399-1453: the snapshots shown for one variable ---- *)
Fixpoint every (fuel k : nat) (l : list nat) : list nat :=
  match fuel, l with S f, a :: _ => a :: every f k (skipn k l) | _, _ => [] end.
Definition frames (X : rec4) (t0 t1 sampling v : nat) : res (list (mat A)) :=
  if sampling =? 0 then Err ValueError
  else if (d_nt X =? 0) || (d_nv X <=? v) then Err IndexError
  else draw_each (fun s => if s <? d_nt X then Ok (slab X s v) else Err IndexError) (every (t1 - t0) sampling (seq t0 (t1 - t0))).
(* base.py:1086-1097: cut to [t0, t1), then asks for [0, t1) *)
Definition method_frames (X : rec4) (t0 t1 sampling v : nat) : res (list (mat A)) := frames (cut_time X t0 (Z.of_nat t1)) 0 t1 sampling v.

(* ---- mode tracers, 994-1032 ---- *)
(* np.linspace(0, b, n)[k] *)
Definition linspace (b : Q) (n k : nat) : Q := (inject_Z (Z.of_nat k) * b / inject_Z (Z.of_nat n - 1))%Q.
Definition n_points : nat := 100.
(* times, and phases in turns (multiples of 2 pi): 10 pi is 5 turns *)
Definition tracer_time (freq_req : Q) (k : nat) : Q := linspace (1 / freq_req) n_points k.
Definition tracer_turns (k : nat) : Q := linspace 5 n_points k.
(* 1003-1021: the subplots used for one coordinate: row numbers, one grid of len(modes) rows, the counter runs on *)
Fixpoint subplot_rows (n_modes cnt : nat) (jobs : list (nat * nat)) : res (list (nat * nat * nat)) :=
  match jobs with
  | [] => Ok []
  | (v, m) :: r => if cnt <? n_modes then do rest <- subplot_rows n_modes (S cnt) r; Ok ((v, m, cnt) :: rest) else Err IndexError
  end.
Definition mode_tracer_rows (vars modes : list nat) : res (list (nat * nat * nat)) :=
  if length modes =? 0 then Err ValueError else subplot_rows (length modes) 0 (pairs vars modes).

(* ---- 3-D slices, 811-831 ---- *)
Inductive axis := X1 | X2 | X3.
Definition axis_eqb (a b : axis) : bool := match a, b with X1, X1 | X2, X2 | X3, X3 => true | _, _ => false end.
(* n1, n2, n3: lengths of the coordinates; the first one whose length fits *)
Definition pick (n1 n2 n3 len : nat) (used : option axis) : option axis :=
  let free a := match used with Some u => negb (axis_eqb u a) | None => true end in
  if (len =? n1) && free X1 then Some X1
  else if (len =? n2) && free X2 then Some X2
  else if (len =? n3) && free X3 then Some X3
  else None.
Definition slice_axes (n1 n2 n3 slice_dim : nat) : res (axis * axis) :=
  do s <- match slice_dim with 0 => Ok (n2, n3) | 1 => Ok (n1, n3) | 2 => Ok (n1, n2) | _ => Err UnboundLocalError end;
  match pick n1 n2 n3 (fst s) None with
  | None => Err UnboundLocalError
  | Some a => match pick n1 n2 n3 (snd s) (Some a) with None => Err UnboundLocalError | Some b => Ok (a, b) end
  end.
(* 817: the slice shown when none is requested *)
Definition slice_shown (slice_id : option nat) : nat := match slice_id with None => 0 | Some k => k end.

(* ---- plot_report, base.py:992-1016 ---- *)
Definition qsumw (l : list Q) : Q := fold_right Qplus 0%Q l.
Definition qmean (l : list Q) : Q := (qsumw l / inject_Z (Z.of_nat (length l)))%Q.
Definition qmaxl (l : list Q) : res Q :=
  match l with [] => Err ValueError | x :: r => Ok (fold_left (fun m y => if Qle_bool m y then y else m) r x) end.
(* ---- lines at the maximum, 459-463 = 500-502 with 1516-1519: m holds the absolute values; horizontal line at x1[column],
   vertical one at x2[row]; with several maxima axhline cannot decide whether to rescale *)
Definition positions (m : list (list Q)) : list (nat * nat) :=
  flat_map (fun r => map (fun c => (r, c)) (seq 0 (length (nth r m [])))) (seq 0 (length m)).
Definition value_at (m : list (list Q)) (p : nat * nat) : Q := nth (snd p) (nth (fst p) m []) 0%Q.
Definition max_lines (x1 x2 : list Q) (m : list (list Q)) : res (Q * Q) :=
  do top <- qmaxl (map (value_at m) (positions m));
  match filter (fun p => Qeq_bool (value_at m p) top) (positions m) with
  | [(row, col)] => match nth_error x2 row, nth_error x1 col with Some v, Some h => Ok (v, h) | _, _ => Err IndexError end
  | _ => Err ValueError
  end.
Definition Qlt_b (a b : Q) : bool := negb (Qle_bool b a).
(* np.searchsorted of one value: bisection, also of arrays that are not sorted; fuel is the length of the array *)
Fixpoint bisect (fuel : nat) (below : Q -> bool) (fr : list Q) (lo hi : nat) : nat :=
  match fuel with
  | 0 => lo
  | S n => if lo <? hi then let mid := lo + (hi - lo) / 2 in
                            if below (nth mid fr 0%Q) then bisect n below fr (S mid) hi else bisect n below fr lo mid
           else lo
  end.
Definition search_left (fr : list Q) (v : Q) : nat := bisect (length fr) (fun x => Qlt_b x v) fr 0 (length fr).
Definition search_right (fr : list Q) (v : Q) : nat := bisect (length fr) (fun x => Qle_bool x v) fr 0 (length fr).
Definition is_peak (nbr : nat) (vals fr : list Q) (i : nat) : res bool :=
  let val := nth i vals 0%Q in
  let from := i - nbr in let to := Nat.min (i + nbr) (length vals) in
  let nbr_mean := qmean (window from (to - from) vals) in
  let f := nth i fr 0%Q in
  let ffrom := search_left fr (f * (9 # 10)) in let fto := Nat.min (search_right fr (f * (11 # 10))) (length vals) in
  let up := if 0 <? i then Qlt_b (nth (i - 1) vals 0%Q) val else true in
  let down := if i <? length vals - 1 then Qlt_b (nth (i + 1) vals 0%Q) val else true in
  if Qlt_b ((3 # 2) * nbr_mean) val && up && down then do m <- qmaxl (window ffrom (fto - ffrom) vals); Ok (Qeq_bool val m) else Ok false.
Fixpoint peaks_from (nbr : nat) (vals fr : list Q) (l : list nat) : res (list nat) :=
  match l with
  | [] => Ok []
  | i :: r => do b <- is_peak nbr vals fr i; do rest <- peaks_from nbr vals fr r; Ok (if b then i :: rest else rest)
  end.
Definition find_peaks (vals fr : list Q) : res (list nat) := peaks_from 5 vals fr (seq 0 (length vals)).
(* 1018-1075: for each saved mode the peaks over all frequencies but the first, and the frequency index whose mode is drawn *)
Definition report_one (freq : list Q) (vals : list Q) : res (list (nat * nat)) :=
  do ps <- find_peaks (tl vals) (tl freq);
  draw_each (fun p => do r <- find_nearest_freq (nth p (tl freq) 0%Q) freq; Ok (p, snd r)) ps.
(* 1042-1058: period in hours as shown; the unit in hours *)
Inductive unit_shown := Minutes | Hours | Days | Months | Years.
Definition show_period (p : Q) : Q * unit_shown :=
  if Qlt_b p 1 then ((p * 60)%Q, Minutes)
  else if Qle_bool 24 p && Qlt_b p (24 * (30437 # 1000)) then ((p / 24)%Q, Days)
  else if Qle_bool (24 * (30437 # 1000)) p && Qlt_b p (24 * (36525 # 100)) then ((p / (24 * (30437 # 1000)))%Q, Months)
  else if Qle_bool (24 * (36525 # 100)) p then ((p / (24 * (36525 # 100)))%Q, Years)
  else (p, Hours).
End Plot2.
