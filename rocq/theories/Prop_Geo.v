(* C66: geographic weights. *)
From Coq Require Import Reals Lra.
From Verif Require Import Base_List Model_Geo.
Set Implicit Arguments.
Local Open Scope R_scope.

(* ---------- specification: the trapezoidal rule on the sphere, periodic in longitude ---------- *)
Definition latitude (x1 i : nat) : R := - (PI / 2) + INR i * (PI / (INR x1 - 1)).
Definition lat_width (x1 i : nat) : R :=
  if (i =? 0)%nat || (i =? x1 - 1)%nat then PI / (INR x1 - 1) / 2 else PI / (INR x1 - 1).
Definition trapezoid (rad : R) (x1 x2 i : nat) : R := rad * rad * cos (latitude x1 i) * (2 * PI / INR x2) * lat_width x1 i.

(* ---------- proofs ---------- *)
Lemma diff_affine a h n : forall s, diff (map (fun i => a + INR i * h) (seq s n)) = repeat h (n - 1).
Proof.
  induction n as [|n IH]; intros s; [reflexivity|]. destruct n as [|n]; [reflexivity|].
  specialize (IH (S s)). change (seq s (S (S n))) with (s :: S s :: seq (S (S s)) n).
  change (seq (S s) (S n)) with (S s :: seq (S (S s)) n) in IH.
  change (map (fun i => a + INR i * h) (s :: S s :: seq (S (S s)) n)) with ((a + INR s * h) :: map (fun i => a + INR i * h) (S s :: seq (S (S s)) n)).
  remember (map (fun i => a + INR i * h) (S s :: seq (S (S s)) n)) as l eqn:El. destruct l as [|y l]; [discriminate|].
  change (diff ((a + INR s * h) :: y :: l)) with ((y - (a + INR s * h)) :: diff (y :: l)).
  assert (Ey := f_equal (hd 0) El). cbn [hd map] in Ey. rewrite IH, Ey. rewrite S_INR.
  replace (S (S n) - 1)%nat with (S (S n - 1))%nat by lia. cbn [repeat]. f_equal. lra.
Qed.
Lemma but_last_repeat h n : but_last (repeat h n) = repeat h (n - 1).
Proof.
  unfold but_last. rewrite repeat_length. induction n as [|n IH]; [reflexivity|]. cbn [Nat.sub]. rewrite Nat.sub_0_r.
  destruct n as [|n]; [reflexivity|]. cbn [repeat firstn] in *. cbn [Nat.sub] in IH. rewrite Nat.sub_0_r in IH. now rewrite IH.
Qed.
Lemma lat_rad_eq x1 : lat_rad x1 = map (fun i => - (PI / 2) + INR i * (PI / (INR x1 - 1))) (seq 0 x1).
Proof. unfold lat_rad, linspace. rewrite map_map. apply map_ext. intros i. unfold Rdiv. replace (90 - -90) with 180 by lra. lra. Qed.
Lemma lon_rad_eq x2 : (1 <= x2)%nat -> lon_rad x2 = map (fun i => 0 + INR i * (2 * PI / INR x2)) (seq 0 x2).
Proof.
  intros H. assert (H1 : 1 <= INR x2) by (change 1 with (INR 1); now apply le_INR).
  unfold lon_rad, but_last, linspace. rewrite map_length, seq_length, Nat.add_sub, firstn_map.
  replace (firstn x2 (seq 0 (x2 + 1))) with (seq 0 x2).
  - rewrite map_map. apply map_ext. intros i. rewrite plus_INR. cbn [INR]. field. lra.
  - rewrite seq_app, firstn_app, seq_length, Nat.sub_diag, firstn_O, app_nil_r. symmetry. rewrite <- (seq_length x2 0) at 1. apply firstn_all.
Qed.
Lemma nth_repeat_lt {A} (x d : A) n k : (k < n)%nat -> nth k (repeat x n) d = x.
Proof. revert k; induction n as [|n IH]; intros k H; [lia|]. destruct k; [reflexivity|]. cbn. apply IH. lia. Qed.
Lemma nth_error_repeat_lt {A} (x : A) n k : (k < n)%nat -> nth_error (repeat x n) k = Some x.
Proof. revert k; induction n as [|n IH]; intros k H; [lia|]. destruct k; [reflexivity|]. cbn. apply IH. lia. Qed.

Lemma d_lat_ok x1 : (4 <= x1)%nat -> exists l, d_lat x1 = Ok l /\ forall i, (i < x1)%nat -> nth i l 0 = lat_width x1 i.
Proof.
  intros H. unfold d_lat. rewrite lat_rad_eq, diff_affine, but_last_repeat. set (h := PI / (INR x1 - 1)).
  unfold last_of, index. rewrite repeat_length, !nth_error_repeat_lt by lia. cbn [bind].
  eexists. split; [reflexivity|]. intros i Hi. unfold lat_width. fold h.
  destruct i as [|i]; [reflexivity|]. replace (S i =? 0)%nat with false by reflexivity. cbn [nth orb].
  destruct (Nat.eqb_spec (S i) (x1 - 1)) as [E|E].
  - rewrite app_nth2 by (rewrite repeat_length; lia). rewrite repeat_length. replace (i - (x1 - 1 - 1))%nat with 0%nat by lia. reflexivity.
  - rewrite app_nth1 by (rewrite repeat_length; lia). apply nth_repeat_lt. lia.
Qed.
Lemma d_lat_small x1 : (x1 < 4)%nat -> d_lat x1 = Err IndexError.
Proof.
  intros H. unfold d_lat. rewrite lat_rad_eq, diff_affine, but_last_repeat. unfold index.
  replace (nth_error (repeat _ _) 1) with (@None R); [reflexivity|]. symmetry. apply nth_error_None. rewrite repeat_length. lia.
Qed.
Lemma d_lon_ok x2 : (1 <= x2)%nat -> exists l, d_lon x2 = Ok l /\ forall j, (j < x2)%nat -> nth j l 0 = if (j =? 0)%nat then 0 else 2 * PI / INR x2.
Proof.
  intros H. unfold d_lon. rewrite lon_rad_eq, diff_affine by assumption. unfold index. rewrite nth_error_map_seq.
  destruct (Nat.ltb_spec 0 x2); [|lia]. cbn [bind]. eexists. split; [reflexivity|]. intros j Hj.
  destruct j as [|j]; cbn [nth Nat.eqb]; [cbn; lra|]. apply nth_repeat_lt. lia.
Qed.

Lemma inv_pos x1 : (4 <= x1)%nat -> 0 < INR x1 - 1.
Proof. intros H. assert (4 <= INR x1) by (replace 4 with (INR 4) by (cbn; lra); now apply le_INR). lra. Qed.
Lemma lat_width_pos x1 i : (4 <= x1)%nat -> 0 < lat_width x1 i.
Proof.
  intros H. assert (Hp := PI_RGT_0). assert (0 < PI / (INR x1 - 1)) by (apply Rdiv_lt_0_compat; [lra|now apply inv_pos]).
  unfold lat_width. destruct (_ || _); lra.
Qed.
Lemma lat_range x1 i : (4 <= x1)%nat -> (i < x1)%nat -> - (PI/2) <= latitude x1 i <= PI/2.
Proof.
  intros H Hi. assert (Hp := PI_RGT_0). assert (Hx := inv_pos H). unfold latitude.
  assert (0 <= INR i) by apply pos_INR. assert (INR i <= INR x1 - 1) by (change 1 with (INR 1); rewrite <- minus_INR by lia; apply le_INR; lia).
  assert (E : PI = (INR x1 - 1) * (PI / (INR x1 - 1))) by (field; lra).
  assert (0 < PI / (INR x1 - 1)) by (apply Rdiv_lt_0_compat; lra). nra.
Qed.
Lemma lat_interior x1 i : (4 <= x1)%nat -> (1 <= i)%nat -> (i < x1 - 1)%nat -> - (PI/2) < latitude x1 i < PI/2.
Proof.
  intros H Hi0 Hi. assert (Hp := PI_RGT_0). assert (Hx := inv_pos H). unfold latitude.
  assert (1 <= INR i) by (change 1 with (INR 1); now apply le_INR).
  assert (INR i < INR x1 - 1) by (change 1 with (INR 1); rewrite <- minus_INR by lia; apply lt_INR; lia).
  assert (E : PI = (INR x1 - 1) * (PI / (INR x1 - 1))) by (field; lra).
  assert (0 < PI / (INR x1 - 1)) by (apply Rdiv_lt_0_compat; lra). nra.
Qed.
Lemma trap_nonneg rad x1 x2 i : (4 <= x1)%nat -> (1 <= x2)%nat -> (i < x1)%nat -> 0 <= trapezoid rad x1 x2 i.
Proof.
  intros H1 H2 Hi. destruct (lat_range H1 Hi) as [A B]. assert (Hc := cos_ge_0 _ A B). assert (Hw := lat_width_pos i H1).
  assert (1 <= INR x2) by (change 1 with (INR 1); now apply le_INR). assert (Hp := PI_RGT_0).
  assert (0 < 2 * PI / INR x2) by (apply Rdiv_lt_0_compat; lra). assert (Hr := Rle_0_sqr rad). unfold Rsqr in Hr.
  unfold trapezoid. apply Rmult_le_pos; [apply Rmult_le_pos; [apply Rmult_le_pos|]|]; lra.
Qed.
Lemma trap_pos rad x1 x2 i : rad <> 0 -> (4 <= x1)%nat -> (1 <= x2)%nat -> (1 <= i)%nat -> (i < x1 - 1)%nat -> 0 < trapezoid rad x1 x2 i.
Proof.
  intros Hr H1 H2 Hi0 Hi. destruct (lat_interior H1 Hi0 Hi) as [A B]. assert (Hc := cos_gt_0 _ A B). assert (Hw := lat_width_pos i H1).
  assert (1 <= INR x2) by (change 1 with (INR 1); now apply le_INR). assert (Hp := PI_RGT_0).
  assert (0 < 2 * PI / INR x2) by (apply Rdiv_lt_0_compat; lra). assert (Hr2 := Rlt_0_sqr rad Hr). unfold Rsqr in Hr2.
  unfold trapezoid. apply Rmult_lt_0_compat; [apply Rmult_lt_0_compat; [apply Rmult_lt_0_compat|]|]; lra.
Qed.
Lemma trap_pole rad x1 x2 : trapezoid rad x1 x2 0 = 0.
Proof. unfold trapezoid, latitude. cbn [INR]. rewrite Rmult_0_l, Rplus_0_r, cos_neg, cos_PI2. ring. Qed.

(* the weight at latitude i, longitude j computed by the code *)
Definition computed (rad : R) (x1 x2 i j : nat) : R := if (j =? 0)%nat then 0 else trapezoid rad x1 x2 i.
Lemma area_ok rad x1 x2 : (4 <= x1)%nat -> (1 <= x2)%nat ->
  area rad x1 x2 = Ok (map (fun i => map (fun j => computed rad x1 x2 i j) (seq 0 x2)) (seq 0 x1)).
Proof.
  intros H1 H2. unfold area. destruct (d_lat_ok H1) as [a [-> Ha]], (d_lon_ok H2) as [b [-> Hb]]. cbn [bind]. f_equal.
  apply map_ext_in. intros i Hi. apply in_seq in Hi. apply map_ext_in. intros j Hj. apply in_seq in Hj.
  rewrite Ha, Hb by lia. unfold computed. rewrite lat_rad_eq, nth_map_seq0 by lia. fold (latitude x1 i).
  destruct (Nat.eqb_spec j 0).
  - rewrite Rmult_0_r, Rmult_0_l. apply Rabs_R0.
  - fold (trapezoid rad x1 x2 i). apply Rabs_pos_eq. apply trap_nonneg; lia.
Qed.

Lemma rows_len x1 x2 x3 (g : nat -> nat -> R) : forall l, In l (map (@concat R) (map (map (fun x => repeat x x3)) (map (fun i => map (fun j => g i j) (seq 0 x2)) (seq 0 x1)))) -> length l = (x2 * x3)%nat.
Proof.
  intros l Hl. apply in_map_iff in Hl as [r [<- Hr]]. apply in_map_iff in Hr as [s [<- Hs]]. apply in_map_iff in Hs as [i [<- _]].
  rewrite concat_length_const with (m := x3); [now rewrite !map_length, seq_length|].
  intros l Hl. apply in_map_iff in Hl as [x [<- _]]. apply repeat_length.
Qed.
Lemma flat_entry x1 x2 x3 (g : nat -> nat -> R) i j k : (i < x1)%nat -> (j < x2)%nat -> (k < x3)%nat ->
  nth_error (flatten (map (map (fun x => repeat x x3)) (map (fun i => map (fun j => g i j) (seq 0 x2)) (seq 0 x1)))) (i * (x2 * x3) + (j * x3 + k)) = Some (g i j).
Proof.
  intros Hi Hj Hk. unfold flatten.
  rewrite nth_error_concat_const with (m := (x2 * x3)%nat); [|apply rows_len|nia].
  rewrite !map_map, nth_error_map_seq. destruct (Nat.ltb_spec i x1); [|lia]. cbn [Nat.add].
  rewrite nth_error_concat_const with (m := x3); [| |assumption].
  2:{ intros l Hl. apply in_map_iff in Hl as [x [<- _]]. apply repeat_length. }
  rewrite map_map, nth_error_map_seq. destruct (Nat.ltb_spec j x2); [|lia]. cbn [Nat.add]. now apply nth_error_repeat_lt.
Qed.
Lemma flatten_rep x n : flatten (concat (repeat x n)) = concat (repeat (flatten x) n).
Proof.
  induction n as [|n IH]; [reflexivity|]. cbn [repeat concat]. rewrite <- IH. unfold flatten. now rewrite map_app, concat_app.
Qed.
Lemma flat_len x1 x2 x3 (g : nat -> nat -> R) :
  length (flatten (map (map (fun x => repeat x x3)) (map (fun i => map (fun j => g i j) (seq 0 x2)) (seq 0 x1)))) = (x1 * (x2 * x3))%nat.
Proof.
  unfold flatten. rewrite concat_length_const with (m := (x2 * x3)%nat); [now rewrite !map_length, seq_length|]. apply rows_len.
Qed.

(* 2-D: every data entry (latitude i, longitude j, variable v) meets its own weight, which is the trapezoidal one except on
   the first longitude, where it is zero. *)
Theorem C66_2d : forall rad x1 x2 nv, (4 <= x1)%nat -> (1 <= x2)%nat ->
  exists w, geo_trapz_2D rad x1 x2 nv = Ok w /\ length (flatten w) = (x1 * x2 * nv)%nat /\
  forall i j v, (i < x1)%nat -> (j < x2)%nat -> (v < nv)%nat ->
    nth_error (flatten w) ((i * x2 + j) * nv + v) = Some (if (j =? 0)%nat then 0 else trapezoid rad x1 x2 i).
Proof.
  intros rad x1 x2 nv H1 H2. unfold geo_trapz_2D. rewrite area_ok by assumption. cbn [bind]. eexists. split; [reflexivity|].
  split; [rewrite flat_len; ring|]. intros i j v Hi Hj Hv.
  replace ((i * x2 + j) * nv + v)%nat with (i * (x2 * nv) + (j * nv + v))%nat by ring. exact (@flat_entry x1 x2 nv _ i j v Hi Hj Hv).
Qed.
Print Assumptions C66_2d.

(* expectation: weights are positive away from the poles. On the whole first longitude they are zero. *)
Theorem C66_positive_refuted : forall rad x1 x2 nv i v, rad <> 0 -> (4 <= x1)%nat -> (1 <= x2)%nat -> (1 <= i < x1 - 1)%nat -> (v < nv)%nat ->
  0 < trapezoid rad x1 x2 i /\
  exists w, geo_trapz_2D rad x1 x2 nv = Ok w /\ nth_error (flatten w) ((i * x2 + 0) * nv + v) = Some 0.
Proof.
  intros rad x1 x2 nv i v Hr H1 H2 [Hi0 Hi] Hv. split; [now apply trap_pos|].
  destruct (C66_2d rad nv H1 H2) as [w [E [_ L]]]. exists w. split; [exact E|]. rewrite L by lia. reflexivity.
Qed.
Print Assumptions C66_positive_refuted.
(* elsewhere they are *)
Theorem C66_positive_elsewhere : forall rad x1 x2 nv i j v, rad <> 0 -> (4 <= x1)%nat -> (1 <= x2)%nat -> (1 <= i < x1 - 1)%nat -> (1 <= j < x2)%nat -> (v < nv)%nat ->
  exists w x, geo_trapz_2D rad x1 x2 nv = Ok w /\ nth_error (flatten w) ((i * x2 + j) * nv + v) = Some x /\ 0 < x.
Proof.
  intros rad x1 x2 nv i j v Hr H1 H2 [Hi0 Hi] [Hj0 Hj] Hv.
  destruct (C66_2d rad nv H1 H2) as [w [E [_ L]]]. exists w, (trapezoid rad x1 x2 i). split; [exact E|]. split; [|now apply trap_pos].
  rewrite L by lia. destruct j; [lia|reflexivity].
Qed.
Print Assumptions C66_positive_elsewhere.

Lemma div_mod_pos n q r : (r < n)%nat -> ((q * n + r) / n = q /\ (q * n + r) mod n = r)%nat.
Proof. intros H. split; [symmetry; apply (Nat.div_unique _ n q r); lia | symmetry; apply (Nat.mod_unique _ n q r); lia]. Qed.
(* 3-D: the weights repeat the whole grid once per variable, so the entry at position p of the data meets the weight of
   latitude (p / (x2*x3)) mod x1 and longitude (p / x3) mod x2. *)
Theorem C66_3d : forall rad x1 x2 x3 nv, (4 <= x1)%nat -> (1 <= x2)%nat ->
  exists w, geo_trapz_3D rad x1 x2 x3 nv = Ok w /\ length (flatten w) = (x1 * x2 * x3 * nv)%nat /\
  forall p, (p < x1 * x2 * x3 * nv)%nat ->
    nth_error (flatten w) p =
    Some (if ((p / x3) mod x2 =? 0)%nat then 0 else trapezoid rad x1 x2 ((p / (x2 * x3)) mod x1)).
Proof.
  intros rad x1 x2 x3 nv H1 H2. unfold geo_trapz_3D. rewrite area_ok by assumption. cbn [bind]. eexists. split; [reflexivity|].
  set (g := fun i j => computed rad x1 x2 i j). set (G := map (map (fun x => repeat x x3)) _).
  assert (HG : length (flatten G) = (x1 * (x2 * x3))%nat) by (apply (flat_len x1 x2 x3 g)).
  assert (HL : forall l, In l (repeat (flatten G) nv) -> length l = (x1 * (x2 * x3))%nat) by (intros l Hl; now rewrite (repeat_spec _ _ _ Hl)).
  rewrite flatten_rep. split; [rewrite (@concat_length_const _ _ _ HL), repeat_length; ring|].
  intros p Hp. assert (Hx3 : (0 < x3)%nat) by nia. assert (Hv : (0 < nv)%nat) by nia.
  assert (E1 := Nat.div_mod p (x1 * (x2 * x3)) ltac:(nia)). assert (B1 := Nat.mod_upper_bound p (x1 * (x2 * x3)) ltac:(nia)).
  set (v := (p / (x1 * (x2 * x3)))%nat) in *. set (q := (p mod (x1 * (x2 * x3)))%nat) in *.
  assert (E2 := Nat.div_mod q (x2 * x3) ltac:(nia)). assert (B2 := Nat.mod_upper_bound q (x2 * x3) ltac:(nia)).
  set (i := (q / (x2 * x3))%nat) in *. set (q2 := (q mod (x2 * x3))%nat) in *.
  assert (E3 := Nat.div_mod q2 x3 ltac:(lia)). assert (B3 := Nat.mod_upper_bound q2 x3 ltac:(lia)).
  set (j := (q2 / x3)%nat) in *. set (k := (q2 mod x3)%nat) in *. clearbody v q i q2 j k.
  assert (Hi : (i < x1)%nat) by nia. assert (Hj : (j < x2)%nat) by nia. assert (Hvv : (v < nv)%nat) by nia.
  replace p with (v * (x1 * (x2 * x3)) + q)%nat at 1 by lia.
  rewrite (@nth_error_concat_const _ _ _ v q HL B1). rewrite nth_error_repeat_lt by assumption.
  replace q with (i * (x2 * x3) + (j * x3 + k))%nat at 1 by lia. unfold G. rewrite (@flat_entry x1 x2 x3 g i j k) by assumption.
  assert (D1 : (p / x3 = (v * x1 + i) * x2 + j)%nat) by (symmetry; apply Nat.div_unique with k; [exact B3|rewrite E1, E2, E3; ring]).
  assert (D2 : (p / (x2 * x3) = v * x1 + i)%nat) by (symmetry; apply Nat.div_unique with (j * x3 + k)%nat; [nia|rewrite E1, E2, E3; ring]).
  rewrite D1, D2. destruct (@div_mod_pos x2 (v * x1 + i) j Hj) as [_ ->]. destruct (@div_mod_pos x1 v i Hi) as [_ ->]. reflexivity.
Qed.
Print Assumptions C66_3d.

(* with one variable every entry (latitude a, longitude b, level c) meets its own weight *)
Theorem C66_3d_one_variable : forall rad x1 x2 x3, (4 <= x1)%nat -> (1 <= x2)%nat ->
  exists w, geo_trapz_3D rad x1 x2 x3 1 = Ok w /\
  forall a b c, (a < x1)%nat -> (b < x2)%nat -> (c < x3)%nat ->
    nth_error (flatten w) ((a * x2 + b) * x3 + c) = Some (if (b =? 0)%nat then 0 else trapezoid rad x1 x2 a).
Proof.
  intros rad x1 x2 x3 H1 H2. destruct (C66_3d rad x3 1 H1 H2) as [w [E [_ L]]]. exists w. split; [exact E|]. intros a b c Ha Hb Hc.
  assert (G1 : (a * x2 + b < x1 * x2)%nat).
  { assert (S a * x2 <= x1 * x2)%nat by (apply Nat.mul_le_mono_r; lia). cbn [Nat.mul] in *. lia. }
  assert (G2 : ((a * x2 + b) * x3 + c < x1 * x2 * x3 * 1)%nat).
  { assert (S (a * x2 + b) * x3 <= x1 * x2 * x3)%nat by (apply Nat.mul_le_mono_r; lia). cbn [Nat.mul] in *. lia. }
  rewrite L by exact G2.
  assert (D1 : (((a * x2 + b) * x3 + c) / x3 = a * x2 + b)%nat) by (symmetry; apply Nat.div_unique with c; nia).
  assert (D2 : (((a * x2 + b) * x3 + c) / (x2 * x3) = a)%nat) by (symmetry; apply Nat.div_unique with (b * x3 + c)%nat; nia).
  rewrite D1, D2. destruct (@div_mod_pos x2 a b Hb) as [_ ->]. now rewrite (Nat.mod_small a x1).
Qed.
Print Assumptions C66_3d_one_variable.

(* expectation: the same with several variables. On every grid with two or more longitudes and two or more variables some
   entry at the pole, whose weight is zero, meets a positive weight. *)
Theorem C66_3d_variables_refuted : forall rad x1 x2 x3 nv, rad <> 0 -> (4 <= x1)%nat -> (2 <= x2)%nat -> (1 <= x3)%nat -> (2 <= nv)%nat ->
  exists w b c v x, geo_trapz_3D rad x1 x2 x3 nv = Ok w /\ (b < x2)%nat /\ (c < x3)%nat /\ (v < nv)%nat /\
    nth_error (flatten w) (((0 * x2 + b) * x3 + c) * nv + v) = Some x /\ 0 < x /\ trapezoid rad x1 x2 0 = 0.
Proof.
  intros rad x1 x2 x3 nv Hr H1 H2 H3 Hv. destruct (@C66_3d rad x1 x2 x3 nv H1 ltac:(lia)) as [w [E [_ L]]].
  set (p := ((x2 + 1) * x3)%nat).
  assert (E1 := Nat.div_mod p nv ltac:(lia)). assert (B1 := Nat.mod_upper_bound p nv ltac:(lia)).
  set (v := (p mod nv)%nat) in *. set (q := (p / nv)%nat) in *.
  assert (E2 := Nat.div_mod q x3 ltac:(lia)). assert (B2 := Nat.mod_upper_bound q x3 ltac:(lia)).
  set (c := (q mod x3)%nat) in *. set (b := (q / x3)%nat) in *. clearbody v q c b.
  assert (Hp : (p < x2 * x3 * nv)%nat) by (unfold p; nia).
  assert (Hb : (b < x2)%nat).
  { apply Nat.nle_gt. intros Hc. assert (x2 * x3 <= b * x3)%nat by (now apply Nat.mul_le_mono_r).
    assert (x2 * x3 * nv <= q * nv)%nat by (apply Nat.mul_le_mono_r; lia). lia. }
  exists w, b, c, v, (trapezoid rad x1 x2 1). repeat split; try assumption.
  - replace (((0 * x2 + b) * x3 + c) * nv + v)%nat with p by nia.
    rewrite L by nia.
    assert (D1 : (p / x3 = x2 + 1)%nat) by (unfold p; apply Nat.div_mul; lia).
    assert (D2 : (p / (x2 * x3) = 1)%nat) by (symmetry; apply Nat.div_unique with x3; unfold p; nia).
    rewrite D1, D2, (Nat.mod_small 1 x1) by lia.
    replace ((x2 + 1) mod x2)%nat with 1%nat; [reflexivity|].
    apply Nat.mod_unique with 1%nat; lia.
  - apply trap_pos; try assumption; lia.
  - apply trap_pole.
Qed.
Print Assumptions C66_3d_variables_refuted.

(* grids with fewer than four latitudes are not supported *)
Theorem C66_small_grids_rejected : forall rad x1 x2 x3 nv, (x1 < 4)%nat ->
  geo_trapz_2D rad x1 x2 nv = Err IndexError /\ geo_trapz_3D rad x1 x2 x3 nv = Err IndexError.
Proof. intros rad x1 x2 x3 nv H. unfold geo_trapz_2D, geo_trapz_3D, area. rewrite d_lat_small by assumption. split; reflexivity. Qed.
Print Assumptions C66_small_grids_rejected.
Example C66_case : exists w b c v x, geo_trapz_3D 1 4 2 3 2 = Ok w /\ (b < 2)%nat /\ (c < 3)%nat /\ (v < 2)%nat /\
  nth_error (flatten w) (((0 * 2 + b) * 3 + c) * 2 + v) = Some x /\ 0 < x /\ trapezoid 1 4 2 0 = 0.
Proof. apply C66_3d_variables_refuted; try lia. lra. Qed.
Example C66_case2 : exists w x, geo_trapz_2D 1 5 4 2 = Ok w /\ nth_error (flatten w) ((2 * 4 + 3) * 2 + 1) = Some x /\ 0 < x.
Proof. apply C66_positive_elsewhere; try lia. lra. Qed.
