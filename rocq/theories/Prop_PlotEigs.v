(* C131: plots of eigenvalues and axis limits. *)
From Coq Require Import QArith Qround Qabs Lqa.
From Verif Require Import Base_List Model_Reader2 Model_Base Proof_Base Prop_Base Model_PlotEigs.
Set Implicit Arguments.
Local Open Scope nat_scope.

Lemma ceil_abs_spec z : (0 <= ceil_abs z)%Z /\ (fst z * fst z + snd z * snd z <= inject_Z (ceil_abs z * ceil_abs z))%Q.
Proof.
  unfold ceil_abs. set (q := (fst z * fst z + snd z * snd z)%Q). split; [apply Z.sqrt_up_nonneg|].
  apply Qle_trans with (inject_Z (Qceiling q)); [apply Qle_ceiling|]. rewrite <- Zle_Qle.
  destruct (Z.le_gt_cases (Qceiling q) 0) as [H|H]; [apply Z.le_trans with 0%Z; [exact H|]; apply Z.square_nonneg|].
  apply Z.sqrt_up_spec in H. lia.
Qed.
Lemma fold_max_ge l : forall a, (a <= fold_left Z.max l a)%Z /\ (forall x, In x l -> (x <= fold_left Z.max l a)%Z).
Proof.
  induction l as [|y l IH]; intros a; cbn [fold_left]; [split; [lia|contradiction]|].
  destruct (IH (Z.max a y)) as [H1 H2]. split; [lia|]. intros x [->|H]; [lia|now apply H2].
Qed.
Lemma limit_ge eigs m : limit eigs = Ok m -> forall z, In z eigs -> (ceil_abs z <= m)%Z.
Proof.
  destruct eigs as [|z0 l]; [discriminate|]. cbn [limit]. intros E. injection E as <-. destruct (fold_max_ge (map ceil_abs l) (ceil_abs z0)) as [H1 H2].
  intros z [->|H]; [exact H1|]. apply H2. now apply in_map.
Qed.
Lemma limit_in eigs m : limit eigs = Ok m -> exists z, In z eigs /\ ceil_abs z = m.
Proof.
  destruct eigs as [|z0 l]; [discriminate|]. cbn [limit]. intros E. injection E as <-.
  assert (H : forall l a, fold_left Z.max (map ceil_abs l) a = a \/ exists z, In z l /\ ceil_abs z = fold_left Z.max (map ceil_abs l) a).
  { clear. induction l as [|y l IH]; intros a; cbn [map fold_left]; [now left|]. destruct (IH (Z.max a (ceil_abs y))) as [E|[z [H E]]].
    - destruct (Z.max_spec a (ceil_abs y)) as [[Hl Hm]|[Hl Hm]]; rewrite Hm in *; [right; exists y; split; [now left|now symmetry]|now left].
    - right. exists z. split; [now right|exact E]. }
  destruct (H l (ceil_abs z0)) as [E|[z [Hz E]]]; [exists z0; split; [now left|now symmetry]|exists z; split; [now right|exact E]].
Qed.
Lemma square_le (a b : Q) : (0 <= b)%Q -> (a * a <= b * b)%Q -> (a <= b)%Q.
Proof. intros Hb H. destruct (Qlt_le_dec b a) as [L|L]; [|exact L]. exfalso. nra. Qed.

(* Every eigenvalue lies within the axes of plot_eigs, and strictly within unless all are zero. *)
Theorem C131_every_eigenvalue_within_the_axes : forall eigs pts lo hi, plot_eigs eigs = Ok (pts, (lo, hi)) ->
  pts = eigs /\ (forall re im, In (re, im) eigs -> lo <= re <= hi /\ lo <= im <= hi)%Q /\
  ((exists re im, In (re, im) eigs /\ ~ (re == 0 /\ im == 0)%Q) -> forall re im, In (re, im) eigs -> lo < re < hi /\ lo < im < hi)%Q.
Proof.
  intros eigs pts lo hi H. unfold plot_eigs in H. destruct (limit eigs) as [m|] eqn:El; [|discriminate]. cbn [bind] in H. injection H as <- <- <-.
  split; [reflexivity|].
  assert (P : forall re im, In (re, im) eigs -> (re <= inject_Z m /\ - re <= inject_Z m /\ im <= inject_Z m /\ - im <= inject_Z m)%Q).
  { intros re im Hz. assert (Hm := limit_ge eigs El _ Hz). destruct (ceil_abs_spec (re, im)) as [H0 H1]. cbn [fst snd] in H1.
    rewrite inject_Z_mult in H1. rewrite Zle_Qle in Hm, H0. change (inject_Z 0) with 0%Q in H0. generalize dependent (inject_Z (ceil_abs (re, im))). intros c Hm' H0 H1.
    generalize dependent (inject_Z m). intros M. intros.
    assert (B : forall a, (a * a <= c * c)%Q -> (a <= M)%Q) by (intros a Ha; apply Qle_trans with c; [now apply square_le|assumption]).
    repeat split; apply B; nra. }
  assert (H0 : (0 <= m)%Z). { destruct (limit_in eigs El) as [z [_ <-]]. apply ceil_abs_spec. }
  split.
  - intros re im Hz. apply P in Hz. rewrite Zle_Qle in H0. change (inject_Z 0) with 0%Q in H0. generalize dependent (inject_Z m). intros M; intros. lra.
  - intros [re0 [im0 [Hz0 Hne]]] re im Hz. assert (Hp : (0 < inject_Z m)%Q).
    { change 0%Q with (inject_Z 0). rewrite <- Zlt_Qlt. destruct (Z.eq_dec m 0) as [->|]; [|lia]. exfalso. apply Hne.
      apply P in Hz0. change (inject_Z 0) with 0%Q in Hz0. split; lra. }
    apply P in Hz. generalize dependent (inject_Z m). intros M; intros. lra.
Qed.
Print Assumptions C131_every_eigenvalue_within_the_axes.

(* Curve k of the spectrum consists of the pairs (frequency, real part of eigenvalue k), in the order of the axis; against the period the
   first coordinate is 1/frequency. *)
Theorem C131_curves_are_the_spectra : forall eigs freq n, n_columns eigs = n -> 0 < n -> length freq = length eigs ->
  exists cs ps, plot_eigs_vs_frequency eigs freq = Ok cs /\ plot_eigs_vs_period eigs freq = Ok ps /\ length cs = n /\ length ps = n /\
  forall k i, k < n -> i < length freq ->
    nth i (points (nth k cs (Curve 0 []))) None = Some (nth i freq 0, fst (nth k (nth i eigs []) (0, 0)))%Q /\
    (~ nth i freq 0 == 0 -> nth i (points (nth k ps (Curve 0 []))) None = Some (1 / nth i freq 0, fst (nth k (nth i eigs []) (0, 0))))%Q.
Proof.
  intros eigs freq n Hn H0 Hl. unfold plot_eigs_vs_frequency, plot_eigs_vs_period, curves. rewrite Hn. destruct n as [|n]; [lia|].
  rewrite !map_length, Hl, Nat.eqb_refl. do 2 eexists. split; [reflexivity|]. split; [reflexivity|]. rewrite !map_length, seq_length. split; [reflexivity|]. split; [reflexivity|].
  intros k i Hk Hi.
  assert (G : forall (g : Q -> option Q) (c : nat -> Q), nth i (points (nth k (map (fun k => Curve (c k) (map (fun p => match fst p with Some x => Some (x, fst (nth k (snd p) (0, 0)%Q)) | None => None end) (combine (map g freq) eigs))) (seq 0 (S n))) (Curve 0 []))) None
     = match g (nth i freq 0%Q) with Some x => Some (x, fst (nth k (nth i eigs []) (0, 0)%Q)) | None => None end).
  { intros g c. rewrite nth_map_seq0 by exact Hk. cbn [points].
    rewrite (nth_indep _ None ((fun p => match fst p with Some x => Some (x, fst (nth k (snd p) (0, 0)%Q)) | None => None end) (g 0%Q, []))).
    2: { rewrite map_length, combine_length, map_length. lia. }
    rewrite (map_nth (fun p : option Q * list (Q * Q) => match fst p with Some x => Some (x, fst (nth k (snd p) (0, 0)%Q)) | None => None end)).
    rewrite combine_nth by (rewrite map_length; exact Hl). cbn [fst snd]. rewrite map_nth. reflexivity. }
  split; [apply (G (@Some Q) (grey_level (S n)))|]. intros Hne. rewrite (G (fun f => if Qeq_bool f 0 then None else Some (1 / f)%Q) (grey_level (S n))).
  destruct (Qeq_bool (nth i freq 0%Q) 0) eqn:E; [apply Qeq_bool_iff in E; contradiction|reflexivity].
Qed.
Print Assumptions C131_curves_are_the_spectra.

(* With the axis of a real record every frequency but the first has a place on the logarithmic axes. *)
Theorem C131_one_sided_spectrum_shown : forall n dt k y, 0 < n -> (0 < dt)%Q -> (0 < y)%Q ->
  let f := get_freq_axis true false n dt in k < length f ->
  on_log_axes (Some (nth k f 0%Q, y)) = negb (k =? 0).
Proof.
  intros n dt k y Hn Hdt Hy f Hk. destruct (C24_one_sided_axis Hn Hdt) as [_ [Hv _]]. fold f in Hv. cbn [on_log_axes].
  assert (Y : Qle_bool y 0 = false) by (apply Bool.not_true_iff_false; rewrite Qle_bool_iff; lra). rewrite Y, Bool.andb_true_r. f_equal.
  assert (Hq : (0 < qn n * dt)%Q) by (apply Qmult_lt_0_compat; [|exact Hdt]; unfold qn; change 0%Q with (inject_Z 0); rewrite <- Zlt_Qlt; lia).
  destruct (Nat.eqb_spec k 0) as [->|Hne].
  - rewrite Qle_bool_iff, (Hv 0 Hk). unfold qn at 1. change (inject_Z (Z.of_nat 0)) with 0%Q. unfold Qdiv. rewrite Qmult_0_l. apply Qle_refl.
  - apply Bool.not_true_iff_false. rewrite Qle_bool_iff, (Hv k Hk). apply Qlt_not_le. apply Qlt_shift_div_l; [exact Hq|]. rewrite Qmult_0_l.
    unfold qn. change 0%Q with (inject_Z 0). rewrite <- Zlt_Qlt. lia.
Qed.
Print Assumptions C131_one_sided_spectrum_shown.

(* expectation: the spectrum plot of a complex record shows its spectrum.  With an even transform length only the frequencies
   1..n/2 of n have a place: the negative half is missing, in both plots. *)
Theorem C131_two_sided_spectrum_half_missing_refuted : forall n dt k y, (0 < dt)%Q -> Nat.even n = true -> (0 < y)%Q -> k < n ->
  let f := nth k (get_freq_axis false false n dt) 0%Q in
  on_log_axes (Some (f, y)) = (1 <=? k) && (2 * k <=? n) /\
  (~ f == 0 -> on_log_axes (Some (1 / f, y)) = (1 <=? k) && (2 * k <=? n))%Q.
Proof.
  intros n dt k y Hdt He Hy Hk f. assert (Hf := C25_two_sided_axis_even Hdt Hk He). fold f in Hf.
  assert (Y : Qle_bool y 0 = false) by (apply Bool.not_true_iff_false; rewrite Qle_bool_iff; lra).
  assert (Hq : (0 < qn n * dt)%Q) by (apply Qmult_lt_0_compat; [|exact Hdt]; unfold qn; change 0%Q with (inject_Z 0); rewrite <- Zlt_Qlt; lia).
  assert (S : Qle_bool f 0 = negb ((1 <=? k) && (2 * k <=? n))).
  { destruct (Nat.leb_spec 1 k) as [H1|H1]; destruct (Nat.leb_spec (2 * k) n) as [H2|H2]; cbn [andb negb].
    - apply Bool.not_true_iff_false. rewrite Qle_bool_iff, Hf. apply Qlt_not_le. unfold dft_frequency. apply Nat.leb_le in H2 as ->.
      apply Qlt_shift_div_l; [exact Hq|]. rewrite Qmult_0_l. unfold qn. change 0%Q with (inject_Z 0). rewrite <- Zlt_Qlt. lia.
    - rewrite Qle_bool_iff, Hf. unfold dft_frequency. apply Nat.leb_gt in H2 as ->.
      assert (E : (qn k / (qn n * dt) - 1 / dt == (qn k - qn n) / (qn n * dt))%Q).
      { field. split; [lra|]. intros E. rewrite E in Hq. lra. }
      rewrite E. apply Qle_shift_div_r; [exact Hq|]. rewrite Qmult_0_l. assert (qn k <= qn n)%Q by (unfold qn; rewrite <- Zle_Qle; lia). lra.
    - rewrite Qle_bool_iff, Hf. unfold dft_frequency. apply Nat.leb_le in H2 as ->. replace k with 0 by lia. unfold qn at 1. change (inject_Z (Z.of_nat 0)) with 0%Q.
      unfold Qdiv. rewrite Qmult_0_l. apply Qle_refl.
    - lia. }
  cbn [on_log_axes]. rewrite Y, Bool.andb_true_r, S, Bool.negb_involutive. split; [reflexivity|]. intros Hne.
  rewrite Bool.andb_true_r. rewrite <- (Bool.negb_involutive ((1 <=? k) && (2 * k <=? n))), <- S. f_equal.
  apply Bool.eq_true_iff_eq. rewrite !Qle_bool_iff. split; intros H.
  - destruct (Qlt_le_dec 0 f) as [L|L]; [|exact L]. exfalso. assert (0 < 1 / f)%Q by (apply Qlt_shift_div_l; lra). lra.
  - assert (L : (0 < - f)%Q) by lra. setoid_replace (1 / f)%Q with (- (1 / - f))%Q by (field; lra).
    assert (0 < 1 / - f)%Q by (apply Qlt_shift_div_l; lra). lra.
Qed.
Print Assumptions C131_two_sided_spectrum_half_missing_refuted.

(* Curves get lighter with the mode number and are never white; all have different shades exactly when there are fewer than 40. *)
Theorem C131_grey_levels : forall n, 0 < n ->
  (forall k, k < n -> (0 <= grey_level n k <= 96 # 100)%Q) /\
  (forall j k, j <= k < n -> (grey_level n j <= grey_level n k)%Q) /\
  ((forall j k, j < k < n -> ~ (grey_level n j == grey_level n k)%Q) <-> n < 40).
Proof.
  intros n Hn. assert (Hq : (0 < qn n)%Q) by (unfold qn; change 0%Q with (inject_Z 0); rewrite <- Zlt_Qlt; lia).
  assert (C : forall k, (Qle_bool (95 # 100) (qn k / qn n) = true <-> 95 * n <= 100 * k)).
  { intros k. rewrite Qle_bool_iff. split; intros H.
    - assert (H2 : ((95 # 100) * qn n <= qn k)%Q). { apply Qmult_le_compat_r with (z := qn n) in H; [|lra]. unfold Qdiv in H. rewrite <- Qmult_assoc in H. rewrite (Qmult_comm (/ qn n)), Qmult_inv_r, Qmult_1_r in H; lra. }
      unfold qn in H2. unfold Qle, inject_Z in H2. cbn [Qnum Qden Qmult] in H2. lia.
    - apply Qle_shift_div_l; [exact Hq|]. unfold qn, Qle, inject_Z. cbn [Qnum Qden Qmult]. lia. }
  assert (M : forall j k, j <= k -> (qn j / qn n <= qn k / qn n)%Q).
  { intros j k H. unfold Qdiv. apply Qmult_le_compat_r; [unfold qn; rewrite <- Zle_Qle; lia|]. apply Qlt_le_weak, Qinv_lt_0_compat, Hq. }
  assert (M' : forall j k, j < k -> (qn j / qn n < qn k / qn n)%Q).
  { intros j k H. unfold Qdiv. apply Qmult_lt_compat_r; [apply Qinv_lt_0_compat, Hq|]. unfold qn; rewrite <- Zlt_Qlt; lia. }
  assert (P : forall k, (0 <= qn k / qn n)%Q).
  { intros k. apply Qle_shift_div_l; [exact Hq|]. rewrite Qmult_0_l. unfold qn. change 0%Q with (inject_Z 0). rewrite <- Zle_Qle. lia. }
  assert (U : forall k, Qle_bool (95 # 100) (qn k / qn n) = false -> (qn k / qn n < 95 # 100)%Q).
  { intros k H. apply Qnot_le_lt. rewrite <- Qle_bool_iff. congruence. }
  unfold grey_level. cbv zeta. split; [|split].
  - intros k Hk. specialize (P k). destruct (Qle_bool (95 # 100) (qn k / qn n)) eqn:E; [split; lra|]. apply U in E. lra.
  - intros j k [Hjk Hk]. specialize (M j k Hjk). destruct (Qle_bool (95 # 100) (qn j / qn n)) eqn:E1; destruct (Qle_bool (95 # 100) (qn k / qn n)) eqn:E2.
    + lra.
    + apply C in E1. assert (95 * n <= 100 * k) by lia. apply C in H. congruence.
    + apply U in E1. lra.
    + exact M.
  - split.
    + intros H. destruct (Nat.lt_ge_cases n 40) as [L|L]; [exact L|exfalso]. apply (H (n - 2) (n - 1)); [lia|].
      assert (E1 : Qle_bool (95 # 100) (qn (n - 2) / qn n) = true) by (apply C; lia).
      assert (E2 : Qle_bool (95 # 100) (qn (n - 1) / qn n) = true) by (apply C; lia). rewrite E1, E2. reflexivity.
    + intros L j k [Hjk Hk]. specialize (M' j k Hjk).
      destruct (Qle_bool (95 # 100) (qn j / qn n)) eqn:E1; [apply C in E1; lia|]. apply U in E1.
      destruct (Qle_bool (95 # 100) (qn k / qn n)); lra.
Qed.
Print Assumptions C131_grey_levels.

(* expectation: the axes of a mode or data plot show the whole domain.  They do iff the coordinate range contains zero. *)
Lemma qmin_le x l : (forall y, In y (x :: l) -> qmin_l x l <= y)%Q /\ In (qmin_l x l) (x :: l).
Proof.
  induction l as [|a l [H1 H2]]; cbn [qmin_l fold_right].
  - split; [intros y [->|[]]; apply Qle_refl|now left].
  - fold (qmin_l x l). destruct (Qle_bool a (qmin_l x l)) eqn:E.
    + apply Qle_bool_iff in E. split; [|right; now left]. intros y [->|[->|H]]; [|apply Qle_refl|]; apply Qle_trans with (1 := E); apply H1; [now left|now right].
    + assert (E' : (qmin_l x l <= a)%Q). { apply Qlt_le_weak, Qnot_le_lt. rewrite <- Qle_bool_iff. congruence. }
      split; [|destruct H2 as [H2|H2]; [now left|right; now right]]. intros y [->|[->|H]]; [apply H1; now left|exact E'|apply H1; now right].
Qed.
Lemma qmax_ge x l : (forall y, In y (x :: l) -> y <= qmax_l x l)%Q /\ In (qmax_l x l) (x :: l).
Proof.
  induction l as [|a l [H1 H2]]; cbn [qmax_l fold_right].
  - split; [intros y [->|[]]; apply Qle_refl|now left].
  - fold (qmax_l x l). destruct (Qle_bool a (qmax_l x l)) eqn:E.
    + apply Qle_bool_iff in E. split; [|destruct H2 as [H2|H2]; [now left|right; now right]]. intros y [->|[->|H]]; [apply H1; now left|exact E|apply H1; now right].
    + assert (E' : (qmax_l x l <= a)%Q). { apply Qlt_le_weak, Qnot_le_lt. rewrite <- Qle_bool_iff. congruence. }
      split; [|right; now left]. intros y [->|[->|H]]; [|apply Qle_refl|]; (eapply Qle_trans; [|exact E']); apply H1; [now left|now right].
Qed.
Theorem C131_axes_cut_the_domain_refuted : forall xs lo hi, axes_limits xs = Ok (lo, hi) ->
  ((forall x, In x xs -> lo <= x <= hi)%Q <-> (exists a, In a xs /\ (a <= 0)%Q) /\ (exists b, In b xs /\ (0 <= b)%Q)).
Proof.
  intros [|x l] lo hi H; [discriminate|]. cbn [axes_limits] in H. injection H as <- <-.
  destruct (qmin_le x l) as [A1 A2]. destruct (qmax_ge x l) as [B1 B2]. split.
  - intros H. split; [exists (qmin_l x l); split; [exact A2|]|exists (qmax_l x l); split; [exact B2|]].
    + apply H in A2. lra.
    + apply H in B2. lra.
  - intros [[a [Ha Ha0]] [b [Hb Hb0]]] y Hy. assert (M := A1 y Hy). assert (N := B1 y Hy). apply A1 in Ha. apply B1 in Hb. lra.
Qed.
Print Assumptions C131_axes_cut_the_domain_refuted.
Example C131_case : plot_eigs [(3, 4); (0, -1 # 2)]%Q = Ok ([(3, 4); (0, -1 # 2)], (- (inject_Z 5 * (12 # 10)), inject_Z 5 * (12 # 10)))%Q /\
  axes_limits [100; 150; 200]%Q = Ok (100 * (105 # 100), 200 * (105 # 100))%Q.
Proof. split; reflexivity. Qed.
