(* C147: rounding does not change the integers derived by division. *)
From Coq Require Import ZArith NArith Reals Lra Lia.
From Flocq Require Import Core Relative Mult_error Plus_error.
From Verif Require Import Model_Float Model_Reader2.
Local Open Scope R_scope.

Local Instance prec53 : Prec_gt_0 53 := eq_refl.
Local Instance valid_fexp : Valid_exp fexp. Proof. unfold fexp. typeclasses eauto. Qed.

Lemma int_double z : (Z.abs z <= 2 ^ 53)%Z -> double (IZR z).
Proof.
  intros H. destruct (Z.eq_dec (Z.abs z) (2 ^ 53)) as [E|E].
  - assert (D : double (bpow radix2 53)) by (apply generic_format_FLT_bpow; [reflexivity|lia]).
    assert (P : IZR (2 ^ 53) = bpow radix2 53) by (rewrite <- (IZR_Zpower radix2); [reflexivity|lia]).
    destruct (Z.abs_spec z) as [[_ A]|[_ A]]; rewrite A in E.
    + rewrite E, P. exact D.
    + replace z with (- (2 ^ 53))%Z by lia. rewrite opp_IZR, P. now apply generic_format_opp.
  - apply generic_format_FLT. exists (Float radix2 z 0); cbn; [unfold F2R; cbn; ring|lia|lia].
Qed.
Lemma scaled_double z e : (Z.abs z < 2 ^ 53)%Z -> (-1074 <= e)%Z -> double (IZR z * bpow radix2 e).
Proof. intros H He. apply generic_format_FLT. now exists (Float radix2 z e). Qed.
Lemma fl_double x : double x -> fl x = x.
Proof. intros. apply round_generic; [typeclasses eauto|assumption]. Qed.
Lemma fl_is_double x : double (fl x).
Proof. apply generic_format_round; typeclasses eauto. Qed.
Lemma fl_mono x y : x <= y -> fl x <= fl y.
Proof. intros. apply round_le; try typeclasses eauto. assumption. Qed.
Lemma fl_error x : bpow radix2 (-1022) <= Rabs x -> Rabs (fl x - x) <= bpow radix2 (-53) * Rabs x.
Proof.
  intros H. assert (E := relative_error_N_FLT radix2 (-1074) 53 eq_refl (fun t => negb (Z.even t)) x H).
  change (- (53) + 1)%Z with (-52)%Z in E. replace (/ 2 * bpow radix2 (-52)) with (bpow radix2 (-53)) in E; [exact E|].
  change (-52)%Z with (1 + -53)%Z. rewrite bpow_plus. change (bpow radix2 1) with 2. lra.
Qed.
Lemma b53 : bpow radix2 (-53) * IZR (2 ^ 53) = 1.
Proof. rewrite (IZR_Zpower radix2) by lia. rewrite <- bpow_plus. reflexivity. Qed.

(* the rounded quotient of two integers stays strictly between the neighbouring integers of the exact one *)
Lemma quotient_close a b : (0 < a < 2 ^ 53)%Z -> (0 < b < 2 ^ 53)%Z -> Rabs (fdiv (IZR a) (IZR b) - IZR a / IZR b) < / IZR b.
Proof.
  intros Ha Hb. assert (B : 0 < IZR b) by (apply IZR_lt; lia). assert (A : 0 < IZR a) by (apply IZR_lt; lia).
  assert (P : 0 < IZR a / IZR b) by now apply Rdiv_lt_0_compat.
  assert (L : bpow radix2 (-1022) <= Rabs (IZR a / IZR b)).
  { rewrite Rabs_pos_eq by lra. apply Rle_trans with (/ IZR b).
    - apply Rle_trans with (/ IZR (2 ^ 53)).
      + rewrite (IZR_Zpower radix2) by lia. rewrite <- bpow_opp. apply bpow_le. lia.
      + apply Rinv_le; [assumption|]. apply IZR_le. lia.
    - unfold Rdiv. rewrite <- (Rmult_1_l (/ IZR b)) at 1. apply Rmult_le_compat_r; [left; now apply Rinv_0_lt_compat|]. apply IZR_le. lia. }
  apply Rle_lt_trans with (1 := fl_error _ L). rewrite Rabs_pos_eq by lra. unfold Rdiv. rewrite <- Rmult_assoc.
  rewrite <- (Rmult_1_l (/ IZR b)) at 2. apply Rmult_lt_compat_r; [now apply Rinv_0_lt_compat|]. rewrite <- b53.
  apply Rmult_lt_compat_l; [apply bpow_gt_0|]. apply IZR_lt. lia.
Qed.
Lemma quotient_ceil a b k : (0 <= a < 2 ^ 53)%Z -> (0 < b < 2 ^ 53)%Z -> (b * (k - 1) < a <= b * k)%Z -> IZR (k - 1) < fdiv (IZR a) (IZR b) <= IZR k.
Proof.
  intros Ha Hb Hk. assert (B : 0 < IZR b) by (apply IZR_lt; lia).
  assert (K : (0 <= k <= a)%Z) by nia.
  split.
  - destruct (Z.eq_dec a 0) as [->|Na].
    + assert (k = 0)%Z by nia. subst k. unfold fdiv, Rdiv. rewrite Rmult_0_l. rewrite fl_double; [apply IZR_lt; lia|]. apply (int_double 0). lia.
    + assert (C := quotient_close a b ltac:(lia) Hb). apply Rabs_def2 in C. destruct C as [_ C].
      apply Rle_lt_trans with (IZR a / IZR b - / IZR b); [|lra]. apply Rmult_le_reg_r with (IZR b); [assumption|].
      replace ((IZR a / IZR b - / IZR b) * IZR b) with (IZR a - 1) by (field; lra). rewrite <- mult_IZR, <- minus_IZR. apply IZR_le. lia.
  - rewrite <- (fl_double (IZR k)) by (apply int_double; lia). apply fl_mono. apply Rmult_le_reg_r with (IZR b); [assumption|].
    replace (IZR a / IZR b * IZR b) with (IZR a) by (field; lra). rewrite <- mult_IZR. apply IZR_le. lia.
Qed.
Lemma quotient_floor a b : (0 <= a < 2 ^ 53)%Z -> (0 < b < 2 ^ 53)%Z -> IZR (a / b) <= fdiv (IZR a) (IZR b) < IZR (a / b + 1).
Proof.
  intros Ha Hb. assert (B : 0 < IZR b) by (apply IZR_lt; lia). pose proof (Z.div_mod a b ltac:(lia)). pose proof (Z.mod_pos_bound a b ltac:(lia)).
  assert (K : (0 <= a / b <= a)%Z) by (split; [apply Z.div_pos; lia|apply Z.div_le_upper_bound; nia]). set (k := (a / b)%Z) in *.
  split.
  - rewrite <- (fl_double (IZR k)) by (apply int_double; lia). apply fl_mono. apply Rmult_le_reg_r with (IZR b); [assumption|].
    replace (IZR a / IZR b * IZR b) with (IZR a) by (field; lra). rewrite <- mult_IZR. apply IZR_le. lia.
  - destruct (Z.eq_dec a 0) as [Ea|Na].
    + assert (k = 0)%Z by nia. rewrite Ea, H1. unfold fdiv, Rdiv. rewrite Rmult_0_l. rewrite fl_double; [apply IZR_lt; lia|]. apply (int_double 0). lia.
    + assert (C := quotient_close a b ltac:(lia) Hb). apply Rabs_def2 in C. destruct C as [C _].
      apply Rlt_le_trans with (IZR a / IZR b + / IZR b); [lra|]. apply Rmult_le_reg_r with (IZR b); [assumption|].
      replace ((IZR a / IZR b + / IZR b) * IZR b) with (IZR a + 1) by (field; lra). rewrite <- mult_IZR, <- plus_IZR. apply IZR_le. lia.
Qed.

(* ---- C147 ---- *)
(* rounding up a quotient of integers below 2^53: the smallest k with a <= b * k *)
Theorem C147_rounded_up_quotients : forall a b, (0 <= a < 2 ^ 53)%Z -> (0 < b < 2 ^ 53)%Z ->
  (b * (f_ceil_div a b - 1) < a <= b * f_ceil_div a b)%Z.
Proof.
  intros a b Ha Hb. assert (exists k, (b * (k - 1) < a <= b * k)%Z) as (k & Hk).
  { exists ((a + (b - 1)) / b)%Z. pose proof (Z.div_mod (a + (b - 1)) b ltac:(lia)). pose proof (Z.mod_pos_bound (a + (b - 1)) b ltac:(lia)). lia. }
  unfold f_ceil_div. rewrite (Zceil_imp k); [exact Hk|]. now apply quotient_ceil.
Qed.
Print Assumptions C147_rounded_up_quotients.

(* an overlap of a whole number of percent: the smallest number of snapshots that is at least that share of the block *)
Theorem C147_overlap_in_whole_percent : forall n_dft percent, (0 <= n_dft)%Z -> (0 <= percent)%Z -> (n_dft * percent < 2 ^ 53)%Z ->
  (100 * (f_overlap n_dft (IZR percent) - 1) < n_dft * percent <= 100 * f_overlap n_dft (IZR percent))%Z.
Proof.
  intros n p Hn Hp Hb. unfold f_overlap. replace (fmul (IZR n) (IZR p)) with (IZR (n * p)).
  - apply (C147_rounded_up_quotients (n * p) 100); nia.
  - unfold fmul. rewrite <- mult_IZR. symmetry. apply fl_double, int_double. rewrite Z.abs_eq; nia.
Qed.
Print Assumptions C147_overlap_in_whole_percent.

(* any overlap: the exact number of snapshots, or one less (when the exact share exceeds a whole number by no more than rounding) *)
Theorem C147_any_overlap : forall n_dft overlap k, (0 <= k)%Z -> (100 * k <= 2 ^ 53)%Z ->
  100 * IZR (k - 1) < IZR n_dft * overlap <= 100 * IZR k -> f_overlap n_dft overlap = k \/ f_overlap n_dft overlap = (k - 1)%Z.
Proof.
  intros n o k Hk Hb H. unfold f_overlap.
  assert (F1 : IZR (100 * (k - 1)) <= fmul (IZR n) o <= IZR (100 * k)).
  { split.
    - rewrite <- (fl_double (IZR (100 * (k - 1)))) by (apply int_double; lia). apply fl_mono. rewrite mult_IZR. lra.
    - rewrite <- (fl_double (IZR (100 * k))) by (apply int_double; lia). apply fl_mono. rewrite mult_IZR. lra. }
  rewrite !mult_IZR in F1.
  assert (F2 : IZR (k - 1) <= fdiv (fmul (IZR n) o) 100 <= IZR k).
  { split.
    - rewrite <- (fl_double (IZR (k - 1))) by (apply int_double; lia). apply fl_mono. lra.
    - rewrite <- (fl_double (IZR k)) by (apply int_double; lia). apply fl_mono. lra. }
  destruct (Rle_lt_or_eq_dec _ _ (proj1 F2)) as [L|E].
  - left. apply Zceil_imp. lra.
  - right. rewrite <- E. apply Zceil_IZR.
Qed.
Print Assumptions C147_any_overlap.

(* half a block *)
Theorem C147_half_block_plus_one : forall n, (0 <= n < 2 ^ 52)%Z -> f_half_plus_one n = (n / 2 + 1)%Z.
Proof.
  intros n Hn. unfold f_half_plus_one, fadd, fdiv.
  assert (E : IZR n / 2 = IZR n * bpow radix2 (-1)) by reflexivity.
  assert (D : double (IZR n / 2)) by (rewrite E; apply scaled_double; lia). rewrite (fl_double _ D).
  assert (D2 : double (IZR n / 2 + 1)). { replace (IZR n / 2 + 1) with (IZR (n + 2) * bpow radix2 (-1)) by (rewrite plus_IZR; change (bpow radix2 (-1)) with (/ 2); lra). apply scaled_double; lia. }
  rewrite (fl_double _ D2). rewrite Ztrunc_floor by (assert (0 <= IZR n) by (apply IZR_le; lia); lra).
  apply Zfloor_imp. pose proof (Z.div_mod n 2 ltac:(lia)) as M. pose proof (Z.mod_pos_bound n 2 ltac:(lia)).
  rewrite !plus_IZR. assert (X : IZR n = 2 * IZR (n / 2) + IZR (n mod 2)) by (rewrite <- mult_IZR, <- plus_IZR; f_equal; exact M).
  assert (0 <= IZR (n mod 2) <= 1) by (split; apply IZR_le; lia). lra.
Qed.
Print Assumptions C147_half_block_plus_one.

(* the number of chunks computed in doubles is the one computed exactly (auto_nchunks, used in C17), for records below nine petabytes *)
Theorem C147_chunks : forall nt values item_size size, (0 < size < 2 ^ 53)%N -> (nt * values * item_size < 2 ^ 53)%N -> (nt < 2 ^ 53)%N -> (values * item_size < 2 ^ 53)%N ->
  f_chunks (Z.of_N nt) (Z.of_N values) (Z.of_N item_size) (Z.of_N size) = Z.of_N (auto_nchunks nt values item_size size).
Proof.
  intros nt values item size Hs HX Hnt Hv. unfold f_chunks, auto_nchunks. rewrite N2Z.inj_max, Z.max_comm. f_equal.
  set (v := (values * item)%N) in *. replace (Z.of_N values * Z.of_N item)%Z with (Z.of_N v) by (unfold v; lia).
  replace (nt * values * item)%N with (nt * v)%N in * by (unfold v; lia). set (X := (nt * v)%N) in *.
  assert (P53 : Z.of_N (2 ^ 53) = (2 ^ 53)%Z) by reflexivity.
  assert (E10 : 1024 = / bpow radix2 (-10)) by (cbn; lra).
  assert (S1 : fdiv (IZR (Z.of_N v)) 1024 = IZR (Z.of_N v) * bpow radix2 (-10)).
  { unfold fdiv, Rdiv. rewrite E10, Rinv_inv. apply fl_double, scaled_double; lia. }
  assert (S2 : fdiv (fdiv (IZR (Z.of_N v)) 1024) 1024 = IZR (Z.of_N v) * bpow radix2 (-20)).
  { rewrite S1. unfold fdiv, Rdiv. rewrite E10, Rinv_inv, Rmult_assoc, <- bpow_plus. apply fl_double, scaled_double; lia. }
  rewrite S2. assert (S3 : fmul (IZR (Z.of_N nt)) (IZR (Z.of_N v) * bpow radix2 (-20)) = IZR (Z.of_N X) * bpow radix2 (-20)).
  { unfold fmul. rewrite <- Rmult_assoc, <- mult_IZR. replace (Z.of_N nt * Z.of_N v)%Z with (Z.of_N X) by (unfold X; lia). apply fl_double, scaled_double; lia. }
  rewrite S3. set (x := Z.of_N X) in *. set (s := Z.of_N size) in *.
  assert (Hx : (0 <= x < 2 ^ 53)%Z) by lia. assert (Hsz : (0 < s < 2 ^ 53)%Z) by lia.
  assert (B : 0 < IZR s) by (apply IZR_lt; lia).
  rewrite N2Z.inj_div, N2Z.inj_mul. fold x s. change (Z.of_N (1024 * 1024 * 256)) with (2 ^ 28)%Z.
  set (y := fdiv (IZR x * bpow radix2 (-20)) (IZR s)).
  set (k := (x / (2 ^ 28 * s))%Z). pose proof (Z.div_mod x (2 ^ 28 * s) ltac:(lia)) as DM. pose proof (Z.mod_pos_bound x (2 ^ 28 * s) ltac:(lia)) as MB. fold k in DM.
  assert (K : (0 <= k)%Z) by (apply Z.div_pos; lia). assert (K2 : (k * 2 ^ 28 <= x)%Z) by nia.
  destruct (Z.eq_dec x 0) as [X0|Xn].
  { assert (k = 0)%Z by nia. rewrite H. unfold y, fdiv. rewrite X0. unfold Rdiv. rewrite !Rmult_0_l. rewrite (fl_double 0) by (apply (int_double 0); lia). rewrite Rmult_0_l, (fl_double 0) by (apply (int_double 0); lia). apply (Ztrunc_IZR 0). }
  (* the one division that rounds *)
  assert (Y : IZR k * 256 <= y < (IZR k + 1) * 256).
  { assert (Z20 : IZR x * bpow radix2 (-20) / IZR s * (IZR s * bpow radix2 20) = IZR x).
    { replace (IZR x * bpow radix2 (-20) / IZR s * (IZR s * bpow radix2 20)) with (IZR x * (bpow radix2 (-20) * bpow radix2 20)) by (field; lra). rewrite <- bpow_plus. cbn. ring. }
    assert (PB : 0 < IZR s * bpow radix2 20) by (apply Rmult_lt_0_compat; [assumption|apply bpow_gt_0]).
    assert (IZR x = IZR (2 ^ 28 * s) * IZR k + IZR (x mod (2 ^ 28 * s))) by (rewrite <- mult_IZR, <- plus_IZR; now f_equal).
    assert (M0 : 0 <= IZR (x mod (2 ^ 28 * s)) <= IZR (2 ^ 28 * s) - 1) by (rewrite <- minus_IZR; split; apply IZR_le; lia).
    assert (E28 : IZR (2 ^ 28 * s) = 256 * (IZR s * bpow radix2 20)). { rewrite mult_IZR. change (IZR (2 ^ 28)) with 268435456. change (bpow radix2 20) with 1048576. lra. }
    split.
    - assert (D : double (IZR k * 256)). { rewrite <- mult_IZR. apply int_double. lia. }
      rewrite <- (fl_double _ D). apply fl_mono. apply Rmult_le_reg_r with (1 := PB). rewrite Z20. rewrite H, E28 in *. nra.
    - assert (PX : 0 < IZR x) by (apply IZR_lt; lia).
      assert (PQ : 0 < IZR x * bpow radix2 (-20) / IZR s) by (apply Rdiv_lt_0_compat; [apply Rmult_lt_0_compat; [assumption|apply bpow_gt_0]|assumption]).
      assert (L : bpow radix2 (-1022) <= Rabs (IZR x * bpow radix2 (-20) / IZR s)).
      { rewrite Rabs_pos_eq by lra. apply Rmult_le_reg_r with (1 := PB). rewrite Z20. apply Rle_trans with 1; [|apply IZR_le; lia].
        apply Rle_trans with (bpow radix2 (-1022) * (bpow radix2 53 * bpow radix2 20)).
        - apply Rmult_le_compat_l; [apply bpow_ge_0|]. apply Rmult_le_compat_r; [apply bpow_ge_0|]. rewrite <- (IZR_Zpower radix2) by lia. apply IZR_le. change (Zpower radix2 53) with (2 ^ 53)%Z. lia.
        - rewrite <- !bpow_plus. change 1 with (bpow radix2 0). apply bpow_le. lia. }
      pose proof (fl_error _ L) as R1. fold (fdiv (IZR x * bpow radix2 (-20)) (IZR s)) in R1. fold y in R1. apply Rabs_le_inv in R1. destruct R1 as [_ R1].
      rewrite (Rabs_pos_eq _ (Rlt_le _ _ PQ)) in R1.
      apply Rle_lt_trans with (IZR x * bpow radix2 (-20) / IZR s + bpow radix2 (-53) * (IZR x * bpow radix2 (-20) / IZR s)); [lra|].
      apply Rmult_lt_reg_r with (1 := PB). rewrite Rmult_plus_distr_r, Z20, Rmult_assoc, Z20.
      assert (bpow radix2 (-53) * IZR x < 1). { rewrite <- b53. apply Rmult_lt_compat_l; [apply bpow_gt_0|apply IZR_lt; lia]. }
      rewrite E28 in *. nra. }
  assert (E8 : 256 = / bpow radix2 (-8)) by (cbn; lra).
  assert (D : double (y / 256)).
  { unfold Rdiv. rewrite E8, Rinv_inv. apply mult_bpow_exact_FLT; [apply fl_is_double|].
    assert (Hy : bpow radix2 (-100) <= y).
    { unfold y. assert (DD : double (bpow radix2 (-100))) by (apply generic_format_FLT_bpow; [reflexivity|lia]). rewrite <- (fl_double _ DD). apply fl_mono.
      apply Rmult_le_reg_r with (IZR s); [assumption|]. replace (IZR x * bpow radix2 (-20) / IZR s * IZR s) with (IZR x * bpow radix2 (-20)) by (field; lra).
      apply Rle_trans with (bpow radix2 (-100) * bpow radix2 53).
      - apply Rmult_le_compat_l; [apply bpow_ge_0|]. rewrite <- (IZR_Zpower radix2) by lia. apply IZR_le. change (Zpower radix2 53) with (2 ^ 53)%Z. lia.
      - rewrite <- bpow_plus. apply Rle_trans with (1 * bpow radix2 (-20)); [rewrite Rmult_1_l; apply bpow_le; lia|]. apply Rmult_le_compat_r; [apply bpow_ge_0|apply IZR_le; lia]. }
    assert (M : (-100 < mag radix2 y)%Z) by (apply mag_gt_bpow; rewrite Rabs_pos_eq; [exact Hy|pose proof (bpow_gt_0 radix2 (-100)); lra]). lia. }
  unfold fdiv at 1. rewrite (fl_double _ D). rewrite Ztrunc_floor by (assert (0 <= IZR k) by (apply IZR_le; lia); lra).
  apply Zfloor_imp. rewrite plus_IZR. lra.
Qed.
Print Assumptions C147_chunks.
