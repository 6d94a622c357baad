(* C150: the running mean of a streaming fit in double precision. *)
From Coq Require Import ZArith Reals Lra Lia List PeanoNat.
From Flocq Require Import Core Relative Plus_error.
From Verif Require Import Model_Float Prop_Float Model_FloatSum Prop_FloatSum Model_FloatMean.
Import ListNotations.
Local Open Scope R_scope.
Local Open Scope list_scope.
Local Instance prec53d : Prec_gt_0 53 := eq_refl.

Definition eta : R := bpow radix2 (-1075).
Lemma eta_pos : 0 < eta. Proof. apply bpow_gt_0. Qed.
(* relative errors as before, and m absolute ones *)
Definition close (k m : nat) (v S A : R) : Prop := Rabs (v - S) <= ((1 + u) ^ k - 1) * A + (1 + u) ^ k * (INR m * eta) /\ Rabs S <= A.
Lemma close_0 k m : close k m 0 0 0.
Proof. split; [|rewrite Rabs_R0; lra]. replace (0 - 0) with 0 by ring. rewrite Rabs_R0. pose proof (pow1 k). pose proof (pos_INR m). pose proof eta_pos. assert (0 <= INR m * eta) by nra. nra. Qed.
Lemma close_round k m v S A f : close k m v S A -> Rabs (f - v) <= u * Rabs v -> close (Datatypes.S k) m f S A.
Proof.
  intros [E B] F. split; [|assumption]. assert (V : Rabs v <= (1 + u) ^ k * A + (1 + u) ^ k * (INR m * eta)).
  { replace v with ((v - S) + S) by ring. apply Rle_trans with (1 := Rabs_triang _ _). lra. }
  replace (f - S) with ((f - v) + (v - S)) by ring. apply Rle_trans with (1 := Rabs_triang _ _).
  assert (u * Rabs v <= u * ((1 + u) ^ k * A + (1 + u) ^ k * (INR m * eta))) by (apply Rmult_le_compat_l; [pose proof u_pos; lra|assumption]). cbn [pow]. nra.
Qed.
Lemma close_eta k m v S A h : close k m v S A -> Rabs h <= eta -> close k (Datatypes.S m) (v + h) S A.
Proof.
  intros [E B] F. split; [|assumption]. replace (v + h - S) with ((v - S) + h) by ring. apply Rle_trans with (1 := Rabs_triang _ _).
  rewrite S_INR. pose proof (pow1 k). pose proof eta_pos. nra.
Qed.
Lemma close_scale k m v S A c : 0 <= c -> close k m v S A -> Rabs (v * c - S * c) <= ((1 + u) ^ k - 1) * (A * c) + (1 + u) ^ k * (INR m * eta) * c /\ Rabs (S * c) <= A * c.
Proof.
  intros C [E B]. split.
  - replace (v * c - S * c) with ((v - S) * c) by ring. rewrite Rabs_mult, (Rabs_pos_eq c C). apply Rle_trans with ((((1 + u) ^ k - 1) * A + (1 + u) ^ k * (INR m * eta)) * c); [now apply Rmult_le_compat_r|lra].
  - rewrite Rabs_mult, (Rabs_pos_eq c C). now apply Rmult_le_compat_r.
Qed.
(* an integer times a double: no underflow, the product is a multiple of the smallest double *)
Lemma fmul_int n x : double x -> Rabs (fmul (INR n) x - INR n * x) <= u * Rabs (INR n * x).
Proof.
  intros D. apply FLT_format_generic in D; [|reflexivity]. destruct D as [[m e] E1 E2 E3]. cbn in E3.
  assert (X : INR n * x = F2R (Float radix2 (Z.of_nat n * (m * 2 ^ (e + 1074))) (-1074))).
  { rewrite E1. unfold F2R. cbn [Fnum Fexp]. rewrite !mult_IZR, <- INR_IZR_INZ. rewrite (IZR_Zpower radix2) by lia. rewrite !Rmult_assoc, <- bpow_plus. do 3 f_equal. lia. }
  pose proof (relative_error_N_FLT_F2R_emin radix2 (-1074) 53 eq_refl (fun t => negb (Z.even t)) (Z.of_nat n * (m * 2 ^ (e + 1074)))) as R. rewrite <- X in R.
  unfold fmul. apply Rle_trans with (1 := R). apply Rmult_le_compat_r; [apply Rabs_pos|]. change (- (53) + 1)%Z with (1 + -53)%Z. rewrite bpow_plus. change (bpow radix2 1) with 2. unfold u. lra.
Qed.
(* one step *)
Lemma step_close ti mu x S A : double mu -> double x -> close (3 * ti) ti mu S A ->
  close (3 * Datatypes.S ti) (Datatypes.S ti) (f_mean_step ti mu x) ((INR ti * S + x) / INR (Datatypes.S ti)) ((INR ti * A + Rabs x) / INR (Datatypes.S ti)).
Proof.
  intros Dm Dx C. pose proof (pos_INR ti) as Pt. set (t := INR ti) in *. set (k := (3 * ti)%nat) in *. pose proof eta_pos as Pe. pose proof u_pos as Pu. pose proof (pow1 k) as Pk.
  set (P := (1 + u) ^ k) in *. assert (Pm : 0 <= t * eta) by nra.
  (* the product *)
  destruct (close_scale _ _ _ _ _ t Pt C) as [E1 B1]. fold P t in E1.
  assert (E2 : Rabs (fmul t mu - t * S) <= ((1 + u) * P - 1) * (t * A) + (1 + u) * P * (t * eta) * t).
  { pose proof (fmul_int ti mu Dm) as F. fold t in F. replace (fmul t mu - t * S) with ((fmul t mu - t * mu) + (mu * t - S * t)) by ring. apply Rle_trans with (1 := Rabs_triang _ _).
    assert (V : Rabs (t * mu) <= P * (t * A) + P * (t * eta) * t). { replace (t * mu) with ((mu * t - S * t) + S * t) by ring. apply Rle_trans with (1 := Rabs_triang _ _). lra. }
    assert (u * Rabs (t * mu) <= u * (P * (t * A) + P * (t * eta) * t)) by (apply Rmult_le_compat_l; lra). lra. }
  (* the sum *)
  assert (E3 : Rabs (fmul t mu + x - (t * S + x)) <= ((1 + u) * P - 1) * (t * A + Rabs x) + (1 + u) * P * (t * eta) * t).
  { replace (fmul t mu + x - (t * S + x)) with (fmul t mu - t * S) by ring. apply Rle_trans with (1 := E2). pose proof (Rabs_pos x). assert (0 <= (1 + u) * P - 1) by nra. nra. }
  assert (B3 : Rabs (t * S + x) <= t * A + Rabs x). { apply Rle_trans with (1 := Rabs_triang _ _). rewrite (Rmult_comm t S), (Rmult_comm t A). lra. }
  assert (E4 : Rabs (fadd (fmul t mu) x - (t * S + x)) <= ((1 + u) * ((1 + u) * P) - 1) * (t * A + Rabs x) + (1 + u) * ((1 + u) * P) * (t * eta) * t).
  { pose proof (fadd_error (fmul t mu) x (fl_is_double _) Dx) as F. set (w := fmul t mu + x) in *.
    replace (fadd (fmul t mu) x - (t * S + x)) with ((fadd (fmul t mu) x - w) + (w - (t * S + x))) by ring. apply Rle_trans with (1 := Rabs_triang _ _).
    assert (V : Rabs w <= (1 + u) * P * (t * A + Rabs x) + (1 + u) * P * (t * eta) * t). { replace w with ((w - (t * S + x)) + (t * S + x)) by ring. apply Rle_trans with (1 := Rabs_triang _ _). lra. }
    assert (u * Rabs w <= u * ((1 + u) * P * (t * A + Rabs x) + (1 + u) * P * (t * eta) * t)) by (apply Rmult_le_compat_l; lra). lra. }
  (* the quotient *)
  unfold f_mean_step. fold t. rewrite S_INR. fold t. set (d := t + 1) in *. assert (Pd : 1 <= d) by (unfold d; lra). set (y := fadd (fmul t mu) x) in *.
  destruct (fl_any (y / d)) as (e & h & He & Hh & E). unfold fdiv. rewrite E. fold eta in Hh.
  assert (I : 0 < / d) by (apply Rinv_0_lt_compat; lra).
  assert (C5 : close (2 + k) ti (y / d) ((t * S + x) / d) ((t * A + Rabs x) / d)).
  { split.
    - replace (y / d - (t * S + x) / d) with ((y - (t * S + x)) * / d) by (field; lra). rewrite Rabs_mult, (Rabs_pos_eq (/ d)) by lra.
      apply Rle_trans with ((((1 + u) * ((1 + u) * P) - 1) * (t * A + Rabs x) + (1 + u) * ((1 + u) * P) * (t * eta) * t) * / d); [apply Rmult_le_compat_r; lra|].
      cbn [pow plus]. fold P. fold t. unfold Rdiv. assert (T : t * / d <= 1). { apply Rmult_le_reg_r with d; [lra|]. rewrite Rmult_assoc, Rinv_l by lra. unfold d. lra. }
      assert (0 <= (1 + u) * ((1 + u) * P) * (t * eta)) by (assert (0 <= (1 + u) * ((1 + u) * P)) by nra; nra). nra.
    - unfold Rdiv. rewrite Rabs_mult, (Rabs_pos_eq (/ d)) by lra. apply Rmult_le_compat_r; lra. }
  replace (3 * Datatypes.S ti)%nat with (Datatypes.S (2 + k)) by (unfold k; lia). apply close_eta; [|exact Hh].
  apply close_round with (1 := C5). replace (y / d * (1 + e) - y / d) with (e * (y / d)) by ring. rewrite Rabs_mult. apply Rmult_le_compat_r; [apply Rabs_pos|exact He].
Qed.
Lemma step_double ti mu x : double (f_mean_step ti mu x). Proof. apply fl_is_double. Qed.
Lemma means_close xs : forall pre mu, Forall double xs -> double mu ->
  (pre = [] -> mu = 0) -> close (3 * length pre) (length pre) mu (total pre / INR (length pre)) (total (map Rabs pre) / INR (length pre)) \/ (pre = [] /\ mu = 0) ->
  pre ++ xs <> [] -> close (3 * length (pre ++ xs)) (length (pre ++ xs)) (f_means (length pre) mu xs) (total (pre ++ xs) / INR (length (pre ++ xs))) (total (map Rabs (pre ++ xs)) / INR (length (pre ++ xs))).
Proof.
  induction xs as [|x xs IH]; intros pre mu F Dm H0 C N.
  - rewrite app_nil_r in *. cbn [f_means]. destruct C as [C|[-> _]]; [exact C|easy].
  - inversion F as [|? ? Dx F']; subst. cbn [f_means]. replace (pre ++ x :: xs) with ((pre ++ [x]) ++ xs) by now rewrite <- app_assoc.
    replace (S (length pre)) with (length (pre ++ [x])) by (rewrite app_length; cbn; lia).
    apply IH; [exact F'|apply step_double|intros E; now apply app_eq_nil in E| |intros E; apply app_eq_nil in E; destruct E as [E _]; now apply app_eq_nil in E].
    left. rewrite app_length, map_app, !total_app. cbn [length map]. rewrite Nat.add_1_r. rewrite !total_cons. change (total []) with 0. rewrite !Rplus_0_r.
    assert (C' : close (3 * length pre) (length pre) mu (total pre / INR (length pre)) (total (map Rabs pre) / INR (length pre)) \/ pre = []) by (destruct C as [C|[C _]]; [now left|now right]).
    destruct pre as [|p pre].
    + rewrite (H0 eq_refl). cbn [length map]. change (total []) with 0. pose proof (step_close 0 0 x 0 0 double_0 Dx (close_0 0 0)) as Q. cbn [INR length] in Q |- *. rewrite Rmult_0_l in Q. exact Q.
    + destruct C' as [C'|]; [|discriminate]. set (l := p :: pre) in *. assert (L : INR (length l) <> 0) by (apply not_0_INR; unfold l; discriminate).
      pose proof (step_close _ _ x _ _ Dm Dx C') as Q. replace (INR (length l) * (total l / INR (length l))) with (total l) in Q by (field; exact L).
      replace (INR (length l) * (total (map Rabs l) / INR (length l))) with (total (map Rabs l)) in Q by (field; exact L). exact Q.
Qed.

(* ---- C150 ---- *)
(* after n snapshots the running mean is within 3 n 2^-52 (times the mean absolute value) of the exact mean, up to n of the smallest doubles *)
Theorem C150_running_mean : forall xs, xs <> [] -> Forall double xs -> (Z.of_nat (length xs) <= 2 ^ 50)%Z ->
  Rabs (f_running_mean xs - fold_right Rplus 0 xs / INR (length xs))
  <= 3 * INR (length xs) * bpow radix2 (-52) * (fold_right Rplus 0 (map Rabs xs) / INR (length xs)) + INR (length xs) * bpow radix2 (-1074).
Proof.
  intros xs N F H. pose proof (means_close xs [] 0 F double_0 (fun _ => eq_refl) (or_intror (conj eq_refl eq_refl)) N) as [E B]. cbn [app length] in *.
  fold (f_running_mean xs) in E. apply Rle_trans with (1 := E). fold (total (map Rabs xs)) (total xs). set (n := length xs) in *.
  assert (K : INR (3 * n) * u <= / 2).
  { rewrite INR_IZR_INZ. apply Rle_trans with (IZR (2 ^ 52) * u).
    - apply Rmult_le_compat_r; [left; apply u_pos|]. apply IZR_le. change (2 ^ 52)%Z with (4 * 2 ^ 50)%Z. lia.
    - unfold u. rewrite (IZR_Zpower radix2) by lia. rewrite <- bpow_plus. cbn. lra. }
  pose proof (pow_readable (3 * n) K) as R. assert (K2 : INR (3 * n) * (2 * u) <= 1) by lra.
  assert (B52 : 2 * u = bpow radix2 (-52)). { change (-52)%Z with (1 + -53)%Z. rewrite bpow_plus. reflexivity. } rewrite B52 in *.
  assert (Be : bpow radix2 (-1074) = 2 * eta). { change (-1074)%Z with (1 + -1075)%Z. rewrite bpow_plus. reflexivity. } rewrite Be.
  rewrite mult_INR in R, K2. replace (INR 3) with 3 in R, K2 by (cbn; ring). pose proof eta_pos. pose proof (pos_INR n).
  assert (0 <= total (map Rabs xs) / INR n) by (apply Rle_trans with (2 := B); apply Rabs_pos).
  apply Rplus_le_compat; [now apply Rmult_le_compat_r|]. assert (0 <= INR n * eta) by nra. nra.
Qed.
Print Assumptions C150_running_mean.

(* a constant record below 2^53 / n: the running mean is exact at every step *)
Theorem C150_constant_record_exact : forall n z, (0 < n)%nat -> (Z.of_nat n * Z.abs z <= 2 ^ 53)%Z -> f_running_mean (repeat (IZR z) n) = IZR z.
Proof.
  intros n z Hn H. unfold f_running_mean.
  assert (G : forall m t mu, (t = 0%nat \/ mu = IZR z) -> (t = 0%nat -> mu = 0) -> (Z.of_nat (t + m) * Z.abs z <= 2 ^ 53)%Z -> (0 < m)%nat -> f_means t mu (repeat (IZR z) m) = IZR z).
  { induction m as [|m IH]; intros t mu Ht H0 Hb Hm; [lia|]. cbn [repeat f_means].
    assert (Hz : (Z.abs (Z.of_nat (S t) * z) <= 2 ^ 53)%Z) by (rewrite Z.abs_mul, Z.abs_eq by lia; nia).
    assert (St : f_mean_step t mu (IZR z) = IZR z).
    { unfold f_mean_step. assert (P : fmul (INR t) mu = IZR (Z.of_nat t * z)).
      { destruct Ht as [Ht|Ht]; subst; [rewrite H0 by reflexivity; cbn [INR]; unfold fmul; rewrite Rmult_0_l; apply fl_0|]. unfold fmul. rewrite INR_IZR_INZ, <- mult_IZR. apply fl_double, int_double. rewrite Z.abs_mul in *. nia. }
      rewrite P. unfold fadd. rewrite <- plus_IZR. replace (Z.of_nat t * z + z)%Z with (Z.of_nat (S t) * z)%Z by lia. rewrite (fl_double (IZR _)) by (apply int_double; exact Hz).
      unfold fdiv. rewrite INR_IZR_INZ, mult_IZR. replace (IZR (Z.of_nat (S t)) * IZR z / IZR (Z.of_nat (S t))) with (IZR z).
      - apply fl_double, int_double. rewrite Z.abs_mul in Hz. nia.
      - field. apply not_0_IZR. lia. }
    rewrite St. destruct m as [|m]; [reflexivity|]. apply IH; [now right|discriminate|replace (S t + S m)%nat with (t + S (S m))%nat by lia; exact Hb|lia]. }
  apply G; try assumption; [now left|reflexivity].
Qed.
Print Assumptions C150_constant_record_exact.

Example C150_case : Rabs (f_running_mean [1; 2; 4] - (1 + (2 + (4 + 0))) / INR 3) <= 3 * INR 3 * bpow radix2 (-52) * ((Rabs 1 + (Rabs 2 + (Rabs 4 + 0))) / INR 3) + INR 3 * bpow radix2 (-1074).
Proof. apply (C150_running_mean [1; 2; 4]); [discriminate| |cbn; lia]. repeat apply Forall_cons; try apply Forall_nil; apply int_double; lia. Qed.
