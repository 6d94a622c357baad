(* C74: the Hamming window and its gain correction. *)
From Coq Require Import List Arith Reals Lra Lia.
From Verif Require Import Model_Hamming.
Import ListNotations.
Local Open Scope R_scope.

Lemma rsum_app a b : rsum (a ++ b) = rsum a + rsum b.
Proof. unfold rsum. induction a as [|x a IH]; cbn; [lra|rewrite IH; lra]. Qed.
Lemma rsum_affine {A} (c d : R) (f : A -> R) l : rsum (map (fun x => c + d * f x) l) = c * INR (length l) + d * rsum (map f l).
Proof. induction l as [|x l IH]; [cbn; lra|]. cbn [map length rsum fold_right]. rewrite S_INR. unfold rsum in *. cbn. rewrite IH. lra. Qed.

Lemma dirichlet a n : 2 * sin (a/2) * rsum (map (fun k => cos (INR k * a)) (seq 0 n)) = sin (INR n * a - a/2) + sin (a/2).
Proof.
  induction n as [|n IH].
  - cbn. replace (0 * a - a/2) with (-(a/2)) by lra. rewrite sin_neg. lra.
  - rewrite seq_S, map_app, rsum_app, Rmult_plus_distr_l, IH. cbn [map rsum fold_right Nat.add]. rewrite S_INR.
    replace ((INR n + 1) * a - a/2) with (INR n * a + a/2) by lra. rewrite sin_plus, sin_minus. lra.
Qed.
Lemma cos_period_sum m : (2 <= m)%nat -> rsum (map (fun k => cos (INR k * (2 * PI / INR m))) (seq 0 m)) = 0.
Proof.
  intros Hm. set (a := 2 * PI / INR m). assert (Hp := PI_RGT_0).
  assert (Hm' : 2 <= INR m) by (change 2 with (INR 2); now apply le_INR).
  assert (Ha : a/2 = PI / INR m) by (unfold a; field; lra).
  assert (0 < PI / INR m) by (apply Rdiv_lt_0_compat; lra).
  assert (PI / INR m < PI) by (apply (Rmult_lt_reg_r (INR m)); [lra|]; unfold Rdiv; rewrite Rmult_assoc, Rinv_l by lra; nra).
  assert (Hs : 0 < sin (a/2)) by (rewrite Ha; apply sin_gt_0; assumption).
  assert (D := dirichlet a m). replace (INR m * a - a/2) with (-(a/2) + 2 * INR 1 * PI) in D by (unfold a; cbn; field; lra).
  rewrite sin_period, sin_neg in D. apply (Rmult_eq_reg_l (2 * sin (a/2))); [|lra]. rewrite D. lra.
Qed.

Lemma window_nth N x : (x < N)%nat -> nth x (hamming_window N) 0 = 54/100 - 46/100 * cos (2 * PI * INR x / (INR N - 1)).
Proof.
  intros H. unfold hamming_window. set (W := fun x => 54/100 - 46/100 * cos (2 * PI * INR x / (INR N - 1))).
  rewrite (nth_indep _ 0 (W 0%nat)) by (rewrite map_length, seq_length; lia).
  rewrite (map_nth W), seq_nth by assumption. reflexivity.
Qed.
Lemma window_length N : length (hamming_window N) = N.
Proof. unfold hamming_window. now rewrite map_length, seq_length. Qed.

Theorem C74_symmetric : forall N x, (2 <= N)%nat -> (x < N)%nat ->
  nth x (hamming_window N) 0 = nth (N - 1 - x) (hamming_window N) 0.
Proof.
  intros N x HN Hx. rewrite !window_nth by lia. f_equal. f_equal.
  assert (2 <= INR N) by (change 2 with (INR 2); now apply le_INR).
  rewrite !minus_INR by lia. cbn [INR].
  replace (2 * PI * (INR N - 1 - INR x) / (INR N - 1)) with (-(2 * PI * INR x / (INR N - 1)) + 2 * INR 1 * PI) by (cbn; field; lra).
  now rewrite cos_period, cos_neg.
Qed.
Print Assumptions C74_symmetric.

Theorem C74_bounds : forall N w, In w (hamming_window N) -> 8/100 <= w <= 1.
Proof.
  intros N w H. apply in_map_iff in H as [x [<- _]]. destruct (COS_bound (2 * PI * INR x / (INR N - 1))). lra.
Qed.
Print Assumptions C74_bounds.

Theorem C74_ends : forall N, (2 <= N)%nat -> nth 0 (hamming_window N) 0 = 8/100 /\ nth (N - 1) (hamming_window N) 0 = 8/100.
Proof.
  intros N HN. assert (H : nth 0 (hamming_window N) 0 = 8/100).
  { rewrite window_nth by lia. cbn [INR]. replace (2 * PI * 0 / (INR N - 1)) with 0 by (unfold Rdiv; ring). rewrite cos_0. lra. }
  split; [exact H|]. rewrite <- H. replace (N - 1)%nat with (N - 1 - 0)%nat by lia. symmetry. apply C74_symmetric; lia.
Qed.
Print Assumptions C74_ends.

Theorem C74_mean : forall N, (3 <= N)%nat -> mean (hamming_window N) = 54/100 - 46/100 / INR N.
Proof.
  intros N HN. unfold mean. rewrite window_length. assert (H3 : 3 <= INR N) by (replace 3 with (INR 3) by (cbn; lra); now apply le_INR).
  assert (E : rsum (map (fun x => cos (2 * PI * INR x / (INR N - 1))) (seq 0 N)) = 1).
  { assert (EN : seq 0 N = seq 0 (N - 1) ++ [(N - 1)%nat]) by (change (N - 1)%nat with (0 + (N - 1))%nat at 2; rewrite <- seq_S; f_equal; lia).
    rewrite EN, map_app, rsum_app.
    replace (rsum (map _ (seq 0 (N - 1)))) with 0.
    - cbn [map rsum fold_right Nat.add]. rewrite minus_INR by lia. cbn [INR].
      replace (2 * PI * (INR N - 1) / (INR N - 1)) with (0 + 2 * INR 1 * PI) by (cbn; field; lra). rewrite cos_period, cos_0. lra.
    - symmetry. rewrite <- (cos_period_sum (N - 1)) by lia. f_equal. apply map_ext. intros x. f_equal.
      rewrite minus_INR by lia. cbn [INR]. field. lra. }
  unfold hamming_window.
  rewrite (map_ext _ (fun x => 54/100 + (-(46/100)) * cos (2 * PI * INR x / (INR N - 1)))) by (intros; lra).
  rewrite rsum_affine, seq_length, E. field. lra.
Qed.
Print Assumptions C74_mean.
Theorem C74_mean_two : mean (hamming_window 2) = 8/100.
Proof.
  unfold mean, hamming_window. cbn [seq map rsum fold_right length INR].
  replace (2 * PI * 0 / (1 + 1 - 1)) with 0 by field. replace (2 * PI * 1 / (1 + 1 - 1)) with (0 + 2 * INR 1 * PI) by (cbn; field).
  rewrite cos_period, cos_0. lra.
Qed.
Print Assumptions C74_mean_two.

Lemma mean_bounds N : (2 <= N)%nat -> 8/100 <= mean (hamming_window N) < 1.
Proof.
  intros HN. destruct (Nat.eq_dec N 2) as [->|]; [rewrite C74_mean_two; lra|]. rewrite C74_mean by lia.
  assert (H3 : 3 <= INR N) by (replace 3 with (INR 3) by (cbn; lra); apply le_INR; lia).
  assert (0 < / INR N) by (apply Rinv_0_lt_compat; lra). assert (/ INR N <= / 3) by (apply Rinv_le_contravar; lra). unfold Rdiv. lra.
Qed.
(* the correction is finite, larger than one and at most 12.5 *)
Theorem C74_gain : forall N, (2 <= N)%nat -> mean (hamming_window N) <> 0 /\ 1 < win_weight (hamming_window N) <= 25/2.
Proof.
  intros N HN. destruct (mean_bounds N HN) as [H1 H2]. split; [lra|]. unfold win_weight, Rdiv. rewrite Rmult_1_l. split.
  - rewrite <- Rinv_1. apply Rinv_lt_contravar; lra.
  - replace (25 * / 2) with (/ (8/100)) by field. apply Rinv_le_contravar; lra.
Qed.
Print Assumptions C74_gain.

(* a harmonic of the block length with complex amplitude (A, B) and frequency k *)
Definition harmonic (N k : nat) (A B : R) : list (R * R) :=
  map (fun t => let th := 2 * PI * INR k * INR t / INR N in (A * cos th - B * sin th, A * sin th + B * cos th)) (seq 0 N).
(* The corrected transform of a harmonic has exactly its amplitude at its frequency, whatever the block length; with k = 0
   this is the mean value. *)
Theorem C74_amplitude : forall N k A B, (2 <= N)%nat -> (k < N)%nat -> block_coeff (harmonic N k A B) k = (A, B).
Proof.
  intros N k A B HN _. destruct (C74_gain N HN) as [Hm _].
  assert (HN' : 2 <= INR N) by (change 2 with (INR 2); now apply le_INR).
  assert (Hlen : length (harmonic N k A B) = N) by (unfold harmonic; now rewrite map_length, seq_length).
  unfold block_coeff. cbv zeta. rewrite Hlen.
  set (W := fun x => 54/100 - 46/100 * cos (2 * PI * INR x / (INR N - 1))).
  assert (Hw : hamming_window N = map W (seq 0 N)) by reflexivity.
  assert (Hc : forall (l : list nat) (f : nat -> R * R) (g : nat -> R), combine (map f l) (map g l) = map (fun t => (f t, g t)) l).
  { clear. induction l as [|x l IH]; intros; cbn; [reflexivity|now rewrite IH]. }
  assert (Hc2 : forall (l : list nat) (f : nat -> R * R), combine l (map f l) = map (fun t => (t, f t)) l).
  { clear. induction l as [|x l IH]; intros; cbn; [reflexivity|now rewrite IH]. }
  assert (Hsum : rsum (hamming_window N) = INR N * mean (hamming_window N)) by (unfold mean; rewrite window_length; field; lra).
  assert (Hlin : forall c, rsum (map (fun t => c * W t) (seq 0 N)) = c * (INR N * mean (hamming_window N))).
  { intros c. rewrite <- Hsum, Hw. clear. induction (seq 0 N) as [|x l IH]; [cbn; lra|]. unfold rsum in *. cbn. rewrite IH. lra. }
  unfold harmonic. rewrite Hw, Hc, map_map. unfold fft. cbv zeta. rewrite !map_length, !seq_length, Hc2, !map_map. cbn [fst snd].
  match goal with |- (_ * rsum ?l1, _ * rsum ?l2) = _ =>
    assert (E1 : l1 = map (fun t => A * W t) (seq 0 N)); [|assert (E2 : l2 = map (fun t => B * W t) (seq 0 N)); [|rewrite E1, E2]] end.
  { apply map_ext. intros t. cbn [fst snd]. set (th := 2 * PI * INR k * INR t / INR N). generalize (sin2_cos2 th). unfold Rsqr. intros E.
    transitivity (A * W t * (sin th * sin th + cos th * cos th)); [ring|rewrite E; ring]. }
  { apply map_ext. intros t. cbn [fst snd]. set (th := 2 * PI * INR k * INR t / INR N). generalize (sin2_cos2 th). unfold Rsqr. intros E.
    transitivity (B * W t * (sin th * sin th + cos th * cos th)); [ring|rewrite E; ring]. }
  rewrite !Hlin, <- Hw. unfold win_weight. f_equal; field; lra.
Qed.
Print Assumptions C74_amplitude.
Example C74_case : block_coeff (harmonic 7 3 2 (-1)) 3 = (2, -1) /\ mean (hamming_window 7) = 54/100 - 46/100 / INR 7.
Proof. split; [apply C74_amplitude; lia|apply C74_mean; lia]. Qed.
