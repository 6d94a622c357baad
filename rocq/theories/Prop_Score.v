(* C144: the score reported while an emulator is trained. *)
From Coq Require Import QArith Lqa.
From Verif Require Import Base_List Model_Stat Model_Levels.
Local Open Scope Q_scope.
Set Implicit Arguments.

(* specification: the coefficient of determination of one output, with the regularisation used in the code: one minus the squared error
   over the squared deviation of the true values from their mean *)
Definition error (truth prediction : list Q) : Q := fold_right Qplus 0 (map (fun k => (nth k truth 0 - nth k prediction 0) * (nth k truth 0 - nth k prediction 0)) (seq 0 (length truth))).
Definition mean (l : list Q) : Q := fold_right Qplus 0 l / inject_Z (Z.of_nat (length l)).
Definition deviation (truth : list Q) : Q := error truth (map (fun _ => mean truth) truth).
Definition true_score (eps : Q) (truth prediction : list Q) : Q := 1 - error truth prediction / (deviation truth + eps).

Lemma qsum_cons x l : qsum (x :: l) = x + qsum l. Proof. reflexivity. Qed.
Lemma qsum_ext {X} (f g : X -> Q) l : (forall x, In x l -> f x == g x) -> qsum (map f l) == qsum (map g l).
Proof. induction l as [|x l IH]; intros H; [reflexivity|]. cbn [map]. rewrite !qsum_cons, (H x), IH; [reflexivity|intros; apply H; now right|now left]. Qed.
Lemma qsum_nonneg {X} (f : X -> Q) l : (forall x, 0 <= f x) -> 0 <= qsum (map f l).
Proof. intros H. induction l as [|x l IH]; [cbn; lra|]. cbn [map]. rewrite qsum_cons. specialize (H x). lra. Qed.
Lemma qsum_scale {X} (f : X -> Q) c l : qsum (map (fun x => c * f x) l) == c * qsum (map f l).
Proof. induction l as [|x l IH]; [cbn; lra|]. cbn [map]. rewrite !qsum_cons, IH. ring. Qed.
Lemma qsum_affine {X} (f : X -> Q) a c l : qsum (map (fun x => a + c * f x) l) == inject_Z (Z.of_nat (length l)) * a + c * qsum (map f l).
Proof.
  induction l as [|x l IH]; [cbn [map length]; change (inject_Z (Z.of_nat 0)) with 0; change (qsum []) with 0; ring|]. cbn [map length]. rewrite !qsum_cons, IH. rewrite Nat2Z.inj_succ. unfold Z.succ. rewrite inject_Z_plus. change (inject_Z 1) with 1. ring.
Qed.
Lemma sq_nonneg (x : Q) : 0 <= x * x. Proof. unfold Qle. cbn [Qnum Qden Qmult]. nia. Qed.
Lemma len_nz {X} (l : list X) : l <> [] -> ~ inject_Z (Z.of_nat (length l)) == 0.
Proof. destruct l as [|x l]; [congruence|]. intros _ H. unfold Qeq, inject_Z in H. cbn [Qnum Qden] in H. cbn [length] in H. rewrite Nat2Z.inj_succ in H. pose proof (Nat2Z.is_nonneg (length l)). unfold Z.succ in H. change (Qnum 0) with 0%Z in H. lia. Qed.
Lemma nth_seq_map (F : Q -> Q -> Q) : forall (a b : list Q), length a = length b ->
  map (fun k => F (nth k a 0) (nth k b 0)) (seq 0 (length a)) = map (fun xy => F (fst xy) (snd xy)) (combine a b).
Proof.
  induction a as [|x a IH]; intros b H; destruct b as [|y b]; try discriminate; [reflexivity|]. cbn [length seq map combine nth fst snd]. f_equal.
  rewrite <- seq_shift, map_map. cbn [nth]. apply IH. now injection H.
Qed.
Lemma sq_diff_error a b : length a = length b -> sq_diff a b = error a b.
Proof. intros H. unfold sq_diff, error. now rewrite (nth_seq_map (fun x y => (x - y) * (x - y))). Qed.
Lemma sq_diff_sym a b : sq_diff a b == sq_diff b a.
Proof.
  unfold sq_diff. revert b; induction a as [|x a IH]; intros b; destruct b as [|y b]; try reflexivity. cbn [combine map fst snd]. rewrite !qsum_cons, IH. ring.
Qed.
Lemma spread_deviation a : spread a = deviation a.
Proof.
  unfold deviation. rewrite <- sq_diff_error by now rewrite map_length. unfold spread, sq_diff. change (mean a) with (qmean a). generalize (qmean a). intros m. f_equal.
  induction a as [|x a IH]; [reflexivity|]. cbn [map combine fst snd]. f_equal. exact IH.
Qed.
Lemma spread_nonneg a : 0 <= spread a.
Proof. apply qsum_nonneg. intros. apply sq_nonneg. Qed.
Lemma sq_diff_nonneg a b : 0 <= sq_diff a b.
Proof. apply qsum_nonneg. intros. apply sq_nonneg. Qed.
Lemma qmean_ext {X} (f g : X -> Q) l : (forall x, In x l -> f x == g x) -> qmean (map f l) == qmean (map g l).
Proof. intros H. unfold qmean. rewrite !map_length, (qsum_ext f g l H). reflexivity. Qed.
Lemma qmean_const {X} c (l : list X) : l <> [] -> qmean (map (fun _ => c) l) == c.
Proof.
  intros H. unfold qmean. rewrite map_length. rewrite (qsum_ext (fun _ : X => c) (fun x => c + 0 * 0)) by (intros; ring). rewrite (qsum_affine (fun _ => 0)). field. now apply len_nz.
Qed.
Lemma score_one eps y p : reported_score eps [y] [p] == 1 - sq_diff p y / (spread p + eps).
Proof. unfold reported_score, coeff_determination. cbn [combine map fst snd]. unfold qmean, qsum. cbn [fold_right length]. change (inject_Z (Z.of_nat 1)) with 1. generalize (sq_diff p y / (spread p + eps)). intros z. field. Qed.

(* ---- C144 ---- *)
(* a perfect prediction scores one, and nothing scores more *)
Theorem C144_perfect_is_one : forall eps truth, 0 < eps -> truth <> [] -> reported_score eps truth truth == 1.
Proof.
  intros eps truth He Hn. unfold reported_score, coeff_determination.
  rewrite (qmean_ext _ (fun _ => 1)); [apply qmean_const; destruct truth; [congruence|discriminate]|].
  intros [a b] Hin. assert (a = b). { clear - Hin. revert Hin. induction truth as [|t l IH]; cbn; [tauto|]. intros [[= <- <-]|H]; auto. } subst b. cbn [fst snd].
  assert (sq_diff a a == 0). { unfold sq_diff. clear. induction a as [|x a IH]; [reflexivity|]. cbn [combine map fst snd]. rewrite qsum_cons, IH. ring. }
  rewrite H. unfold Qdiv. ring.
Qed.
Print Assumptions C144_perfect_is_one.

Theorem C144_at_most_one : forall eps truth prediction, 0 < eps -> truth <> [] -> length truth = length prediction -> reported_score eps truth prediction <= 1.
Proof.
  intros eps truth prediction He Hn Hl. unfold reported_score, coeff_determination. set (l := combine truth prediction).
  assert (Hne : l <> []) by (destruct truth as [|a t]; [congruence|]; destruct prediction; [discriminate Hl|]; discriminate).
  rewrite (qmean_ext _ (fun pt => 1 + (-1) * (sq_diff (snd pt) (fst pt) / (spread (snd pt) + eps)))) by (intros; ring).
  unfold qmean. rewrite map_length, qsum_affine.
  assert (0 <= qsum (map (fun pt : list Q * list Q => sq_diff (snd pt) (fst pt) / (spread (snd pt) + eps)) l)).
  { apply qsum_nonneg. intros [a b]. cbn [fst snd]. apply Qle_shift_div_l; [pose proof (spread_nonneg b); lra|]. rewrite Qmult_0_l. apply sq_diff_nonneg. }
  assert (HL := len_nz Hne). set (L := inject_Z (Z.of_nat (length l))) in *.
  assert (0 < L). { unfold L. change 0 with (inject_Z 0). rewrite <- Zlt_Qlt. destruct l; [congruence|]. cbn [length]. lia. }
  apply Qle_shift_div_r; [assumption|]. set (s := qsum _) in *. clearbody s L. lra.
Qed.
Print Assumptions C144_at_most_one.

(* what is reported is the coefficient of determination with the roles exchanged: as if the predictions were the truth *)
Theorem C144_roles_exchanged : forall eps truth prediction, length truth = length prediction ->
  reported_score eps [truth] [prediction] == true_score eps prediction truth.
Proof. intros eps y p H. rewrite score_one. unfold true_score. rewrite sq_diff_error by congruence. now rewrite spread_deviation. Qed.
Print Assumptions C144_roles_exchanged.

(* scaled deviations: p = mean + c (y - mean) *)
Definition rescaled (c : Q) (y : list Q) : list Q := map (fun x => qmean y + c * (x - qmean y)) y.
Lemma rescaled_mean c y : y <> [] -> qmean (rescaled c y) == qmean y.
Proof.
  intros H. unfold rescaled. set (m := qmean y). rewrite (qmean_ext _ (fun x => (m - c * m) + c * x)) by (intros; ring). unfold qmean at 1. rewrite map_length, (qsum_affine (fun x => x)), map_id.
  unfold m, qmean. field. now apply len_nz.
Qed.
Lemma rescaled_spread c y : y <> [] -> spread (rescaled c y) == c * c * spread y.
Proof.
  intros H. unfold spread. rewrite (qsum_ext _ (fun x => (x - qmean y) * (x - qmean y))) by (intros x _; now rewrite (rescaled_mean c H)).
  unfold rescaled. rewrite map_map. rewrite <- qsum_scale. apply qsum_ext. intros x _. ring.
Qed.
Lemma rescaled_error c y : sq_diff (rescaled c y) y == (c - 1) * (c - 1) * spread y.
Proof.
  unfold sq_diff, spread, rescaled. generalize (qmean y). intros m. rewrite <- qsum_scale. induction y as [|x y IH]; [reflexivity|].
  cbn [map combine fst snd]. rewrite !qsum_cons, IH. ring.
Qed.

(* the best constant prediction should score about zero; it is reported as one minus the deviation over epsilon, that is hugely negative *)
Theorem C144_mean_prediction_scores_zero_refuted : forall eps y, 0 < eps -> y <> [] ->
  let p := map (fun _ => mean y) y in
  0 <= true_score eps y p /\ true_score eps y p * (deviation y + eps) == eps /\ reported_score eps [y] [p] == 1 - deviation y / eps.
Proof.
  intros eps y He Hy p. assert (Hs := spread_nonneg y). assert (Ed := spread_deviation y).
  assert (Ep : error y p == deviation y) by reflexivity.
  assert (T : true_score eps y p * (deviation y + eps) == eps).
  { unfold true_score. rewrite Ep. rewrite <- Ed in *. field. lra. }
  split; [|split; [exact T|]].
  - destruct (Qlt_le_dec (true_score eps y p) 0) as [N|N]; [|exact N]. exfalso. rewrite <- Ed in T. assert (true_score eps y p * (spread y + eps) <= 0); [|lra].
    setoid_replace 0 with (0 * (spread y + eps)) by ring. apply Qmult_le_compat_r; lra.
  - rewrite score_one. rewrite sq_diff_sym, sq_diff_error by (unfold p; now rewrite map_length). rewrite Ep.
    assert (S0 : spread p == 0).
    { unfold spread. assert (M : qmean p == mean y) by (unfold p; now apply qmean_const). revert M. generalize (qmean p). intros mp M. unfold p. rewrite map_map.
      rewrite (qsum_ext _ (fun x : Q => 0 + 0 * 0)); [rewrite (qsum_affine (fun _ => 0)); ring|]. intros x _. rewrite M. ring. }
    rewrite S0. setoid_replace (0 + eps) with eps by ring. reflexivity.
Qed.
Print Assumptions C144_mean_prediction_scores_zero_refuted.

(* a prediction can be 144 times worse in squared error, and its reported score positive where that of the better one is negative *)
Theorem C144_higher_score_is_better_refuted : forall eps y, 0 < eps -> y <> [] -> 2 * eps < deviation y ->
  exists good bad, length good = length y /\ length bad = length y /\ 144 * error y good == error y bad /\ 0 < error y good /\
    reported_score eps [y] [good] < 0 /\ 0 < reported_score eps [y] [bad] /\
    true_score eps y bad < 0 /\ 0 < true_score eps y good.
Proof.
  intros eps y He Hy Hd. rewrite <- spread_deviation in Hd. exists (rescaled (1 # 4) y), (rescaled 10 y).
  assert (L : forall c, length (rescaled c y) = length y) by (intros; unfold rescaled; now rewrite map_length).
  assert (Ee : forall c, error y (rescaled c y) == (c - 1) * (c - 1) * spread y) by (intros c; rewrite <- sq_diff_error by (now rewrite L); rewrite sq_diff_sym; apply rescaled_error).
  assert (Ss := rescaled_spread).
  split; [apply L|]. split; [apply L|]. rewrite !Ee. set (s := spread y) in *. split; [ring|]. split; [lra|].
  assert (N : forall a b, 0 < b -> b < a -> 1 - a / b < 0). { intros a b Hb H. assert (1 < a / b) by (apply Qlt_shift_div_l; lra). lra. }
  assert (P : forall a b, 0 < b -> a < b -> 0 < 1 - a / b). { intros a b Hb H. assert (a / b < 1) by (apply Qlt_shift_div_r; lra). lra. }
  repeat split.
  - rewrite score_one, rescaled_error, (Ss _ _ Hy). fold s. apply N; lra.
  - rewrite score_one, rescaled_error, (Ss _ _ Hy). fold s. apply P; lra.
  - unfold true_score. rewrite Ee, <- spread_deviation. fold s. apply N; lra.
  - unfold true_score. rewrite Ee, <- spread_deviation. fold s. apply P; lra.
Qed.
Print Assumptions C144_higher_score_is_better_refuted.

Example C144_nonvacuous : 2 * (1 # 10000000) < deviation [1; 2; 4] /\ reported_score (1 # 10000000) [[1; 2; 4]] [[1; 2; 4]] == 1.
Proof. split; reflexivity. Qed.
