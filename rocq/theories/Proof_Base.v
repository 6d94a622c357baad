From Coq Require Import QArith Qround Qfield Lqa.
From Verif Require Import Base_List Model_Parallel Proof_Parallel Proof_Reader2b Spec_Reader2
  Model_Reader2 Model_Base.
Local Open Scope nat_scope.
Set Implicit Arguments.

(* ---------- overlap ---------- *)
Lemma check_overlap_spec n_dft overlap o : check_overlap n_dft overlap = Ok o ->
  (inject_Z n_dft * overlap / 100 <= inject_Z o)%Q /\
  (forall z, inject_Z n_dft * overlap / 100 <= inject_Z z -> (o <= z)%Z)%Q /\ (1 <= n_dft - o)%Z.
Proof.
  unfold check_overlap. destruct (Z.ltb_spec (n_dft - 1) (n_overlap_of n_dft overlap)) as [H|H]; [discriminate|].
  intros E; injection E as <-. unfold n_overlap_of in *. split; [apply Qle_ceiling|]. split; [|lia].
  intros z Hz. apply Qceiling_resp_le in Hz. rewrite Qceiling_Z in Hz. exact Hz.
Qed.
Lemma check_overlap_reject n_dft overlap :
  check_overlap n_dft overlap = Err ValueError <-> (inject_Z (n_dft - 1) < inject_Z n_dft * overlap / 100)%Q.
Proof.
  unfold check_overlap, n_overlap_of. set (q := (inject_Z n_dft * overlap / 100)%Q).
  destruct (Z.ltb_spec (n_dft - 1) (Qceiling q)) as [H|H].
  - split; [|reflexivity]. intros _. apply Qnot_le_lt. intros Hle. apply Qceiling_resp_le in Hle.
    rewrite Qceiling_Z in Hle. lia.
  - split; [discriminate|]. intros Hlt. exfalso. apply Qlt_not_le in Hlt. apply Hlt.
    eapply Qle_trans; [apply Qle_ceiling|]. rewrite <- Zle_Qle. exact H.
Qed.

(* ---------- blocks ---------- *)
Lemma div_bounds a b : (0 < b -> (a / b) * b <= a /\ a < (a / b + 1) * b)%Z.
Proof. intros H. pose proof (Z.div_mod a b). pose proof (Z.mod_pos_bound a b H). nia. Qed.

Lemma feasible_iff nt n_dft n_ov : (n_ov < n_dft)%Z ->
  (exists nb, check_feasible nt n_dft n_ov = Ok nb) <-> (4 <= n_dft /\ n_dft + (n_dft - n_ov) <= nt)%Z.
Proof.
  intros H. unfold check_feasible, n_blocks_of.
  pose proof (@div_bounds (nt - n_ov) (n_dft - n_ov) ltac:(lia)) as B.
  set (nb := ((nt - n_ov) / (n_dft - n_ov))%Z) in *.
  destruct (Z.ltb_spec n_dft 4), (Z.ltb_spec nb 2); cbn [orb]; (split; [intros [z Hz]; try discriminate|intros [Hx Hy]]); try lia; try nia.
  eexists; reflexivity.
Qed.

Lemma blocks_spec {A} (rec : list A) n_dft n_ov nb : (n_ov < n_dft)%Z ->
  check_feasible (Z.of_nat (length rec)) n_dft n_ov = Ok nb ->
  (2 <= nb)%Z /\
  (forall i, (0 <= i < nb)%Z ->
    let start := (i * (n_dft - n_ov))%Z in
    let off := block_offset (Z.of_nat (length rec)) n_dft n_ov i in
    off = start /\ (start + n_dft <= Z.of_nat (length rec))%Z /\
    get_block_array rec (Z.to_nat off) (Z.to_nat (off + n_dft)) = window (Z.to_nat start) (Z.to_nat n_dft) rec /\
    length (get_block_array rec (Z.to_nat off) (Z.to_nat (off + n_dft))) = Z.to_nat n_dft) /\
  (Z.of_nat (length rec) < nb * (n_dft - n_ov) + n_dft)%Z.
Proof.
  intros H. unfold check_feasible, n_blocks_of. set (nt := Z.of_nat (length rec)).
  pose proof (@div_bounds (nt - n_ov) (n_dft - n_ov) ltac:(lia)) as B.
  set (nb' := ((nt - n_ov) / (n_dft - n_ov))%Z) in *.
  destruct (Z.ltb_spec n_dft 4), (Z.ltb_spec nb' 2); cbn [orb]; try discriminate. intros E; injection E as <-.
  split; [lia|]. split; [|nia].
  intros i Hi. set (start := (i * (n_dft - n_ov))%Z). set (off := block_offset nt n_dft n_ov i).
  assert (Hfit : (start + n_dft <= nt)%Z) by (unfold start; nia).
  assert (Hoff : off = start). { unfold off, block_offset. fold start. lia. }
  assert (0 <= start)%Z by (unfold start; nia).
  split; [assumption|]. split; [assumption|]. rewrite Hoff. unfold get_block_array.
  rewrite Z2Nat.inj_add by lia. rewrite Nat.add_comm, Nat.add_sub. split; [reflexivity|].
  apply window_length_le. unfold nt in Hfit. lia.
Qed.

(* ---------- long-time mean ---------- *)
Section Mean.
Context {V : Type}.
Variables (zero : V) (add : V -> V -> V).
Hypothesis assoc : forall x y z, add x (add y z) = add (add x y) z.
Hypothesis unit_l : forall x, add zero x = x.
Hypothesis unit_r : forall x, add x zero = x.

Lemma fold_left_add l a : fold_left add l a = add a (fold_right add zero l).
Proof.
  revert a; induction l as [|x l IH]; intros a; cbn; [now rewrite unit_r|]. now rewrite IH, assoc.
Qed.
Lemma sum_rows_eq l : sum_rows zero add l = fold_right add zero l.
Proof. unfold sum_rows. rewrite fold_left_add. apply unit_l. Qed.
Lemma fold_right_app' l l' : fold_right add zero (l ++ l') = add (fold_right add zero l) (fold_right add zero l').
Proof. induction l as [|x l IH]; cbn; [now rewrite unit_l|]. now rewrite IH, assoc. Qed.

Lemma split_sum k s data : fold_left (fun t i => add t (sum_rows zero add (window (i * s) (i * s + s - i * s) data))) (seq 0 k) zero
  = fold_right add zero (window 0 (k * s) data).
Proof.
  induction k as [|k IH]; [reflexivity|]. rewrite seq_S, fold_left_app, IH. cbn [fold_left plus].
  rewrite sum_rows_eq, <- fold_right_app'. replace (k * s + s - k * s) with s by lia. f_equal.
  change (k * s) with (0 + k * s) at 2. rewrite window_app. f_equal. lia.
Qed.

Lemma long_t_sum_all nt nb data : 0 < nb -> length data = nt ->
  long_t_sum zero add nt nb data = fold_right add zero data.
Proof.
  intros Hb Hl. unfold long_t_sum. rewrite split_sum.
  pose proof (Nat.div_mod_eq nt nb) as E. pose proof (Nat.mod_upper_bound nt nb ltac:(lia)) as E2.
  set (q := nt / nb) in *. set (r := nt mod nb) in *. clearbody q r.
  destruct (Nat.ltb_spec 0 r).
  - rewrite sum_rows_eq, <- fold_right_app'. f_equal. replace (nt - r) with (0 + nb * q) by lia.
    rewrite window_app. apply window_all. lia.
  - f_equal. apply window_all. lia.
Qed.

Lemma long_t_sum_one nt nb x : 0 < nb <= nt -> long_t_sum zero add nt nb [x] = x.
Proof.
  intros Hb. unfold long_t_sum. rewrite split_sum.
  pose proof (Nat.div_mod_eq nt nb) as E. pose proof (Nat.mod_upper_bound nt nb ltac:(lia)) as E2.
  assert (1 <= nt / nb) by (apply Nat.div_le_lower_bound; lia).
  set (q := nt / nb) in *. set (r := nt mod nb) in *. clearbody q r.
  assert (E3 : window 0 (nb * q) [x] = [x]) by (apply window_all; cbn; nia).
  rewrite E3. cbn [fold_right]. rewrite unit_r.
  destruct (0 <? r); [|reflexivity].
  assert (E4 : window (nt - r) (nt - (nt - r)) [x] = []).
  { unfold window. rewrite skipn_all2 by (cbn; nia). apply firstn_nil. }
  rewrite E4. cbn. apply unit_r.
Qed.

Lemma long_t_sum_dict_eq st : long_t_sum_dict zero add st = fold_right add zero (concat (map (fun kb => b_v (snd kb)) st)).
Proof.
  unfold long_t_sum_dict.
  assert (E : forall a, fold_left (fun t kb => add t (sum_rows zero add (b_v (snd kb)))) st a
     = add a (fold_right add zero (concat (map (fun kb => b_v (snd kb)) st)))).
  { induction st as [|kb st IH]; intros a; cbn; [now rewrite unit_r|].
    rewrite IH, fold_right_app', sum_rows_eq. now rewrite assoc. }
  rewrite E. apply unit_l.
Qed.
End Mean.

(* a tiling store contains exactly the record *)
Lemma tiling_concat {V} (rows : list V) (st : list (nat * block V)) a :
  tiling a (map (fun e => (b_s (snd e), b_e (snd e))) st) (length rows) ->
  (forall k b, In (k, b) st -> b_v b = window (b_s b) (b_e b - b_s b) rows) ->
  a <= length rows /\ concat (map (fun kb => b_v (snd kb)) st) = window a (length rows - a) rows.
Proof.
  revert a; induction st as [|[k b] st IH]; intros a Ht Hv; cbn [map] in *.
  - cbn in Ht. subst. rewrite Nat.sub_diag. now rewrite window_0.
  - cbn [tiling snd] in Ht. destruct Ht as (Hs & He & Ht).
    destruct (IH _ Ht) as [Hle E]. { intros; apply (Hv k0); now right. }
    cbn [concat snd]. rewrite (Hv k b) by (now left). rewrite Hs in *. split; [lia|].
    rewrite E. replace (length rows - a) with ((b_e b - a) + (length rows - b_e b)) by lia.
    rewrite <- window_app. f_equal. f_equal. lia.
Qed.

(* ---------- frequency axis ---------- *)
Local Open Scope Q_scope.
Lemma qn_le a b : (a <= b)%nat -> qn a <= qn b.
Proof. intros. unfold qn. rewrite <- Zle_Qle. lia. Qed.
Lemma qn_lt a b : (a < b)%nat -> qn a < qn b.
Proof. intros. unfold qn. rewrite <- Zlt_Qlt. lia. Qed.
Lemma qn_pos a : (0 < a)%nat -> 0 < qn a.
Proof. intros. apply (@qn_lt 0 a). lia. Qed.
Lemma qn_add a b : qn (a + b) == qn a + qn b.
Proof. unfold qn. rewrite Nat2Z.inj_add, inject_Z_plus. reflexivity. Qed.
Lemma qn_mul a b : qn (a * b) == qn a * qn b.
Proof. unfold qn. rewrite Nat2Z.inj_mul, inject_Z_mult. reflexivity. Qed.

Lemma nth_default_map_seq (f : nat -> Q) n k : (k < n)%nat -> nth k (map f (seq 0 n)) 0 = f k.
Proof. intros. now apply nth_map_seq0. Qed.

Section Freq.
Variables (n : nat) (dt : Q).
Hypothesis Hn : (0 < n)%nat.
Hypothesis Hdt : 0 < dt.
Let f k := qn k / (qn n * dt).

Lemma nz_n : ~ qn n == 0.
Proof. pose proof (qn_pos Hn). lra. Qed.
Lemma nz_dt : ~ dt == 0.
Proof. lra. Qed.

Lemma f_lt a b : (a < b)%nat -> f a < f b.
Proof.
  intros H. unfold f. apply Qmult_lt_r; [|now apply qn_lt].
  apply Qinv_lt_0_compat. pose proof (qn_pos Hn). nra.
Qed.
Lemma f_le_div x y c : 0 < c -> x <= y -> x / c <= y / c.
Proof. intros H H1. unfold Qdiv. apply Qmult_le_compat_r; [assumption|]. apply Qlt_le_weak, Qinv_lt_0_compat, H. Qed.

Lemma f_nyq_eq : 1 / (2 * dt) == qn n / (2 * (qn n * dt)).
Proof. pose proof nz_n. pose proof nz_dt. field. tauto. Qed.
Lemma f_double k : f k == (2 * qn k) / (2 * (qn n * dt)).
Proof. pose proof nz_n. pose proof nz_dt. unfold f. field. tauto. Qed.

Lemma f_cmp_nyq k : ((2 * k < n)%nat -> f k < 1 / (2 * dt)) /\ ((2 * k = n)%nat -> f k == 1 / (2 * dt)) /\
  ((n < 2 * k)%nat -> 1 / (2 * dt) < f k).
Proof.
  pose proof (qn_pos Hn) as Hp.
  assert (Hc : 0 < 2 * (qn n * dt)) by nra.
  assert (Hi : 0 < / (2 * (qn n * dt))) by (now apply Qinv_lt_0_compat).
  assert (E2 : qn (2 * k) == 2 * qn k) by (rewrite qn_mul; reflexivity).
  rewrite f_nyq_eq, f_double, <- E2.
  repeat split; intros H.
  - unfold Qdiv. apply Qmult_lt_r; [assumption|]. now apply qn_lt.
  - now rewrite H.
  - unfold Qdiv. apply Qmult_lt_r; [assumption|]. now apply qn_lt.
Qed.

Lemma one_sided_length full : full = false -> length (get_freq_axis true full n dt) = (n / 2 + 1)%nat.
Proof. intros ->. cbn [get_freq_axis]. now rewrite map_length, seq_length. Qed.

Lemma one_sided_nth k : (k < n / 2 + 1)%nat -> nth k (get_freq_axis true false n dt) 0 == f k.
Proof.
  intros Hk. unfold get_freq_axis. rewrite nth_default_map_seq by assumption.
  pose proof nz_n. pose proof nz_dt. unfold f. field. tauto.
Qed.

Lemma full_nth k isreal : (k < n)%nat -> nth k (get_freq_axis isreal true n dt) 0 == f k.
Proof.
  intros Hk. unfold get_freq_axis, freq_full. rewrite nth_default_map_seq by assumption.
  pose proof nz_n. pose proof nz_dt. unfold f. field. tauto.
Qed.

Lemma shift_nth j (l : list Q) k : (k < length l)%nat ->
  nth k (shift_from j dt l) 0 = (if (k <? j)%nat then nth k l 0 else nth k l 0 - 1 / dt).
Proof.
  intros Hk. unfold shift_from. destruct (Nat.ltb_spec k j) as [H|H].
  - rewrite app_nth1 by (rewrite firstn_length; lia). clear -H Hk.
    revert j k H Hk; induction l as [|x l IH]; intros j k H Hk; [cbn in Hk; lia|].
    destruct j; [lia|]. destruct k; cbn; [reflexivity|]. apply IH; cbn in *; lia.
  - rewrite app_nth2 by (rewrite firstn_length; lia). rewrite firstn_length, Nat.min_l by lia.
    assert (E : nth (k - j) (skipn j l) 0 = nth k l 0).
    { clear Hdt. revert l k H Hk. induction j as [|j IH]; intros l k H Hk; [cbn; now rewrite Nat.sub_0_r|].
      destruct l as [|x l]; [cbn in Hk; lia|]. destruct k as [|k]; [lia|]. cbn [skipn nth Nat.sub]. apply IH; cbn in *; lia. }
    rewrite (nth_indep _ 0 (0 - 1 / dt)) by (rewrite map_length, skipn_length; lia).
    rewrite (map_nth (fun x => x - 1 / dt)). now rewrite E.
Qed.

Definition dft_freq (k : nat) : Q := if (2 * k <=? n)%nat then f k else f k - 1 / dt.

Lemma two_sided_nth k : (k < n)%nat ->
  nth k (get_freq_axis false false n dt) 0 ==
  if (n mod 2 =? 0)%nat then dft_freq k
  else if (k =? (n + 1) / 2)%nat then f k else dft_freq k.
Proof.
  intros Hk. unfold get_freq_axis.
  assert (HL : length (freq_full n dt) = n) by (unfold freq_full; now rewrite map_length, seq_length).
  assert (E : nth k (freq_full n dt) 0 == f k) by (apply (full_nth true); assumption).
  destruct (n mod 2 =? 0)%nat eqn:Ep; rewrite shift_nth by lia; unfold dft_freq.
  - apply Nat.eqb_eq in Ep. pose proof (Nat.div_mod_eq n 2).
    destruct (Nat.ltb_spec k (n / 2 + 1)), (Nat.leb_spec (2 * k) n); try lia; rewrite E; reflexivity.
  - apply Nat.eqb_neq in Ep. pose proof (Nat.div_mod_eq n 2). pose proof (Nat.mod_upper_bound n 2 ltac:(lia)).
    pose proof (Nat.div_mod_eq (n + 1) 2). pose proof (Nat.mod_upper_bound (n + 1) 2 ltac:(lia)).
    destruct (Nat.eqb_spec k ((n + 1) / 2)).
    + destruct (Nat.ltb_spec k ((n + 1) / 2 + 1)); [assumption|lia].
    + destruct (Nat.ltb_spec k ((n + 1) / 2 + 1)), (Nat.leb_spec (2 * k) n); try lia; rewrite E; reflexivity.
Qed.

Lemma dft_freq_bound k : (k < n)%nat -> - (1 / (2 * dt)) < dft_freq k <= 1 / (2 * dt).
Proof.
  intros Hk. unfold dft_freq.
  assert (E1 : 1 / dt == 1 / (2 * dt) + 1 / (2 * dt)) by (pose proof nz_dt; field; assumption).
  assert (Hpos : 0 < 1 / (2 * dt)).
  { unfold Qdiv. rewrite Qmult_1_l. apply Qinv_lt_0_compat. nra. }
  destruct (f_cmp_nyq k) as (A1 & A2 & A3).
  assert (F0 : 0 <= f k).
  { unfold f, Qdiv. apply Qmult_le_0_compat; [apply (@qn_le 0 k); lia|].
    apply Qlt_le_weak, Qinv_lt_0_compat. pose proof (qn_pos Hn). nra. }
  assert (F1 : f k < 1 / dt).
  { assert (E : 1 / dt == f n). { unfold f. pose proof nz_n. pose proof nz_dt. field. tauto. }
    rewrite E. apply f_lt. assumption. }
  destruct (Nat.leb_spec (2 * k) n) as [H|H].
  - split; [lra|]. destruct (Nat.eq_dec (2 * k) n) as [H'|H']; [rewrite (A2 H'); lra|]. assert (2 * k < n)%nat by lia.
    specialize (A1 H0). lra.
  - specialize (A3 H). lra.
Qed.
End Freq.
