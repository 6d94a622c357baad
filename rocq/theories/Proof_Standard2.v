(* Proofs: per-mode files. *)
From Verif Require Import Base_List Model_Parallel Proof_Parallel Model_Reader2 Proof_Reader2 Model_Standard.
Local Open Scope nat_scope.
Set Implicit Arguments.

Lemma filter_mod_range S p n r : 0 < S -> n <= S -> r < S ->
  filter (fun i => r =? i mod S) (seq (p * S) n) = if r <? n then [p * S + r] else [].
Proof.
  intros HS Hn Hr. induction n as [|n IH]; [reflexivity|].
  rewrite seq_S, filter_app, IH by lia. cbn [filter].
  replace ((p * S + n) mod S) with n.
  2: { rewrite Nat.add_comm, Nat.mod_add by lia. symmetry. apply Nat.mod_small. lia. }
  destruct (Nat.eqb_spec r n) as [->|H].
  - rewrite Nat.ltb_irrefl. replace (n <? Datatypes.S n) with true by (symmetry; apply Nat.ltb_lt; lia). reflexivity.
  - destruct (Nat.ltb_spec r n), (Nat.ltb_spec r (Datatypes.S n)); try lia; now rewrite app_nil_r.
Qed.

Lemma nth_flat_map_one {X Y} (g : X -> list Y) (l : list X) p x0 d : p < length l ->
  (forall q, q < p -> length (g (nth q l x0)) = 1) ->
  nth p (flat_map g l) d = nth 0 (g (nth p l x0) ++ flat_map g (skipn (S p) l)) d.
Proof.
  revert l; induction p as [|p IH]; intros l Hp Hq; (destruct l as [|x l]; [cbn in Hp; lia|]); cbn [flat_map].
  - reflexivity.
  - pose proof (Hq 0 ltac:(lia)) as H0. cbn [nth] in H0. destruct (g x) as [|y [|y' ys]] eqn:E; cbn in H0; try lia.
    cbn [app nth skipn]. rewrite (IH l); [reflexivity|cbn in Hp; lia|].
    intros q Hq'. apply (Hq (S q)). lia.
Qed.

Section PerMode.
Context {A : Type}.
Variable zero : A.
Variables (size n_freq n_modes : nat).
Hypothesis Hsize : 0 < size.
Notation T := (total_files n_freq n_modes).
Notation np := (n_passes size n_freq n_modes).

Lemma passes_bound p : p < np <-> p * size < T.
Proof using Hsize.
  clear -Hsize. unfold n_passes. pose proof (Nat.div_mod_eq (T + size - 1) size) as E.
  pose proof (Nat.mod_upper_bound (T + size - 1) size ltac:(lia)) as H.
  set (q := (T + size - 1) / size) in *. set (r := (T + size - 1) mod size) in *. clearbody q r. nia.
Qed.
Lemma pass_range_eq p : pass_range size n_freq n_modes p = seq (p * size) (min size (T - p * size)).
Proof. unfold pass_range. f_equal. nia. Qed.
Lemma pass_range_full p : S p < np -> pass_range size n_freq n_modes p = seq (p * size) size.
Proof. intros H. apply passes_bound in H. rewrite pass_range_eq. f_equal. nia. Qed.

Lemma pass_filter p r : r < size ->
  filter (fun i => r =? i mod size) (pass_range size n_freq n_modes p) = if p * size + r <? T then [p * size + r] else [].
Proof.
  intros Hr. rewrite pass_range_eq, filter_mod_range by lia.
  destruct (Nat.ltb_spec r (min size (T - p * size))), (Nat.ltb_spec (p * size + r) T); try lia; reflexivity.
Qed.

(* all indices are treated, each once, in order *)
Lemma passes_concat : concat (map (pass_range size n_freq n_modes) (seq 0 np)) = seq 0 T.
Proof.
  assert (E : forall k, k <= np -> concat (map (pass_range size n_freq n_modes) (seq 0 k)) = seq 0 (min (k * size) T)).
  { induction k as [|k IH]; intros Hk; [reflexivity|].
    rewrite seq_S, map_app, concat_app, IH by lia. cbn [map concat plus]. rewrite app_nil_r, pass_range_eq.
    assert (Hb : k * size < T) by (apply passes_bound; lia).
    rewrite (Nat.min_l (k * size) T) by lia.
    replace (min (S k * size) T) with (k * size + min size (T - k * size)) by nia.
    now rewrite seq_app. }
  rewrite E by lia. f_equal.
  assert (~ np < np) by lia. rewrite passes_bound in H. lia.
Qed.

Lemma pass_write_eq p r : r < size ->
  pass_write size n_freq n_modes p r
  = if p * size + r <? T then Some ((p * size + r) / n_modes, (p * size + r) mod n_modes) else None.
Proof.
  intros Hr. unfold pass_write.
  assert (E : forall l w, fold_left (fun w i => if r =? i mod size then Some (i / n_modes, i mod n_modes) else w) l w
     = fold_left (fun _ i => Some (i / n_modes, i mod n_modes)) (filter (fun i => r =? i mod size) l) w).
  { induction l as [|i l IH]; intros w; cbn [fold_left filter]; [reflexivity|].
    rewrite IH. destruct (r =? i mod size); reflexivity. }
  rewrite E, pass_filter by assumption. destruct (p * size + r <? T); reflexivity.
Qed.

Hypothesis Hmodes : 0 < n_modes.
Lemma file_bounds i : i < T -> i / n_modes < n_freq /\ i mod n_modes < n_modes.
Proof.
  intros H. split; [|apply Nat.mod_upper_bound; lia]. apply Nat.div_lt_upper_bound; [lia|].
  unfold total_files in H. lia.
Qed.

Variable phi : nat -> nat -> nat -> list A.
Hypothesis Hphi : forall r f m, r < size -> f < n_freq -> m < n_modes -> length (phi r f m) = length (phi r 0 0).
Notation M := (phi0_max size phi).
Notation cts := (counts size phi).
Lemma receives_before_eq p r : r < size -> p < np -> receives_before size n_freq n_modes p r = p.
Proof.
  intros Hr Hp. unfold receives_before.
  assert (E : forall k, k <= p -> sum (map (fun p => length (filter (fun i => r =? i mod size) (pass_range size n_freq n_modes p))) (seq 0 k)) = k).
  { induction k as [|k IH]; intros Hk; [reflexivity|].
    rewrite seq_S, map_app, sum_app, IH by lia. cbn [map plus]. rewrite pass_filter by assumption.
    assert (Hb : p * size < T) by (now apply passes_bound).
    assert (Hb' : k * size + r < T) by nia. apply Nat.ltb_lt in Hb'. rewrite Hb'. cbn. lia. }
  apply E. lia.
Qed.

Lemma channel_eq src dst : dst < size ->
  channel zero size n_freq n_modes phi src dst
  = flat_map (fun p => if p * size + dst <? T then [padded zero size phi src ((p * size + dst) / n_modes) ((p * size + dst) mod n_modes)] else []) (seq 0 np).
Proof.
  intros Hd. unfold channel. apply flat_map_ext. intros p.
  assert (E : forall l, flat_map (fun i => if i mod size =? dst then [padded zero size phi src (i / n_modes) (i mod n_modes)] else []) l
    = map (fun i => padded zero size phi src (i / n_modes) (i mod n_modes)) (filter (fun i => dst =? i mod size) l)).
  { induction l as [|i l IH]; cbn [flat_map filter map]; [reflexivity|]. rewrite IH, (Nat.eqb_sym dst).
    destruct (i mod size =? dst); reflexivity. }
  rewrite E, pass_filter by assumption. destruct (p * size + dst <? T); reflexivity.
Qed.

Lemma received p src dst : dst < size -> p * size + dst < T ->
  nth (receives_before size n_freq n_modes p dst) (channel zero size n_freq n_modes phi src dst) []
  = padded zero size phi src ((p * size + dst) / n_modes) ((p * size + dst) mod n_modes).
Proof.
  intros Hd Hi. assert (Hp : p < np) by (apply passes_bound; lia).
  rewrite receives_before_eq, channel_eq by assumption.
  rewrite (@nth_flat_map_one _ _ _ _ p 0); [|rewrite seq_length; assumption|].
  - rewrite seq_nth by assumption. cbn [plus]. apply Nat.ltb_lt in Hi. rewrite Hi. reflexivity.
  - intros q Hq. rewrite seq_nth by lia. cbn [plus].
    assert (Hb' : q * size + dst < T) by nia. apply Nat.ltb_lt in Hb'. rewrite Hb'. reflexivity.
Qed.

Lemma max_ge (l : list nat) x : In x l -> x <= fold_right max 0 l.
Proof. induction l as [|y l IH]; cbn; [tauto|]. intros [->|H]; [lia|]. specialize (IH H). lia. Qed.
Lemma count_le r : r < size -> length (phi r 0 0) <= M.
Proof.
  intros H. unfold phi0_max, counts. apply max_ge. apply in_map_iff. exists r. split; [reflexivity|]. apply in_seq. lia.
Qed.
Lemma padded_length r f m : r < size -> f < n_freq -> m < n_modes -> length (padded zero size phi r f m) = M.
Proof.
  intros Hr Hf Hm. unfold padded. rewrite app_length, repeat_length, Hphi by assumption.
  pose proof (count_le Hr). lia.
Qed.

(* the buffer holds the padded pieces in rank order, whatever the arrival order *)
Lemma buffer_eq p dst order : dst < size -> p * size + dst < T -> Permutation order (seq 0 size) ->
  buffer zero size n_freq n_modes phi p dst order
  = concat (map (fun r => padded zero size phi r ((p * size + dst) / n_modes) ((p * size + dst) mod n_modes)) (seq 0 size)).
Proof.
  intros Hd Hi Hperm. destruct (file_bounds Hi) as [Hf Hm].
  set (f := (p * size + dst) / n_modes) in *. set (m := (p * size + dst) mod n_modes) in *.
  set (pad := fun r => padded zero size phi r f m).
  set (Tg := concat (map pad (seq 0 size))).
  assert (Hin : forall r, In r order -> r < size).
  { intros r Hr. eapply Permutation_in in Hr; [|exact Hperm]. apply in_seq in Hr. lia. }
  assert (Hlp : forall l, In l (map pad (seq 0 size)) -> length l = M).
  { intros l Hl. apply in_map_iff in Hl as (r & <- & Hr). apply in_seq in Hr. apply padded_length; try assumption; lia. }
  assert (HT : length Tg = size * M).
  { unfold Tg. rewrite (@concat_length_const _ _ M) by assumption. now rewrite map_length, seq_length. }
  assert (Hw : forall r, r < size -> pad r = window (M * r) M Tg).
  { intros r Hr. apply nth_error_ext. intros k. rewrite nth_error_window.
    destruct (Nat.ltb_spec k M) as [Hk|Hk].
    - unfold Tg. rewrite Nat.mul_comm. rewrite (@nth_error_concat_const _ _ M) by assumption.
      rewrite nth_error_map_seq. replace (r <? size) with true by (symmetry; now apply Nat.ltb_lt). reflexivity.
    - apply nth_error_None. unfold pad. rewrite padded_length by assumption. lia. }
  destruct (@puts_assemble A Tg (fun r => M * r) (fun _ => M)
     (fun irank => nth (receives_before size n_freq n_modes p dst) (channel zero size n_freq n_modes phi irank dst) []) order)
     with (init := repeat zero (M * size)) as (L & _ & C).
  - intros q Hq. apply Hin in Hq. rewrite HT. nia.
  - intros q Hq. rewrite received by assumption. apply Hin in Hq. rewrite <- Hw by assumption. reflexivity.
  - rewrite repeat_length, HT. lia.
  - unfold buffer. fold pad. fold Tg. apply nth_error_ext. intros k.
    destruct (Nat.lt_ge_cases k (size * M)) as [Hk|Hk].
    + destruct (Nat.eq_dec M 0) as [E0|E0]; [rewrite E0 in Hk; lia|].
      apply (C (k / M) k).
      * eapply Permutation_in; [apply Permutation_sym; exact Hperm|]. apply in_seq. cbn [plus].
        split; [apply Nat.le_0_l|]. apply Nat.div_lt_upper_bound; [exact E0|rewrite Nat.mul_comm; exact Hk].
      * pose proof (Nat.div_mod_eq k M). pose proof (Nat.mod_upper_bound k M E0). set (a := k / M) in *. set (b := k mod M) in *. clearbody a b. lia.
    + transitivity (@None A); [|symmetry]; apply nth_error_None; lia.
Qed.

(* removing the padding in place *)
Definition pieces (f m : nat) : list (list A) := map (fun r => phi r f m) (seq 0 size).
Lemma cts_firstn_le k : k <= size -> sum (firstn k cts) <= k * M.
Proof.
  induction k as [|k IH]; intros Hk; [cbn; lia|].
  assert (Hl : k < length cts) by (unfold counts; rewrite map_length, seq_length; lia).
  rewrite firstn_firstn_S_sum by assumption.
  assert (nth k cts 0 <= M).
  { unfold phi0_max. apply max_ge, nth_In. assumption. }
  specialize (IH ltac:(lia)). lia.
Qed.
Lemma nth_cts r : r < size -> nth r cts 0 = length (phi r 0 0).
Proof. intros H. unfold counts. now rewrite (nth_map_seq0 (fun r => length (phi r 0 0)) 0 H). Qed.

Lemma unpad_inv f m (data : list A) k : f < n_freq -> m < n_modes -> k <= size ->
  data = concat (map (fun r => padded zero size phi r f m) (seq 0 size)) ->
  let r := fold_left (unpad_step size phi) (seq 0 k) data in
  length r = size * M /\
  firstn (sum (firstn k cts)) r = concat (firstn k (pieces f m)) /\
  (forall j, k * M <= j -> nth_error r j = nth_error data j).
Proof.
  intros Hf Hm Hk Hdata.
  assert (Hlp : forall l, In l (map (fun r => padded zero size phi r f m) (seq 0 size)) -> length l = M).
  { intros l Hl. apply in_map_iff in Hl as (r & <- & Hr). apply in_seq in Hr. apply padded_length; try assumption; lia. }
  assert (Hlen : length data = size * M).
  { rewrite Hdata, (@concat_length_const _ _ M) by assumption. now rewrite map_length, seq_length. }
  induction k as [|k IH]; [cbn; auto|].
  specialize (IH ltac:(lia)). cbn zeta in *. rewrite seq_S, fold_left_app. cbn [fold_left plus].
  set (r := fold_left (unpad_step size phi) (seq 0 k) data) in *. destruct IH as (IL & IF & IU).
  assert (Hlc : k < length cts) by (unfold counts; rewrite map_length, seq_length; lia).
  assert (Hc : length (phi k f m) = nth k cts 0) by (rewrite nth_cts by lia; apply Hphi; lia).
  pose proof (@cts_firstn_le k ltac:(lia)) as Hle. pose proof (@count_le k ltac:(lia)) as HcM. rewrite <- nth_cts in HcM by lia.
  assert (HSk : S k * M <= size * M) by (apply Nat.mul_le_mono_r; lia).
  assert (Hwin : window (k * M) (nth k cts 0) r = phi k f m).
  { apply nth_error_ext. intros j. rewrite nth_error_window.
    destruct (Nat.ltb_spec j (nth k cts 0)) as [Hj|Hj].
    - rewrite IU by lia. rewrite Hdata. rewrite (@nth_error_concat_const _ _ M) by (try assumption; lia).
      rewrite nth_error_map_seq. replace (k <? size) with true by (symmetry; apply Nat.ltb_lt; lia).
      cbn [plus]. unfold padded. rewrite nth_error_app1 by lia. reflexivity.
    - symmetry. apply nth_error_None. lia. }
  unfold unpad_step. rewrite Hwin.
  assert (Hfit : sum (firstn k cts) + length (phi k f m) <= length r) by lia.
  split; [|split].
  - rewrite put_length by lia. assumption.
  - rewrite firstn_firstn_S_sum by assumption.
    assert (Hpl : length (pieces f m) = size) by (unfold pieces; now rewrite map_length, seq_length).
    assert (Ep : firstn (S k) (pieces f m) = firstn k (pieces f m) ++ [phi k f m]).
    { unfold pieces. rewrite !firstn_map. change (firstn ?a (seq 0 size)) with (window 0 a (seq 0 size)). rewrite !window_seq by lia. cbn [plus]. now rewrite seq_S, map_app. }
    rewrite Ep, concat_app. cbn [concat]. rewrite app_nil_r.
    rewrite <- IF. unfold put. rewrite Hc. rewrite <- Hc.
    rewrite app_assoc. rewrite firstn_app.
    assert (El : length (firstn (sum (firstn k cts)) r ++ phi k f m) = sum (firstn k cts) + length (phi k f m))
      by (rewrite app_length, firstn_length; lia).
    rewrite El, Nat.sub_diag. cbn [firstn]. rewrite app_nil_r.
    apply firstn_all2. rewrite El. lia.
  - intros j Hj. rewrite nth_error_put by lia.
    replace ((sum (firstn k cts) <=? j) && (j <? sum (firstn k cts) + length (phi k f m))) with false.
    + apply IU. lia.
    + symmetry. apply andb_false_intro2. apply Nat.ltb_ge. lia.
Qed.

Lemma pass_file_eq p dst order : dst < size -> Permutation order (seq 0 size) ->
  pass_file zero size n_freq n_modes phi p dst order
  = if p * size + dst <? T
    then Some ((p * size + dst) / n_modes, (p * size + dst) mod n_modes,
               concat (pieces ((p * size + dst) / n_modes) ((p * size + dst) mod n_modes)))
    else None.
Proof.
  intros Hd Hperm. unfold pass_file. rewrite pass_write_eq by assumption.
  destruct (Nat.ltb_spec (p * size + dst) T) as [Hi|Hi]; [|reflexivity].
  destruct (file_bounds Hi) as [Hf Hm].
  rewrite buffer_eq by assumption. f_equal. f_equal. unfold unpad.
  destruct (@unpad_inv _ _ _ size Hf Hm ltac:(lia) eq_refl) as (_ & E & _).
  assert (Hlc : length cts = size) by (unfold counts; now rewrite map_length, seq_length).
  assert (Ec : firstn size cts = cts) by (apply firstn_all2; lia).
  rewrite Ec in E. rewrite E. f_equal. apply firstn_all2. unfold pieces. rewrite map_length, seq_length. lia.
Qed.
End PerMode.
