(* Proofs about weights: C26, C27, C67, C80, C81. *)
From Coq Require Import QArith Qpower Qround Lqa.
From Verif Require Import Base_List Model_Parallel Spec_Array Proof_Parallel Model_Stat Spec_Stat Proof_Stat
  Model_Reader2 Model_Base Model_Weights Spec_Weights.
Local Open Scope nat_scope.
Set Implicit Arguments.

Lemma prod_app l l' : prod (l ++ l') = prod l * prod l'.
Proof. induction l as [|x l IH]; cbn [app]; unfold prod in *; cbn [fold_right]; [lia|]. rewrite IH. lia. Qed.

(* ---- last axis ---- *)
Lemma last_axis_app {A} (d : A) L i l l' k : 0 < L -> i < L -> length l = k * L ->
  last_axis d L i (l ++ l') = last_axis d L i l ++ last_axis d L i l'.
Proof.
  intros HL Hi Hl. unfold last_axis. rewrite app_length, Hl.
  rewrite Nat.add_comm, Nat.div_add by lia. rewrite Nat.div_mul by lia.
  rewrite (Nat.add_comm _ k), seq_app, map_app. f_equal.
  - apply map_ext_in. intros a Ha. apply in_seq in Ha. apply app_nth1. nia.
  - rewrite <- (map_id (seq 0 (length l' / L))) at 1. cbn [plus].
    assert (E : forall n s, seq (k + s) n = map (fun x => k + x) (seq s n)).
    { induction n as [|n IH]; intros s; cbn; [reflexivity|]. f_equal. rewrite <- IH. f_equal. lia. }
    rewrite map_id. replace (seq k (length l' / L)) with (map (fun x => k + x) (seq 0 (length l' / L))).
    2: { rewrite <- E. f_equal. lia. }
    rewrite map_map. apply map_ext. intros a. rewrite app_nth2 by nia. f_equal. nia.
Qed.

Lemma last_axis_length {A} (d : A) L i l : length (last_axis d L i l) = length l / L.
Proof. unfold last_axis. now rewrite map_length, seq_length. Qed.

Lemma last_axis_window {A} (d : A) L i a b l : 0 < L -> i < L -> a * L + b * L <= length l ->
  last_axis d L i (window (a * L) (b * L) l) = window a b (last_axis d L i l).
Proof.
  intros HL Hi H.
  assert (Hab : a + b <= length l / L) by (apply Nat.div_le_lower_bound; lia).
  unfold last_axis. rewrite window_length_le, Nat.div_mul by lia.
  rewrite <- map_window. rewrite window_seq by lia. cbn [plus].
  apply nth_error_ext. intros k. rewrite !nth_error_map_seq. destruct (Nat.ltb_spec k b); [|reflexivity].
  f_equal. apply nth_error_nth. rewrite nth_error_window. cbn [plus].
  replace (k * L + i <? b * L) with true by (symmetry; apply Nat.ltb_lt; nia).
  rewrite (nth_error_nth' l d) by nia. do 2 f_equal. nia.
Qed.

Lemma last_axis_slice {A} (d : A) L i outer N inner s n l : 0 < L -> i < L -> s + n <= N ->
  length l = outer * N * (inner * L) ->
  last_axis d L i (slice_flat outer N (inner * L) s n l) = slice_flat outer N inner s n (last_axis d L i l).
Proof.
  intros HL Hi Hs Hl. unfold slice_flat.
  assert (E : forall os, (forall o, In o os -> o < outer) ->
     last_axis d L i (concat (map (fun o => window ((o * N + s) * (inner * L)) (n * (inner * L)) l) os))
     = concat (map (fun o => window ((o * N + s) * inner) (n * inner) (last_axis d L i l)) os)).
  { induction os as [|o os IH]; intros Ho; [cbn; unfold last_axis; cbn; now rewrite Nat.div_0_l by lia|].
    cbn [map concat].
    assert (Hb : (o * N + s) * inner * L + n * inner * L <= length l).
    { pose proof (Ho o (or_introl eq_refl)). rewrite Hl.
      assert (o * N + s + n <= outer * N) by nia.
      replace ((o * N + s) * inner * L + n * inner * L) with ((o * N + s + n) * (inner * L)) by lia.
      apply Nat.mul_le_mono_r. assumption. }
    rewrite (@last_axis_app _ d L i _ _ (n * inner)); [| assumption | assumption | rewrite window_length_le; lia].
    rewrite IH by (intros; apply Ho; now right). f_equal.
    rewrite <- last_axis_window by assumption. f_equal. f_equal; lia. }
  apply E. intros o Ho. apply in_seq in Ho. lia.
Qed.

(* ---- the update ---- *)
Lemma upd_last_axis_length {A} L i (f : A -> A) w : length (upd_last_axis L i f w) = length w.
Proof. unfold upd_last_axis. rewrite map_length, combine_length, seq_length. lia. Qed.
Lemma nth_error_combine {A B} (l : list A) (l' : list B) k : 
  nth_error (combine l l') k = match nth_error l k, nth_error l' k with Some a, Some b => Some (a, b) | _, _ => None end.
Proof.
  revert l' k; induction l as [|x l IH]; intros l' k; destruct l' as [|y l'], k as [|k]; cbn; try reflexivity.
  - destruct (nth_error l k); reflexivity.
  - apply IH.
Qed.
Lemma upd_last_axis_nth {A} L i (f : A -> A) w p :
  nth_error (upd_last_axis L i f w) p
  = if p mod L =? i then option_map f (nth_error w p) else nth_error w p.
Proof.
  unfold upd_last_axis. rewrite nth_error_map, nth_error_combine, nth_error_seq. cbn [plus].
  destruct (Nat.ltb_spec p (length w)) as [H|H].
  - destruct (nth_error w p) as [x|] eqn:E; [|apply nth_error_None in E; lia].
    cbn. destruct (p mod L =? i); reflexivity.
  - replace (nth_error w p) with (@None A) by (symmetry; apply nth_error_None; lia). cbn.
    now destruct (p mod L =? i).
Qed.

Lemma normalize_loop_ok store L var is w : (forall i, In i is -> i < L) -> NoDup is ->
  exists w', normalize_loop store L var is w = Ok w' /\ length w' = length w /\
  forall p, nth_error w' p =
    if existsb (Nat.eqb (p mod L)) is then option_map (fun x => store (qdiv x (var (p mod L)))) (nth_error w p)
    else nth_error w p.
Proof.
  revert w; induction is as [|i is IH]; intros w Hi Hn; cbn [normalize_loop existsb].
  - exists w. auto.
  - replace (i <? L) with true by (symmetry; apply Nat.ltb_lt, Hi; now left).
    destruct (IH (upd_last_axis L i (fun x => store (qdiv x (var i))) w)) as (w' & E & El & En).
    { intros j Hj; apply Hi; now right. } { now inversion Hn. }
    exists w'. split; [exact E|]. split; [now rewrite El, upd_last_axis_length|].
    intros p. rewrite En, upd_last_axis_nth. inversion Hn as [|? ? Hni _]; subst.
    destruct (Nat.eqb_spec (p mod L) i) as [Ep|Ep]; cbn [orb].
    + replace (existsb (Nat.eqb (p mod L)) is) with false; [now rewrite Ep|].
      symmetry. apply Bool.not_true_is_false. intros Hx. apply existsb_exists in Hx as (j & Hj & Hx).
      apply Nat.eqb_eq in Hx. congruence.
    + reflexivity.
Qed.
Lemma existsb_seq q nv : existsb (Nat.eqb q) (seq 0 nv) = (q <? nv).
Proof.
  apply Bool.eq_true_iff_eq. rewrite existsb_exists, Nat.ltb_lt. split.
  - intros (x & Hx & E). apply in_seq in Hx. apply Nat.eqb_eq in E. lia.
  - intros H. exists q. rewrite Nat.eqb_refl, in_seq. split; [lia|reflexivity].
Qed.
Lemma normalize_seq store L var nv w : nv <= L ->
  exists w', normalize_loop store L var (seq 0 nv) w = Ok w' /\ length w' = length w /\
  forall p, nth_error w' p =
    if p mod L <? nv then option_map (fun x => store (qdiv x (var (p mod L)))) (nth_error w p)
    else nth_error w p.
Proof.
  intros H. destruct (@normalize_loop_ok store L var (seq 0 nv) w) as (w' & E & El & En).
  - intros i Hi. apply in_seq in Hi. lia.
  - apply seq_NoDup.
  - exists w'. split; [exact E|]. split; [exact El|]. intros p. now rewrite En, existsb_seq.
Qed.
Lemma normalize_seq_err store L var nv w : L < nv -> normalize_loop store L var (seq 0 nv) w = Err IndexError.
Proof.
  intros H. assert (E : forall n s w, s <= L -> L < s + n -> normalize_loop store L var (seq s n) w = Err IndexError).
  { induction n as [|n IH]; intros s w0 H1 H2; [lia|]. cbn [seq normalize_loop].
    destruct (Nat.ltb_spec s L); [|reflexivity]. apply IH; lia. }
  apply E; lia.
Qed.

Lemma nanvar_ok l : l <> [] -> exists v, nanvar l = Some v /\ (v == variance l)%Q.
Proof. intros H. destruct (local_stat_ok _ H) as (_ & _ & v & E & Hv). exists v. auto. Qed.

Lemma qdiv_some a v : ~ (v == 0)%Q -> qdiv (Some a) (Some v) = Some (a / v)%Q.
Proof. intros H. cbn. destruct (Qeq_bool v 0) eqn:E; [|reflexivity]. apply Qeq_bool_iff in E. contradiction. Qed.

(* entries of variable i *)
Lemma last_axis_nonempty {A} (d : A) L i l : 0 < L -> L <= length l -> last_axis d L i l <> [].
Proof.
  intros HL H E. apply (f_equal (@length A)) in E. rewrite last_axis_length in E. cbn in E.
  assert (1 <= length l / L) by (apply Nat.div_le_lower_bound; lia). lia.
Qed.

(* ---- permutation invariance of the variance ---- *)
Lemma total_perm l l' : Permutation l l' -> (total l == total l')%Q.
Proof. induction 1; cbn [total fold_right]; unfold total in *; cbn [fold_right]; try lra. Qed.
Lemma variance_perm l l' : Permutation l l' -> l <> [] -> (variance l == variance l')%Q.
Proof.
  intros H Hn. assert (Hn' : l' <> []) by (intros ->; apply Permutation_sym, Permutation_nil in H; auto).
  rewrite !variance_alt by assumption. unfold mean, count.
  rewrite (total_perm H), (Permutation_length H).
  rewrite (total_perm (Permutation_map (fun x => x ^ 2)%Q H)). reflexivity.
Qed.
Lemma leaves_tree_map {A B} (f : A -> B) t : leaves (tree_map f t) = map f (leaves t).
Proof. induction t as [a|l IHl r IHr]; cbn; [reflexivity|]. now rewrite IHl, IHr, map_app. Qed.

Lemma qdiv_oeq x v v' : oeq v v' -> oeq (qdiv x v) (qdiv x v').
Proof.
  destruct x as [x|], v as [v|], v' as [v'|]; cbn; try tauto. intros H.
  destruct (Qeq_bool v 0) eqn:E, (Qeq_bool v' 0) eqn:E'; cbn.
  - exact I.
  - apply Qeq_bool_iff in E. rewrite H in E. apply Qeq_bool_iff in E. congruence.
  - apply Qeq_bool_iff in E'. rewrite <- H in E'. apply Qeq_bool_iff in E'. congruence.
  - now rewrite H.
Qed.

(* variable_values is data[...,i] *)
Lemma vv_chunk {A} L i (c : list A) s d : i < L -> s mod L = 0 -> length c = L ->
  map snd (filter (fun p => fst p mod L =? i) (combine (seq s (length c)) c)) = [nth i c d].
Proof.
  intros Hi Hs Hc.
  assert (E : forall c' k, k + length c' = L ->
     map snd (filter (fun p => fst p mod L =? i) (combine (seq (s + k) (length c')) c'))
     = if i <? k then [] else match c' with [] => [] | _ => [nth (i - k) c' d] end).
  { clear c Hc. induction c' as [|x c' IH]; intros k Hk; cbn [length] in *; [now destruct (i <? k)|].
    cbn [seq combine filter fst snd]. rewrite <- Nat.add_succ_r.
    assert (Em : (s + k) mod L = k).
    { rewrite <- Nat.add_mod_idemp_l, Hs by lia. apply Nat.mod_small. lia. }
    rewrite Em. destruct (Nat.eqb_spec k i) as [->|Hne].
    - cbn [map snd]. rewrite IH by lia. replace (i <? S i) with true by (symmetry; apply Nat.ltb_lt; lia).
      rewrite Nat.ltb_irrefl, Nat.sub_diag. reflexivity.
    - rewrite IH by lia. destruct (Nat.ltb_spec i (S k)), (Nat.ltb_spec i k); try lia; try reflexivity.
      destruct c' as [|y c']; [cbn in Hk; lia|]. replace (i - k) with (S (i - S k)) by lia. reflexivity. }
  specialize (E c 0 Hc). rewrite Nat.add_0_r in E. rewrite E. cbn [Nat.ltb Nat.leb].
  rewrite Nat.sub_0_r. destruct (i <? 0) eqn:E0; [apply Nat.ltb_lt in E0; lia|].
  destruct c; [cbn in Hc; lia|reflexivity].
Qed.
Lemma variable_values_eq {A} (d : A) L i l k : 0 < L -> i < L -> length l = k * L ->
  variable_values L i l = last_axis d L i l.
Proof.
  intros HL Hi. unfold variable_values.
  assert (E : forall k l s, s mod L = 0 -> length l = k * L ->
    map snd (filter (fun p => fst p mod L =? i) (combine (seq s (length l)) l)) = last_axis d L i l).
  { clear k l. induction k as [|k IH]; intros l s Hs Hl.
    - destruct l; [|cbn in Hl; lia]. unfold last_axis. cbn. now rewrite Nat.div_0_l by lia.
    - pose proof (firstn_skipn L l) as Ef.
      assert (L1 : length (firstn L l) = L) by (rewrite firstn_length; nia).
      assert (L2 : length (skipn L l) = k * L) by (rewrite skipn_length; nia).
      rewrite <- Ef. rewrite app_length, seq_app, combine_app', filter_app, map_app
        by (now rewrite seq_length).
      rewrite (@vv_chunk A L i _ s d) by assumption.
      rewrite L1. rewrite IH; [|rewrite <- Nat.add_mod_idemp_l, Hs by lia; cbn [plus]; now apply Nat.mod_same; lia|assumption].
      rewrite (@last_axis_app _ d L i _ _ 1) by lia. f_equal.
      unfold last_axis. rewrite L1, Nat.div_same by lia. reflexivity. }
  intros Hl. apply (@E k l 0); [apply Nat.mod_0_l; lia|assumption].
Qed.

(* ---- C67 serial ---- *)
Lemma normalize_serial_spec nv data sh (w : list Q) k : 0 < nv -> 0 < k -> length data = k * nv ->
  last sh 0 = nv -> (forall i, i < nv -> ~ (variance (variable_values nv i data) == 0)%Q) ->
  exists w', apply_normalization_serial store_float true nv data (Nd sh (map Some w)) = Ok (Nd sh (map Some w')) /\
    length w' = length w /\
    forall p, p < length w -> (nth p w' 0 * variance (variable_values nv (p mod nv) data) == nth p w 0)%Q.
Proof.
  intros Hv Hk Hl Hs Hvar. unfold apply_normalization_serial. cbn [shape flat]. unfold last_dim. rewrite Hs.
  destruct (@normalize_seq store_float nv (fun i => nanvar (last_axis 0%Q nv i data)) nv (map Some w) ltac:(lia))
    as (w1 & E & El & En). rewrite E. cbn [bind].
  rewrite map_length in El.
  set (f := fun p => match nth_error w1 p with Some (Some y) => y | _ => 0%Q end).
  assert (Hp : forall p, p < length w -> exists v y, nanvar (last_axis 0%Q nv (p mod nv) data) = Some v /\
     (v == variance (variable_values nv (p mod nv) data))%Q /\ ~ (v == 0)%Q /\
     nth_error w1 p = Some (Some y) /\ y = (nth p w 0 / v)%Q).
  { intros p Hp. pose proof (Nat.mod_upper_bound p nv ltac:(lia)) as Hm.
    destruct (@nanvar_ok (last_axis 0%Q nv (p mod nv) data)) as (v & Ev & Hve).
    { apply last_axis_nonempty; nia. }
    pose proof (Hvar _ Hm) as Hnz. erewrite (@variable_values_eq Q 0%Q nv (p mod nv) data k) in Hnz by assumption.
    assert (Hnv : ~ (v == 0)%Q) by (intros E0; apply Hnz; rewrite <- Hve; exact E0).
    exists v, (nth p w 0 / v)%Q. split; [exact Ev|]. split.
    { now rewrite (@variable_values_eq Q 0%Q nv (p mod nv) data k). }
    split; [exact Hnv|]. split; [|reflexivity].
    rewrite En. replace (p mod nv <? nv) with true by (symmetry; now apply Nat.ltb_lt).
    rewrite nth_error_map, (nth_error_nth' w 0%Q) by assumption. cbn [option_map]. rewrite Ev.
    unfold store_float. now rewrite qdiv_some. }
  exists (map f (seq 0 (length w))). split; [|split].
  - f_equal. f_equal. apply nth_error_ext. intros p. rewrite nth_error_map, nth_error_map_seq. cbn [plus].
    destruct (Nat.ltb_spec p (length w)) as [H|H].
    + destruct (Hp p H) as (v & y & _ & _ & _ & E1 & _). unfold f. rewrite E1. reflexivity.
    + apply nth_error_None. lia.
  - now rewrite map_length, seq_length.
  - intros p H. destruct (Hp p H) as (v & y & E1 & E2 & E3 & E4 & E5).
    rewrite (nth_map_seq0 f). 2: assumption. unfold f. rewrite E4, E5, <- E2. field. exact E3.
Qed.

(* ---- C67 parallel = serial ---- *)
Lemma map_seq_shift {A} (f : nat -> A) s n : map f (seq s n) = map (fun x => f (s + x)) (seq 0 n).
Proof.
  apply nth_error_ext. intros k. rewrite !nth_error_map_seq. destruct (k <? n); reflexivity.
Qed.
Lemma mod_seq_window L a b n : 0 < L -> a * L + b * L <= n ->
  window (a * L) (b * L) (map (fun p => p mod L) (seq 0 n)) = map (fun p => p mod L) (seq 0 (b * L)).
Proof.
  intros HL H. rewrite <- map_window, window_seq by lia. cbn [plus]. rewrite map_seq_shift.
  apply map_ext. intros x. rewrite Nat.add_comm. now rewrite Nat.mod_add by lia.
Qed.
Lemma mod_seq_slice L outer N inner s n : 0 < L -> s + n <= N ->
  slice_flat outer N (inner * L) s n (map (fun p => p mod L) (seq 0 (outer * N * (inner * L))))
  = map (fun p => p mod L) (seq 0 (outer * n * (inner * L))).
Proof.
  intros HL Hs. unfold slice_flat.
  transitivity (concat (map (fun _ : nat => map (fun p => p mod L) (seq 0 (n * inner * L))) (seq 0 outer))).
  - f_equal. apply map_ext_in. intros o Ho. apply in_seq in Ho.
    rewrite (Nat.mul_assoc _ inner L), (Nat.mul_assoc n inner L). apply mod_seq_window; [assumption|].
    assert (o * N + s + n <= outer * N) by nia.
    replace ((o * N + s) * inner * L + n * inner * L) with ((o * N + s + n) * (inner * L)) by lia.
    apply Nat.mul_le_mono_r. assumption.
  - assert (E : forall os : list nat, concat (map (fun _ : nat => map (fun p => p mod L) (seq 0 (n * inner * L))) os)
       = map (fun p => p mod L) (seq 0 (length os * (n * inner * L)))).
    { induction os as [|o os IH]; [reflexivity|]. cbn [map concat length]. rewrite IH.
      replace (S (length os) * (n * inner * L)) with (n * inner * L + length os * (n * inner * L)) by lia.
      rewrite seq_app, map_app. f_equal. cbn [plus]. rewrite (map_seq_shift (fun p => p mod L) (n * inner * L)).
      apply map_ext. intros x. rewrite Nat.add_comm. now rewrite Nat.mod_add by lia. }
    rewrite E, seq_length. do 2 f_equal. lia.
Qed.

(* the loop as one map over (variable, weight) *)
Lemma normalize_map store nv var (w : list (option Q)) : 0 < nv ->
  normalize_loop store nv var (seq 0 nv) w
  = Ok (map (fun q => store (qdiv (snd q) (var (fst q)))) (combine (map (fun p => p mod nv) (seq 0 (length w))) w)).
Proof.
  intros Hv. destruct (@normalize_seq store nv var nv w ltac:(lia)) as (w' & E & El & En). rewrite E. f_equal.
  apply nth_error_ext. intros p. rewrite En, nth_error_map, nth_error_combine, nth_error_map_seq. cbn [plus].
  replace (p mod nv <? nv) with true by (symmetry; apply Nat.ltb_lt, Nat.mod_upper_bound; lia).
  destruct (Nat.ltb_spec p (length w)) as [H|H].
  - destruct (nth_error w p) eqn:Ew; reflexivity.
  - replace (nth_error w p) with (@None (option Q)) by (symmetry; apply nth_error_None; lia). reflexivity.
Qed.

Lemma prod_split (sh : list nat) ax : ax < length sh ->
  prod sh = prod (firstn ax sh) * nth ax sh 0 * prod (skipn (S ax) sh).
Proof.
  revert ax; induction sh as [|x sh IH]; intros ax H; [cbn in H; lia|]. destruct ax as [|ax].
  - unfold prod. cbn. lia.
  - cbn [length] in H. change (prod (x :: sh)) with (x * prod sh). rewrite (IH ax) by lia.
    cbn [firstn nth skipn]. change (prod (x :: firstn ax sh)) with (x * prod (firstn ax sh)). lia.
Qed.
Lemma last_axis_prod (sh : list nat) ax : S ax < length sh ->
  exists inner, prod (skipn (S ax) sh) = inner * last sh 0.
Proof.
  intros H. assert (Hn : skipn (S ax) sh <> []).
  { intros E. apply (f_equal (@length nat)) in E. rewrite skipn_length in E. cbn in E. lia. }
  destruct (exists_last Hn) as (l & x & E). exists (prod l). rewrite E, prod_app.
  rewrite <- (firstn_skipn (S ax) sh), E, app_assoc, last_last. unfold prod. cbn. lia.
Qed.

Lemma slice_axis_eq {A} (a : nd A) ax s n : slice_axis ax s n a =
  Nd (upd_nth ax n (shape a)) (slice_flat (prod (firstn ax (shape a))) (nth ax (shape a) 0) (prod (skipn (S ax) (shape a))) s n (flat a)).
Proof. reflexivity. Qed.

Lemma last_upd_nth ax n (sh : list nat) : S ax < length sh -> last (upd_nth ax n sh) 0 = last sh 0.
Proof.
  revert sh; induction ax as [|ax IH]; intros sh H.
  - destruct sh as [|x [|y sh]]; cbn in H; try lia. reflexivity.
  - destruct sh as [|x sh]; [cbn in H; lia|]. assert (H' : S ax < length sh) by (cbn in H; lia).
    specialize (IH sh H'). cbn [upd_nth]. destruct sh as [|y sh]; [cbn in H'; lia|].
    transitivity (last (upd_nth ax n (y :: sh)) 0).
    + destruct (upd_nth ax n (y :: sh)) eqn:E; [|reflexivity].
      apply (f_equal (@length nat)) in E. destruct ax; cbn in E; discriminate.
    + rewrite IH. reflexivity.
Qed.

Lemma combine_Forall2_map {A B} (f g : A * B -> option Q) l :
  (forall q, In q l -> oeq (f q) (g q)) -> Forall2 oeq (map f l) (map g l).
Proof. induction l as [|q l IH]; intros H; cbn; constructor; [apply H; now left|]. apply IH. intros; apply H; now right. Qed.

(* data: global array with last axis nv, cut along axis ax; w: weights with last axis nv, cut along axw *)
Lemma normalize_parallel_serial nv (data : nd Q) ax (w : nd (option Q)) axw size (t : rtree (list Q)) r :
  0 < nv -> wf data -> S ax < length (shape data) -> last (shape data) 0 = nv ->
  0 < prod (shape data) -> 0 < size <= nth ax (shape data) 0 ->
  Permutation (leaves t) (map (fun r => flat (slice_axis ax (bd_s (nth ax (shape data) 0) size r)
                                         (bd_n (nth ax (shape data) 0) size r) data)) (seq 0 size)) ->
  wf w -> S axw < length (shape w) -> last (shape w) 0 = nv -> r < size ->
  exists wr ws wr', distribute_dimension w axw (Some (size, r)) = Ok wr /\
    apply_normalization_serial store_float true nv (flat data) w = Ok ws /\
    apply_normalization_parallel store_float true nv t wr = Ok wr' /\
    exists piece, distribute_dimension ws axw (Some (size, r)) = Ok piece /\
      shape wr' = shape piece /\ Forall2 oeq (flat wr') (flat piece).
Proof.
  intros Hv Hwf Hax Hlast Hpos Hsz Hperm Hww Haxw Hlw Hr.
  set (N := nth ax (shape data) 0) in *.
  (* the variances *)
  assert (Hvar : forall i, i < nv -> oeq (pvar_v (tree_map (last_axis 0%Q nv i) t)) (nanvar (last_axis 0%Q nv i (flat data)))).
  { intros i Hi. destruct (last_axis_prod (shape data) Hax) as (inner & Ei). rewrite Hlast in Ei.
    set (outer := prod (firstn ax (shape data))).
    assert (Elen : length (flat data) = outer * N * (inner * nv)).
    { rewrite Hwf, (@prod_split _ ax) by lia. rewrite Ei. reflexivity. }
    assert (Hp2 : 0 < outer * N * (inner * nv)) by (rewrite <- Elen, Hwf; exact Hpos).
    assert (Houter : 0 < outer) by nia. assert (Hinner : 0 < inner) by nia.
    (* leaves non-empty *)
    assert (Hne : forall l, In l (leaves (tree_map (last_axis 0%Q nv i) t)) -> l <> []).
    { intros l Hl. rewrite leaves_tree_map in Hl. apply in_map_iff in Hl as (x & <- & Hx).
      eapply Permutation_in in Hx; [|exact Hperm]. apply in_map_iff in Hx as (r' & <- & Hr').
      apply in_seq in Hr'. apply last_axis_nonempty; [assumption|].
      rewrite slice_axis_eq. cbn [flat]. rewrite Ei. fold N outer.
      rewrite slice_flat_length; [|exact Elen|apply bd_fits; lia].
      assert (1 <= bd_n N size r').
      { rewrite bd_n_eq by lia. assert (1 <= N / size) by (apply Nat.div_le_lower_bound; lia). lia. }
      rewrite Nat.mul_assoc. rewrite <- (Nat.mul_1_l nv) at 1. apply Nat.mul_le_mono_r.
      generalize dependent (bd_n N size r'). intros b Hb. nia. }
    destruct (pvar_any_reduction (tree_map (last_axis 0%Q nv i) t) Hne) as (v & m & Epv & _ & _ & Ev).
    unfold pvar_v. rewrite Epv. cbn [fst].
    assert (Hg : last_axis 0%Q nv i (flat data) <> []) by (apply last_axis_nonempty; [assumption|rewrite Elen; rewrite Nat.mul_assoc; rewrite <- (Nat.mul_1_l nv) at 1; apply Nat.mul_le_mono_r; nia]).
    destruct (nanvar_ok Hg) as (v' & En & Hv'). rewrite En. cbn [oeq]. rewrite Ev, Hv'.
    apply variance_perm; [|rewrite leaves_tree_map].
    - rewrite leaves_tree_map. rewrite (Permutation_concat (Permutation_map (last_axis 0%Q nv i) Hperm)).
      rewrite map_map.
      transitivity (concat (map (fun p => slice_flat outer N inner (fst p) (snd p) (last_axis 0%Q nv i (flat data)))
                     (combine (displs 0 (map (bd_n N size) (seq 0 size))) (map (bd_n N size) (seq 0 size))))).
      + rewrite bd_displs, combine_map_same, map_map. cbn [fst snd].
        erewrite map_ext_in; [reflexivity|]. intros r' Hr'. apply in_seq in Hr'.
        rewrite slice_axis_eq. cbn [flat]. rewrite Ei. fold N outer.
        apply last_axis_slice; try assumption. apply bd_fits; lia.
      + apply slices_permutation; [|apply bd_sum_all; lia].
        rewrite last_axis_length, Elen. rewrite Nat.mul_assoc. now rewrite Nat.div_mul by lia.
    - intros E. assert (Hl0 : leaves t <> []).
      { intros E0. rewrite E0 in Hperm. apply Permutation_nil in Hperm. destruct size; [lia|discriminate]. }
      destruct (leaves t) as [|x xs] eqn:Et; [congruence|]. cbn [map concat] in E. apply app_eq_nil in E as [E _].
      apply (Hne (last_axis 0%Q nv i x)); [|exact E]. rewrite leaves_tree_map, Et. now left. }
  (* the weights *)
  set (M := nth axw (shape w) 0). set (n := bd_n M size r). set (s := bd_s M size r).
  assert (Ed : forall (w0 : nd (option Q)), shape w0 = shape w -> distribute_dimension w0 axw (Some (size, r)) = Ok (slice_axis axw s n w0)).
  { intros w0 Es. unfold distribute_dimension. rewrite Es. replace (axw <? length (shape w)) with true by (symmetry; apply Nat.ltb_lt; lia).
    unfold n, s, M, bd_n, bd_s. destruct (blockdist (nth axw (shape w) 0) size r); reflexivity. }
  destruct (last_axis_prod (shape w) Haxw) as (inner & Ei). rewrite Hlw in Ei.
  set (outer := prod (firstn axw (shape w))).
  assert (Elen : length (flat w) = outer * M * (inner * nv)).
  { rewrite Hww, (@prod_split _ axw) by lia. rewrite Ei. reflexivity. }
  assert (Hfit : s + n <= M) by (unfold s, n; apply bd_fits; lia).
  exists (slice_axis axw s n w). eexists. eexists. split; [now apply Ed|].
  unfold apply_normalization_serial, apply_normalization_parallel, last_dim. rewrite Hlw.
  rewrite normalize_map by assumption. cbn [bind]. split; [reflexivity|].
  replace (last (shape (slice_axis axw s n w)) 0) with nv by (cbn [shape slice_axis]; rewrite last_upd_nth by lia; now symmetry).
  rewrite normalize_map by assumption. cbn [bind]. split; [reflexivity|].
  eexists. split; [now apply Ed|]. split; [reflexivity|]. rewrite !slice_axis_eq. cbn [flat shape].
  rewrite Ei. fold M outer. rewrite <- slice_flat_map, <- slice_flat_combine; [|rewrite map_length, seq_length; assumption|assumption|assumption].
  rewrite slice_flat_length; [|exact Elen|exact Hfit].
  rewrite Elen. rewrite mod_seq_slice by assumption.
  apply combine_Forall2_map. intros [i x] Hin. cbn [fst snd]. unfold store_float. apply qdiv_oeq, Hvar.
  apply in_combine_l in Hin. apply in_map_iff in Hin as (p & <- & _). apply Nat.mod_upper_bound. lia.
Qed.

(* ---- C27: fits in a row ---- *)
Lemma fits_spec n nv data sh (w : list Q) k : 0 < nv -> 0 < k -> length data = k * nv ->
  last sh 0 = nv -> (forall i, i < nv -> ~ (variance (variable_values nv i data) == 0)%Q) ->
  exists w', fits_weights n store_float nv data (Nd sh (map Some w)) = Ok (Nd sh (map Some w')) /\
    length w' = length w /\
    forall p, p < length w -> (nth p w' 0 * variance (variable_values nv (p mod nv) data) ^ Z.of_nat n == nth p w 0)%Q.
Proof.
  intros Hv Hk Hl Hs Hvar. induction n as [|n IH].
  - exists w. split; [reflexivity|]. split; [reflexivity|]. intros p _. cbn. ring.
  - destruct IH as (w1 & E1 & L1 & P1).
    destruct (@normalize_serial_spec nv data sh w1 k Hv Hk Hl Hs Hvar) as (w2 & E2 & L2 & P2).
    exists w2. split; [cbn [fits_weights]; rewrite E1; exact E2|]. split; [congruence|].
    intros p Hp. rewrite <- P1, <- P2 by lia. rewrite Nat2Z.inj_succ. unfold Z.succ.
    assert (Hm : p mod nv < nv) by (apply Nat.mod_upper_bound; lia).
    rewrite Qpower_plus by (apply Hvar; assumption). change (variance (variable_values nv (p mod nv) data) ^ 1)%Q with (variance (variable_values nv (p mod nv) data)). ring.
Qed.

(* ---- C26 ---- *)
Lemma slice0_flat {A} n0 (l : list A) s n : length l = n0 -> s + n <= n0 ->
  flat (slice_axis 0 s n (Nd [n0] l)) = window s n l.
Proof.
  intros Hl Hs. cbn [slice_axis flat shape]. unfold slice_flat. cbn [firstn skipn nth prod fold_right seq map concat].
  rewrite app_nil_r. f_equal; lia.
Qed.
(* equal counts on every rank force equal displacements *)
Lemma counts_displs a b size c : (forall r, r < size -> bd_n a size r = bd_n b size r * c) ->
  forall r, r < size -> bd_s a size r = bd_s b size r * c.
Proof.
  intros H r Hr. rewrite !bd_start_prefix by assumption.
  assert (E : forall m, m <= size -> sum (map (bd_n a size) (seq 0 m)) = sum (map (bd_n b size) (seq 0 m)) * c).
  { induction m as [|m IH]; intros Hm; [reflexivity|]. rewrite !seq_S, !map_app, !sum_app, IH by lia.
    cbn [map plus sum fold_right]. rewrite H by lia. lia. }
  apply E. lia.
Qed.
Lemma flat_weights_paired {A} (w : list A) N inner size : 0 < size -> length w = N * inner ->
  (forall r, r < size -> exists l, local_weights (Nd [N * inner] w) 0 (Some (size, r)) (bd_n N size r * inner) = Ok l) ->
  forall r, r < size -> local_weights (Nd [N * inner] w) 0 (Some (size, r)) (bd_n N size r * inner)
   = Ok (window (bd_s N size r * inner) (bd_n N size r * inner) w).
Proof.
  intros Hs Hl Hall.
  assert (Ed : forall r, r < size -> local_weights (Nd [N * inner] w) 0 (Some (size, r)) (bd_n N size r * inner)
     = if bd_n (N * inner) size r =? bd_n N size r * inner
       then Ok (window (bd_s (N * inner) size r) (bd_n (N * inner) size r) w) else Err ValueError).
  { intros r Hr. unfold local_weights, distribute_dimension. cbn [length shape nth Nat.ltb Nat.leb].
    pose proof (@bd_fits (N * inner) size r Hr) as Hf. unfold bd_n, bd_s in *.
    destruct (blockdist (N * inner) size r) as [n s]. cbn [fst snd] in *. cbn [bind].
    rewrite slice0_flat by assumption. rewrite window_length_le by lia. reflexivity. }
  assert (Hn : forall r, r < size -> bd_n (N * inner) size r = bd_n N size r * inner).
  { intros r Hr. destruct (Hall r Hr) as [l E]. rewrite Ed in E by assumption.
    destruct (Nat.eqb_spec (bd_n (N * inner) size r) (bd_n N size r * inner)); [assumption|discriminate]. }
  intros r Hr. rewrite Ed, Hn, Nat.eqb_refl by assumption.
  now rewrite (@counts_displs (N * inner) N size inner Hn r Hr).
Qed.

(* ---- C28 ---- *)
Definition fits_of (h : list modes_op) : list nat := flat_map (fun o => match o with Fit nb => [nb] | NewObject => [] end) h.
Lemma modes_run_min requested h :
  modes_run requested h = ModesState (fold_right Nat.min requested (fits_of h)) (fold_right Nat.min requested (fits_of h)).
Proof.
  unfold modes_run. induction h as [|o h IH] using rev_ind; [reflexivity|].
  rewrite fold_left_app, IH. cbn [fold_left]. unfold fits_of. rewrite flat_map_app, fold_right_app.
  fold (fits_of h). destruct o as [nb|]; cbn [modes_step ms_attr ms_params flat_map app fold_right]; [|reflexivity].
  assert (E : forall l a b, fold_right Nat.min (Nat.min a b) l = Nat.min a (fold_right Nat.min b l)).
  { induction l as [|x l IHl]; intros a b; cbn [fold_right]; [reflexivity|]. rewrite IHl. lia. }
  rewrite E. destruct (Nat.ltb_spec nb (fold_right Nat.min requested (fits_of h))); f_equal; lia.
Qed.
