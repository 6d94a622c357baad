(* Proofs about round-based exchanges (Model_Mpi). *)
From Coq Require Import Sorting.Permutation.
From Verif Require Import Base_List Model_Mpi.
Set Implicit Arguments.
Local Open Scope nat_scope.

Lemma NoDup_flat_map {A B} (f : A -> list B) l : NoDup l -> (forall a, In a l -> NoDup (f a)) ->
  (forall a b x, In a l -> In b l -> In x (f a) -> In x (f b) -> a = b) -> NoDup (flat_map f l).
Proof.
  induction l as [|a l IH]; intros Hl Hf Hd; cbn; [constructor|]. inversion Hl; subst.
  assert (Happ : forall (u v : list B), NoDup u -> NoDup v -> (forall x, In x u -> In x v -> False) -> NoDup (u ++ v)).
  { induction u as [|y u IHu]; cbn; intros v Hu Hv Hx; [exact Hv|]. inversion Hu; subst. constructor.
    - intros Hin. apply in_app_or in Hin as [Hin|Hin]; [contradiction|]. apply (Hx y); auto.
    - apply IHu; auto. intros x Hx1 Hx2. apply (Hx x); auto. }
  apply Happ.
  - apply Hf. now left.
  - apply IH; auto. { intros b Hb. apply Hf. now right. } intros b c x Hb Hc. apply Hd; now right.
  - intros x Hx1 Hx2. apply in_flat_map in Hx2 as [b [Hb Hx2]]. assert (a = b) by (eapply Hd; eauto; [now left|now right]). now subst b.
Qed.
Lemma sum_bump {X} (f g : X -> nat) (l : list X) x : NoDup l -> In x l -> g x = S (f x) -> (forall y, y <> x -> g y = f y) ->
  list_sum (map g l) = S (list_sum (map f l)).
Proof.
  intros Hn Hin Hx Ho. induction l as [|y l IH]; [destruct Hin|]. inversion Hn as [|? ? Hy Hl]; subst. cbn [map list_sum fold_right].
  change (fold_right Nat.add 0 (map ?h l)) with (list_sum (map h l)). destruct Hin as [->|Hin].
  - rewrite Hx. rewrite (map_ext_in g f); [lia|]. intros z Hz. apply Ho. intros ->. contradiction.
  - rewrite Ho by (intros ->; contradiction). rewrite IH by assumption. lia.
Qed.
Lemma list_sum_le {X} (f g : X -> nat) l : (forall x, In x l -> f x <= g x) -> list_sum (map f l) <= list_sum (map g l).
Proof. induction l as [|x l IH]; intros H; cbn; [lia|]. pose proof (H x (or_introl eq_refl)). specialize (IH (fun y Hy => H y (or_intror Hy))). unfold list_sum in IH. lia. Qed.
Lemma list_sum_const {X} c (l : list X) : list_sum (map (fun _ => c) l) = c * length l.
Proof. induction l as [|x l IH]; cbn; [lia|]. unfold list_sum in IH. rewrite IH. lia. Qed.
Lemma length_flat_map {X Y} (f : X -> list Y) l : length (flat_map f l) = list_sum (map (fun x => length (f x)) l).
Proof. induction l as [|x l IH]; cbn; [reflexivity|]. now rewrite app_length, IH. Qed.
Lemma dec_bounded n (P : nat -> Prop) : (forall k, k < n -> P k \/ ~ P k) -> (forall k, k < n -> P k) \/ exists k, k < n /\ ~ P k.
Proof.
  induction n as [|n IH]; intros H; [left; lia|]. destruct IH as [IH|[k [Hk Hn]]]; [intros k Hk; apply H; lia| |right; exists k; split; [lia|exact Hn]].
  destruct (H n ltac:(lia)) as [Hn|Hn]; [|right; exists n; split; [lia|exact Hn]].
  left. intros k Hk. destruct (Nat.eq_dec k n) as [->|]; [exact Hn|apply IH; lia].
Qed.
Lemma in_combine_seq {X} (l : list X) : forall n i x, In (i, x) (combine (seq n (length l)) l) <-> n <= i /\ nth_error l (i - n) = Some x.
Proof.
  induction l as [|y l IH]; intros n i x; cbn [length seq combine In].
  - split; [tauto|]. intros [_ H]. now destruct (i - n).
  - rewrite IH. split.
    + intros [E|[H1 H2]]; [injection E as -> ->; rewrite Nat.sub_diag; split; [lia|reflexivity]|].
      split; [lia|]. replace (i - n) with (S (i - S n)) by lia. exact H2.
    + intros [H1 H2]. destruct (Nat.eq_dec i n) as [->|Hn]; [rewrite Nat.sub_diag in H2; cbn in H2; left; congruence|].
      right. split; [lia|]. replace (i - n) with (S (i - S n)) in H2 by lia. exact H2.
Qed.
Lemma NoDup_map_inv' {A B} (f : A -> B) l : NoDup (map f l) -> NoDup l.
Proof. induction l; cbn; intros H; constructor; inversion H; subst; auto. intro Hin. apply H2. now apply in_map. Qed.
Section Engine.
Variable M : Type.
Notation post := (post M).
Lemma sends_app d (l l' : list post) : sends_to d (l ++ l') = sends_to d l ++ sends_to d l'.
Proof. unfold sends_to. now rewrite flat_map_app. Qed.
Lemma recvs_app s (l l' : list post) : recvs_from s (l ++ l') = recvs_from s l + recvs_from s l'.
Proof. unfold recvs_from. now rewrite filter_app, app_length. Qed.

Variables (size R : nat) (prog : nat -> nat -> list post).
Hypothesis Hdst : forall r a d x, r < size -> a < R -> In (Send d x) (prog r a) -> d < size.
Hypothesis Hsrc : forall r a s, r < size -> a < R -> In (Recv s) (prog r a) -> s < size.
Hypothesis Hbal : forall s d a, s < size -> d < size -> a < R -> length (sends_to d (prog s a)) = recvs_from s (prog d a).
Notation before := (before prog).
Notation posted := (posted prog).
Notation step := (step size R prog).
Notation steps := (steps size R prog).
Notation state := (state M).

Lemma before_S r a : before r (S a) = before r a ++ prog r a.
Proof. unfold Model_Mpi.before. rewrite seq_S, map_app, concat_app. cbn. now rewrite app_nil_r. Qed.
Lemma before_le r a b : a <= b -> exists l, before r b = before r a ++ l.
Proof.
  induction 1 as [|b Hb [l IH]]; [exists []; now rewrite app_nil_r|]. exists (l ++ prog r b). now rewrite before_S, IH, app_assoc.
Qed.
Definition cs (s d a : nat) : nat := length (sends_to d (before s a)).
Lemma cs_recv s d a : s < size -> d < size -> a <= R -> cs s d a = recvs_from s (before d a).
Proof.
  intros Hs Hd. induction a as [|a IH]; intros Ha; [reflexivity|]. unfold cs in *. rewrite !before_S, sends_app, recvs_app, app_length, IH, Hbal by lia. lia.
Qed.
Lemma cs_S s d a : cs s d (S a) = cs s d a + length (sends_to d (prog s a)).
Proof. unfold cs. now rewrite before_S, sends_app, app_length. Qed.
Lemma cs_mono s d a b : a <= b -> cs s d a <= cs s d b.
Proof. intros H. destruct (before_le s H) as [l E]. unfold cs. rewrite E, sends_app, app_length. lia. Qed.

Definition valid (r : nat) (p : nat * nat) : Prop := (fst p < R /\ snd p <= S (length (prog r (fst p)))) \/ p = (R, 0).
Lemma valid_round r p : valid r p -> fst p <= R.
Proof. intros [[H _]|E]; [lia|now rewrite E]. Qed.
Lemma posted_prefix (st : state) r : valid r (pos st r) -> exists l, before r R = posted st r ++ l.
Proof.
  unfold Model_Mpi.posted. intros [[H _]|E].
  - destruct (@before_le r (S (fst (pos st r))) R ltac:(lia)) as [l Hl].
    exists (skipn (snd (pos st r)) (prog r (fst (pos st r))) ++ l). rewrite Hl, before_S. rewrite <- !app_assoc. f_equal. now rewrite app_assoc, firstn_skipn.
  - exists []. rewrite E. cbn. now rewrite !app_nil_r.
Qed.
(* a process that has posted everything of its round *)
Lemma posted_all (st : state) r a j : pos st r = (a, j) -> length (prog r a) <= j -> posted st r = before r (S a).
Proof. intros E H. unfold Model_Mpi.posted. rewrite E, before_S. cbn. now rewrite firstn_all2. Qed.
Lemma posted_at_least (st : state) r a : a <= fst (pos st r) -> exists l, posted st r = before r a ++ l.
Proof.
  intros H. destruct (before_le r H) as [l E]. unfold Model_Mpi.posted. rewrite E. eexists. now rewrite <- app_assoc.
Qed.
Lemma sends_prefix (l l' full : list post) d k x : full = l ++ l' -> nth_error (sends_to d l) k = Some x -> nth_error (sends_to d full) k = Some x.
Proof. intros -> H. rewrite sends_app, nth_error_app1; [exact H|]. apply nth_error_Some. congruence. Qed.

(* what should arrive at r in round a: from every process the messages it sends to r in that round *)
Definition due (r a : nat) : list (nat * M) := flat_map (fun s => map (fun x => (s, x)) (sends_to r (prog s a))) (seq 0 size).

Record inv (st : state) : Prop := Inv {
  inv_pos : forall r, r < size -> valid r (pos st r);
  inv_dl : forall s d k, dl st s d k = true -> s < size /\ d < size /\ k < length (sends_to d (posted st s)) /\ k < recvs_from s (posted st d);
  inv_old : forall s r k, s < size -> r < size -> k < cs s r (fst (pos st r)) -> dl st s r k = true;
  inv_log : forall r, r < size -> NoDup (map fst (log st r)) /\
     forall s k x, In (s, k, x) (log st r) <-> dl st s r k = true /\ cs s r (fst (pos st r)) <= k /\ nth_error (sends_to r (before s R)) k = Some x;
  inv_out : forall r, r < size -> length (out st r) = fst (pos st r) /\
     forall a, a < fst (pos st r) -> Permutation (nth a (out st r) []) (due r a) }.

Lemma inv_start : inv (start M).
Proof.
  split; cbn.
  - intros r Hr. unfold valid. cbn. destruct R eqn:E; [right; congruence|left; lia].
  - discriminate.
  - intros s r k _ _ H. unfold cs, Model_Mpi.before in H. cbn in H. lia.
  - intros r Hr. split; [constructor|]. intros s k x. split; [intros []|intros [H _]; discriminate].
  - intros r Hr. split; [reflexivity|]. lia.
Qed.

Lemma upd_same {X} (f : nat -> X) r x : upd f r x r = x. Proof. unfold upd. now rewrite Nat.eqb_refl. Qed.
Lemma upd_other {X} (f : nat -> X) r x i : i <> r -> upd f r x i = f i. Proof. unfold upd. intros H. now apply Nat.eqb_neq in H as ->. Qed.
Lemma upd3_true f s d k s' d' k' : upd3 f s d k s' d' k' = true <-> (s' = s /\ d' = d /\ k' = k) \/ f s' d' k' = true.
Proof.
  unfold upd3. destruct ((s' =? s) && (d' =? d) && (k' =? k)) eqn:E.
  - apply andb_true_iff in E as [E E3]. apply andb_true_iff in E as [E1 E2]. apply Nat.eqb_eq in E1, E2, E3. tauto.
  - split; [tauto|]. intros [[-> [-> ->]]|H]; [|exact H]. now rewrite !Nat.eqb_refl in E.
Qed.

(* posting or waiting for sends: the round stays, what is posted grows *)
Lemma inv_advance st r a j j' : inv st -> r < size -> pos st r = (a, j) -> a < R -> j <= j' <= S (length (prog r a)) ->
  inv (State (upd (pos st) r (a, j')) (dl st) (bf st) (log st) (out st)).
Proof.
  intros [H1 H2 H3 H4 H5] Hr E Ha Hj.
  assert (Efst : forall i, fst (upd (pos st) r (a, j') i) = fst (pos st i)).
  { intros i. destruct (Nat.eq_dec i r) as [->|Hn]; [rewrite upd_same, E|rewrite upd_other by exact Hn]; reflexivity. }
  assert (Ep : forall i, exists l, posted (State (upd (pos st) r (a, j')) (dl st) (bf st) (log st) (out st)) i = posted st i ++ l).
  { intros i. unfold Model_Mpi.posted. cbn [pos]. destruct (Nat.eq_dec i r) as [->|Hn].
    - rewrite upd_same, E. cbn [fst snd]. exists (skipn j (firstn j' (prog r a))).
      rewrite <- app_assoc. f_equal. rewrite <- (firstn_skipn j (firstn j' (prog r a))) at 1. f_equal. rewrite firstn_firstn. f_equal. lia.
    - rewrite upd_other by exact Hn. exists []. now rewrite app_nil_r. }
  split; cbn [pos dl bf log out].
  - intros i Hi. destruct (Nat.eq_dec i r) as [->|Hn]; [|rewrite upd_other by exact Hn; now apply H1].
    rewrite upd_same. left. cbn. lia.
  - intros s d k Hd. destruct (H2 s d k Hd) as (Hs & Hdd & Hk1 & Hk2). repeat split; try assumption.
    + destruct (Ep s) as [l ->]. rewrite sends_app, app_length. lia.
    + destruct (Ep d) as [l ->]. rewrite recvs_app. lia.
  - intros s i k Hs Hi. rewrite Efst. now apply H3.
  - intros i Hi. rewrite Efst. now apply H4.
  - intros i Hi. rewrite Efst. now apply H5.
Qed.

Lemma round_messages s r a : s < size -> r < size -> a < R ->
  forall k x, nth_error (sends_to r (before s R)) k = Some x -> cs s r a <= k < cs s r (S a) ->
  nth_error (sends_to r (prog s a)) (k - cs s r a) = Some x.
Proof.
  intros Hs Hr Ha k x Hx Hk. destruct (@before_le s (S a) R ltac:(lia)) as [l E]. rewrite E, before_S, !sends_app in Hx.
  rewrite cs_S in Hk. rewrite nth_error_app1 in Hx by (rewrite app_length; unfold cs in Hk; lia).
  rewrite nth_error_app2 in Hx by (unfold cs in Hk; lia). exact Hx.
Qed.

(* numbered messages of a round *)
Definition numbered (r a : nat) : list (nat * nat * M) :=
  flat_map (fun s => map (fun kx => (s, cs s r a + fst kx, snd kx)) (combine (seq 0 (length (sends_to r (prog s a)))) (sends_to r (prog s a)))) (seq 0 size).
Lemma numbered_due r a : map (fun m => (fst (fst m), snd m)) (numbered r a) = due r a.
Proof.
  unfold numbered, due. rewrite !flat_map_concat_map, concat_map, map_map. f_equal. apply map_ext. intros s.
  rewrite map_map. cbn. generalize (sends_to r (prog s a)) as l. intros l. generalize 0. induction l as [|x l IH]; intros n; cbn; [reflexivity|]. f_equal. apply IH.
Qed.
Lemma in_numbered r a s k x : In (s, k, x) (numbered r a) <-> s < size /\ cs s r a <= k /\ nth_error (sends_to r (prog s a)) (k - cs s r a) = Some x.
Proof.
  unfold numbered. rewrite in_flat_map. split.
  - intros [s' [Hs H]]. apply in_map_iff in H as [[i y] [E H]]. cbn in E. injection E as -> <- ->. apply in_combine_seq in H as [_ H].
    apply in_seq in Hs. rewrite Nat.sub_0_r in H. replace (cs s r a + i - cs s r a) with i by lia. split; [lia|]. split; [lia|exact H].
  - intros [Hs [Hk H]]. exists s. split; [apply in_seq; lia|]. apply in_map_iff. exists (k - cs s r a, x). cbn. split; [repeat f_equal; lia|].
    apply in_combine_seq. rewrite Nat.sub_0_r. split; [lia|exact H].
Qed.
Lemma numbered_NoDup r a : NoDup (numbered r a).
Proof.
  apply NoDup_flat_map; [apply seq_NoDup| |].
  - intros s _. apply (@NoDup_map_inv' _ _ (fun m => snd (fst m) - cs s r a)). rewrite map_map. cbn.
    rewrite (map_ext _ fst) by (intros [i x]; cbn; lia).
    generalize (sends_to r (prog s a)). intros l. assert (E : forall n, map fst (combine (seq n (length l)) l) = seq n (length l)).
    { induction l as [|x l IH]; intros n; cbn; [reflexivity|]. now rewrite IH. }
    rewrite E. apply seq_NoDup.
  - intros s s' m _ _ H1 H2. apply in_map_iff in H1 as [i [<- _]]. apply in_map_iff in H2 as [j [E _]]. now injection E.
Qed.

Lemma inv_round_end st r a : inv st -> r < size -> pos st r = (a, S (length (prog r a))) -> a < R ->
  (forall s k, k < recvs_from s (posted st r) -> dl st s r k = true) ->
  inv (State (upd (pos st) r (S a, 0)) (dl st) (bf st) (upd (log st) r [])
             (upd (out st) r (out st r ++ [map (fun m => (fst (fst m), snd m)) (log st r)]))).
Proof.
  intros [H1 H2 H3 H4 H5] Hr E Ha Hall.
  assert (Epr : posted st r = before r (S a)) by (apply posted_all with (j := S (length (prog r a))); auto).
  assert (Ep : forall i, posted (State (upd (pos st) r (S a, 0)) (dl st) (bf st) (upd (log st) r [])
             (upd (out st) r (out st r ++ [map (fun m => (fst (fst m), snd m)) (log st r)]))) i = posted st i).
  { intros i. destruct (Nat.eq_dec i r) as [->|Hn].
    - rewrite Epr. unfold Model_Mpi.posted. cbn [pos]. rewrite upd_same. cbn. now rewrite app_nil_r.
    - unfold Model_Mpi.posted. cbn [pos]. now rewrite upd_other. }
  split; cbn [pos dl bf log out].
  - intros i Hi. destruct (Nat.eq_dec i r) as [->|Hn]; [|rewrite upd_other by exact Hn; now apply H1].
    rewrite upd_same. destruct (Nat.eq_dec (S a) R) as [Eq|Hne]; [right; now rewrite Eq|left; cbn; lia].
  - intros s d k Hd. rewrite !Ep. now apply H2.
  - intros s i k Hs Hi. destruct (Nat.eq_dec i r) as [->|Hn]; [|rewrite upd_other by exact Hn; now apply H3].
    rewrite upd_same. cbn [fst]. intros Hk. apply Hall. rewrite Epr, <- cs_recv by lia. exact Hk.
  - intros i Hi. destruct (Nat.eq_dec i r) as [->|Hn]; [|rewrite !upd_other by exact Hn; now apply H4].
    rewrite !upd_same. split; [constructor|]. intros s k x. split; [intros []|]. intros [Hd [Hk _]]. cbn [fst] in Hk.
    destruct (H2 s r k Hd) as (Hs & _ & _ & Hk2). rewrite Epr, <- cs_recv in Hk2 by lia. lia.
  - intros i Hi. destruct (Nat.eq_dec i r) as [->|Hn]; [|rewrite !upd_other by exact Hn; now apply H5].
    rewrite !upd_same. cbn [fst]. destruct (H5 r Hr) as [L5 P5]. rewrite E in L5, P5. cbn [fst] in L5, P5.
    split; [rewrite app_length, L5; cbn; lia|]. intros b Hb.
    destruct (Nat.eq_dec b a) as [->|Hne].
    + rewrite app_nth2, L5, Nat.sub_diag by lia. cbn [nth]. rewrite <- numbered_due. apply Permutation_map.
      destruct (H4 r Hr) as [Nd Hlog]. rewrite E in Hlog. cbn [fst] in Hlog. apply NoDup_Permutation.
      * now apply NoDup_map_inv' in Nd.
      * apply numbered_NoDup.
      * intros [[s k] x]. rewrite Hlog, in_numbered. split.
        -- intros [Hd [Hk Hx]]. destruct (H2 s r k Hd) as (Hs & _ & _ & Hk2). rewrite Epr, <- cs_recv in Hk2 by lia.
           repeat split; try assumption. apply round_messages; auto.
        -- intros [Hs [Hk Hx]]. assert (Hk2 : k < cs s r (S a)) by (rewrite cs_S; apply nth_error_Some_lt in Hx || (assert (k - cs s r a < length (sends_to r (prog s a))) by (apply nth_error_Some; congruence); lia)).
           split; [apply Hall; rewrite Epr, <- cs_recv by lia; exact Hk2|]. split; [exact Hk|].
           destruct (@before_le s (S a) R ltac:(lia)) as [l El]. rewrite El, before_S, !sends_app.
           rewrite cs_S in Hk2. rewrite nth_error_app1 by (rewrite app_length; unfold cs in Hk2; lia).
           rewrite nth_error_app2 by (unfold cs in Hk; lia). exact Hx.
    + rewrite app_nth1 by lia. apply P5. lia.
Qed.

Lemma inv_arrive st s d k x : inv st -> s < size -> d < size -> nth_error (sends_to d (posted st s)) k = Some x -> k < recvs_from s (posted st d) ->
  dl st s d k = false -> inv (State (pos st) (upd3 (dl st) s d k) (bf st) (upd (log st) d (log st d ++ [(s, k, x)])) (out st)).
Proof.
  intros [H1 H2 H3 H4 H5] Hs Hd Hx Hk Hf.
  assert (Hks : k < length (sends_to d (posted st s))) by (apply nth_error_Some; congruence).
  split; cbn [pos dl bf log out].
  - exact H1.
  - intros s' d' k' H. apply upd3_true in H as [[-> [-> ->]]|H]; [tauto|now apply H2].
  - intros s' r k' Hs' Hr Hk'. apply upd3_true. right. now apply H3.
  - intros r Hr. destruct (Nat.eq_dec r d) as [->|Hn].
    + rewrite upd_same. destruct (H4 d Hd) as [Nd Hlog]. split.
      * rewrite map_app. cbn. apply Permutation_NoDup with (l := (s, k) :: map fst (log st d)); [apply Permutation_cons_append|].
        constructor; [|exact Nd]. intros Hin. apply in_map_iff in Hin as [[[s' k'] x'] [E Hin]]. cbn in E. injection E as -> ->.
        apply Hlog in Hin as [Hin _]. congruence.
      * intros s' k' x'. rewrite in_app_iff, Hlog, upd3_true. cbn [In]. split.
        -- intros [[A [B C]]|[E|[]]]; [tauto|]. injection E as <- <- <-. split; [tauto|]. split.
           ++ destruct (Nat.lt_ge_cases k (cs s d (fst (pos st d)))) as [Hlt|]; [|lia]. rewrite (H3 s d k Hs Hd Hlt) in Hf. discriminate.
           ++ destruct (@posted_prefix st s (H1 s Hs)) as [l El]. eapply sends_prefix; eauto.
        -- intros [[[-> [_ ->]]|A] [B C]]; [|tauto]. right. left. f_equal.
           destruct (@posted_prefix st s (H1 s Hs)) as [l El]. assert (HH : nth_error (sends_to d (before s R)) k = Some x) by (eapply sends_prefix; eauto).
           congruence.
    + rewrite upd_other by exact Hn. destruct (H4 r Hr) as [Nd Hlog]. split; [exact Nd|]. intros s' k' x'. rewrite Hlog, upd3_true. intuition congruence.
  - exact H5.
Qed.

Lemma inv_step st l st' : inv st -> step st l st' -> inv st'.
Proof.
  intros Hi Hs. destruct Hs.
  - eapply inv_advance; eauto; lia.
  - eapply inv_advance; eauto.
  - now apply inv_round_end.
  - now apply inv_arrive.
  - destruct Hi as [H6 H7 H8 H9 H10]. split; assumption.
Qed.
Lemma inv_steps n st : steps n st -> inv st.
Proof. induction 1; [apply inv_start|eapply inv_step; eauto]. Qed.

(* ---- progress ---- *)
Lemma min_round (st : state) : (0 < size) -> exists p, p < size /\ forall q, q < size -> fst (pos st p) <= fst (pos st q).
Proof.
  intros H. revert H. generalize size as n. induction n as [|n IH]; [lia|]. intros _. destruct (Nat.eq_dec n 0) as [->|Hn]; [exists 0; split; [lia|]; intros q Hq; replace q with 0 by lia; lia|].
  destruct (IH ltac:(lia)) as [p [Hp Hmin]]. destruct (Nat.le_gt_cases (fst (pos st p)) (fst (pos st n))) as [Hle|Hgt].
  - exists p. split; [lia|]. intros q Hq. destruct (Nat.eq_dec q n) as [->|]; [exact Hle|apply Hmin; lia].
  - exists n. split; [lia|]. intros q Hq. destruct (Nat.eq_dec q n) as [->|]; [lia|]. specialize (Hmin q ltac:(lia)). lia.
Qed.
Lemma sends_scoped r a d : r < size -> a <= R -> size <= d -> sends_to d (before r a) = [].
Proof.
  intros Hr. induction a as [|a IH]; intros Ha Hd; [reflexivity|]. rewrite before_S, sends_app, IH by lia. cbn.
  assert (HH : forall p, In p (prog r a) -> In p (prog r a)) by auto. revert HH. generalize (prog r a) at 1 3. induction l as [|p l IHl]; intros HH; [reflexivity|].
  cbn. change (flat_map _ l) with (sends_to d l). rewrite IHl by (intros q Hq; apply HH; now right). destruct p as [d' x|]; [|reflexivity].
  specialize (@Hdst r a d' x Hr (Nat.lt_le_trans _ _ _ (Nat.lt_succ_diag_r a) Ha) (HH _ (or_introl eq_refl))). destruct (Nat.eqb_spec d' d); [lia|reflexivity].
Qed.
Lemma recvs_scoped r a s : r < size -> a <= R -> size <= s -> recvs_from s (before r a) = 0.
Proof.
  intros Hr. induction a as [|a IH]; intros Ha Hd; [reflexivity|]. rewrite before_S, recvs_app, IH by lia. cbn.
  assert (HH : forall p, In p (prog r a) -> In p (prog r a)) by auto. revert HH. generalize (prog r a) at 1 3. unfold recvs_from. induction l as [|p l IHl]; intros HH; [reflexivity|].
  cbn. destruct p as [d' x|s']; [apply IHl; intros q Hq; apply HH; now right|].
  specialize (@Hsrc r a s' Hr (Nat.lt_le_trans _ _ _ (Nat.lt_succ_diag_r a) Ha) (HH _ (or_introl eq_refl))). destruct (Nat.eqb_spec s' s); [lia|].
  apply IHl; intros q Hq; apply HH; now right.
Qed.
(* some process can go on or some message can arrive, without any buffering *)
Definition unbuffered (l : label) : Prop := match l with Buffer _ _ _ => False | _ => True end.
(* a process whose round is at least a, and which has no request left to post if it is in round a, has posted the requests of round a *)
Lemma posts_or (st : state) q a : q < size -> a < R -> inv st -> a <= fst (pos st q) ->
  (exists st', step st (Do q) st') \/ exists l, posted st q = before q (S a) ++ l.
Proof.
  intros Hq Ha Hi Hle. destruct (pos st q) as [b j] eqn:E. cbn [fst] in Hle. destruct (Nat.eq_dec a b) as [<-|Hne].
  - destruct (Nat.lt_ge_cases j (length (prog q a))) as [Hj|Hj].
    + left. eexists. eapply SPost; eauto.
    + right. exists []. rewrite app_nil_r. eapply posted_all; eauto.
  - right. apply posted_at_least. rewrite E. cbn. lia.
Qed.
Lemma progress st : inv st -> ~ finished size R st -> exists l st', step st l st' /\ unbuffered l.
Proof.
  intros Hi Hnf.
  assert (Hsz : 0 < size). { destruct (Nat.eq_dec size 0) as [E|]; [|lia]. exfalso. apply Hnf. intros r Hr. lia. }
  destruct (min_round st Hsz) as [p [Hp Hmin]].
  destruct (pos st p) as [a j] eqn:E. cbn [fst] in Hmin.
  destruct (Nat.lt_ge_cases a R) as [Ha|Ha].
  2:{ exfalso. apply Hnf. intros r Hr. specialize (Hmin r Hr). pose proof (@inv_pos st Hi r Hr) as [[V _]|V]; [lia|exact V]. }
  pose proof (@inv_pos st Hi p Hp) as [[_ Vj]|V]; [|rewrite E in V; injection V as -> ->; lia]. rewrite E in Vj. cbn [fst snd] in Vj.
  destruct (Nat.lt_ge_cases j (length (prog p a))) as [Hj|Hj].
  { exists (Do p). eexists. split; [eapply SPost; eauto|exact I]. }
  assert (Epp : posted st p = before p (S a)) by (eapply posted_all; eauto).
  destruct (Nat.eq_dec j (length (prog p a))) as [->|Hj2].
  - (* waiting for sends *)
    assert (Hdec : (forall d, d < size -> forall k, k < cs p d (S a) -> dl st p d k = true \/ bf st p d k = true)
                   \/ exists d, d < size /\ exists k, k < cs p d (S a) /\ ~ (dl st p d k = true \/ bf st p d k = true)).
    { assert (D : forall d, d < size -> (forall k, k < cs p d (S a) -> dl st p d k = true \/ bf st p d k = true) \/ exists k, k < cs p d (S a) /\ ~ (dl st p d k = true \/ bf st p d k = true)).
      { intros d _. apply dec_bounded. intros k _. destruct (dl st p d k), (bf st p d k); intuition discriminate. }
      destruct (@dec_bounded size (fun d => forall k, k < cs p d (S a) -> dl st p d k = true \/ bf st p d k = true)) as [A|[d [Hd Hn]]].
      - intros d Hd. destruct (D d Hd) as [A|[k [Hk Hn]]]; [now left|]. right. intros A. apply Hn. now apply A.
      - now left.
      - right. exists d. split; [exact Hd|]. destruct (D d Hd) as [A|A]; [contradiction|exact A]. }
    destruct Hdec as [Hall|[d [Hd [k [Hk Hn]]]]].
    + exists (Do p). eexists. split; [|exact I]. eapply SWaitSends; eauto. intros d k Hk. rewrite Epp in Hk.
      destruct (Nat.lt_ge_cases d size) as [Hd|Hd]; [now apply Hall|]. rewrite sends_scoped in Hk by (assumption || lia). cbn in Hk. lia.
    + destruct (@posts_or st d a Hd Ha Hi (Hmin d Hd)) as [[st' Hst]|[l El]]; [exists (Do d), st'; split; [exact Hst|exact I]|].
      destruct (nth_error (sends_to d (posted st p)) k) as [x|] eqn:Ex; [|apply nth_error_None in Ex; rewrite Epp in Ex; unfold cs in Hk; lia].
      exists (Arrive p d k). eexists. split; [|exact I]. eapply SArrive; eauto.
      * rewrite El, recvs_app, <- cs_recv by lia. lia.
      * destruct (dl st p d k); [exfalso; apply Hn; now left|reflexivity].
  - assert (j = S (length (prog p a))) as -> by lia.
    assert (Hdec : (forall s, s < size -> forall k, k < cs s p (S a) -> dl st s p k = true)
                   \/ exists s, s < size /\ exists k, k < cs s p (S a) /\ ~ (dl st s p k = true)).
    { assert (D : forall s, s < size -> (forall k, k < cs s p (S a) -> dl st s p k = true) \/ exists k, k < cs s p (S a) /\ ~ (dl st s p k = true)).
      { intros s _. apply dec_bounded. intros k _. destruct (dl st s p k); intuition discriminate. }
      destruct (@dec_bounded size (fun s => forall k, k < cs s p (S a) -> dl st s p k = true)) as [A|[s [Hs Hn]]].
      - intros s Hs. destruct (D s Hs) as [A|[k [Hk Hn]]]; [now left|]. right. intros A. apply Hn. now apply A.
      - now left.
      - right. exists s. split; [exact Hs|]. destruct (D s Hs) as [A|A]; [contradiction|exact A]. }
    destruct Hdec as [Hall|[s [Hs [k [Hk Hn]]]]].
    + exists (Do p). eexists. split; [|exact I]. eapply SWaitRecvs; eauto. intros s k Hk. rewrite Epp in Hk.
      destruct (Nat.lt_ge_cases s size) as [Hs|Hs]; [apply Hall; [exact Hs|]; now rewrite cs_recv by lia|]. rewrite recvs_scoped in Hk by (assumption || lia). lia.
    + destruct (@posts_or st s a Hs Ha Hi (Hmin s Hs)) as [[st' Hst]|[l El]]; [exists (Do s), st'; split; [exact Hst|exact I]|].
      destruct (nth_error (sends_to p (posted st s)) k) as [x|] eqn:Ex.
      2:{ apply nth_error_None in Ex. rewrite El, sends_app, app_length in Ex. unfold cs in Hk. lia. }
      exists (Arrive s p k). eexists. split; [|exact I]. eapply SArrive; eauto.
      * rewrite Epp, <- cs_recv by lia. exact Hk.
      * destruct (dl st s p k); [exfalso; now apply Hn|reflexivity].
Qed.

(* ---- every execution is finite, every step counts ---- *)
Definition triples : list (nat * nat * nat) :=
  flat_map (fun s => flat_map (fun d => map (fun k => (s, d, k)) (seq 0 (cs s d R))) (seq 0 size)) (seq 0 size).
Lemma in_triples s d k : In (s, d, k) triples <-> s < size /\ d < size /\ k < cs s d R.
Proof.
  unfold triples. rewrite in_flat_map. split.
  - intros [s' [Hs H]]. apply in_flat_map in H as [d' [Hd H]]. apply in_map_iff in H as [k' [E H]]. injection E as -> -> ->.
    apply in_seq in Hs, Hd, H. lia.
  - intros (Hs & Hd & Hk). exists s. split; [apply in_seq; lia|]. apply in_flat_map. exists d. split; [apply in_seq; lia|].
    apply in_map_iff. exists k. split; [reflexivity|apply in_seq; lia].
Qed.
Lemma triples_NoDup : NoDup triples.
Proof.
  apply NoDup_flat_map; [apply seq_NoDup| |].
  - intros s _. apply NoDup_flat_map; [apply seq_NoDup| |].
    + intros d _. apply FinFun.Injective_map_NoDup; [|apply seq_NoDup]. intros k k' E. now injection E.
    + intros d d' t _ _ H1 H2. apply in_map_iff in H1 as [k [<- _]]. apply in_map_iff in H2 as [k' [E _]]. now injection E.
  - intros s s' t _ _ H1 H2. apply in_flat_map in H1 as [d [_ H1]]. apply in_flat_map in H2 as [d' [_ H2]].
    apply in_map_iff in H1 as [k [<- _]]. apply in_map_iff in H2 as [k' [E _]]. now injection E.
Qed.
Definition b2n (b : bool) : nat := if b then 1 else 0.
Definition done (r : nat) (p : nat * nat) : nat := list_sum (map (fun b => length (prog r b) + 2) (seq 0 (fst p))) + snd p.
Definition total_instr : nat := list_sum (map (fun r => list_sum (map (fun b => length (prog r b) + 2) (seq 0 R))) (seq 0 size)).
Definition total_msgs : nat := list_sum (map (fun s => list_sum (map (fun d => length (sends_to d (before s R))) (seq 0 size))) (seq 0 size)).
Definition measure (st : state) : nat :=
  list_sum (map (fun r => done r (pos st r)) (seq 0 size)) +
  list_sum (map (fun t => b2n (dl st (fst (fst t)) (snd (fst t)) (snd t))) triples) +
  list_sum (map (fun t => b2n (bf st (fst (fst t)) (snd (fst t)) (snd t))) triples).
Lemma posted_cs st s d k : inv st -> s < size -> k < length (sends_to d (posted st s)) -> k < cs s d R.
Proof.
  intros Hi Hs Hk. destruct (@posted_prefix st s (@inv_pos st Hi s Hs)) as [l E]. unfold cs. rewrite E, sends_app, app_length. lia.
Qed.
Lemma bump_pos (st : state) r p : r < size -> done r p = S (done r (pos st r)) ->
  list_sum (map (fun i => done i (upd (pos st) r p i)) (seq 0 size)) = S (list_sum (map (fun i => done i (pos st i)) (seq 0 size))).
Proof.
  intros Hr E. apply sum_bump with (x := r).
  - apply seq_NoDup.
  - apply in_seq. lia.
  - now rewrite upd_same.
  - intros y Hy. now rewrite upd_other.
Qed.
Lemma bump_tr (f : nat -> nat -> nat -> bool) s d k : s < size -> d < size -> k < cs s d R -> f s d k = false ->
  list_sum (map (fun t => b2n (upd3 f s d k (fst (fst t)) (snd (fst t)) (snd t))) triples) =
  S (list_sum (map (fun t => b2n (f (fst (fst t)) (snd (fst t)) (snd t))) triples)).
Proof.
  intros Hs Hd Hk Hf. apply sum_bump with (x := (s, d, k)).
  - apply triples_NoDup.
  - now apply in_triples.
  - cbn. unfold upd3. rewrite !Nat.eqb_refl, Hf. reflexivity.
  - intros [[s' d'] k'] Hne. cbn. unfold upd3. destruct (Nat.eqb_spec s' s), (Nat.eqb_spec d' d), (Nat.eqb_spec k' k); subst; cbn; try reflexivity. now elim Hne.
Qed.
Lemma measure_step st l st' : inv st -> step st l st' -> measure st' = S (measure st).
Proof.
  intros Hi Hs. unfold measure. destruct Hs as [st r a j Hr E Ha Hj|st r a Hr E Ha Hw|st r a Hr E Ha Hw|st s d k x Hs Hd Hx Hk Hf|st s d k Hs Hd Hk Hf Hg]; cbn [pos dl bf].
  - rewrite bump_pos; [lia|exact Hr|]. rewrite E. unfold done. cbn. lia.
  - rewrite bump_pos; [lia|exact Hr|]. rewrite E. unfold done. cbn. lia.
  - rewrite bump_pos; [lia|exact Hr|]. rewrite E. unfold done. cbn [fst snd]. rewrite seq_S, map_app, list_sum_app. cbn. lia.
  - rewrite bump_tr; [lia|exact Hs|exact Hd| |exact Hf]. eapply posted_cs; eauto. apply nth_error_Some. congruence.
  - rewrite (bump_tr (bf st)); [lia|exact Hs|exact Hd| |exact Hg]. eapply posted_cs; eauto.
Qed.
Lemma measure_start : measure (start M) = 0.
Proof.
  unfold measure, start, done. cbn [pos dl bf fst snd]. cbn.
  assert (Z : forall X (l : list X), list_sum (map (fun _ => 0) l) = 0) by (induction l; cbn; auto). now rewrite !Z.
Qed.
Lemma measure_steps n st : steps n st -> measure st = n.
Proof. induction 1 as [|n st l st' H IH Hs]; [apply measure_start|]. rewrite (measure_step (inv_steps H) Hs). now f_equal. Qed.
Lemma done_le r p : valid r p -> done r p <= list_sum (map (fun b => length (prog r b) + 2) (seq 0 R)).
Proof.
  intros [[H1 H2]| -> ]; unfold done; [|cbn [fst snd]; lia].
  assert (E : seq 0 R = seq 0 (fst p) ++ seq (fst p) (R - fst p)) by (rewrite <- seq_app; f_equal; lia).
  rewrite E, map_app, list_sum_app. destruct (R - fst p) as [|m] eqn:Em; [lia|]. cbn. lia.
Qed.
Lemma length_triples : length triples = total_msgs.
Proof.
  unfold triples, total_msgs. rewrite length_flat_map. f_equal. apply map_ext. intros s. rewrite length_flat_map. f_equal. apply map_ext. intros d.
  now rewrite map_length, seq_length.
Qed.
Lemma measure_bound st : inv st -> measure st <= total_instr + 2 * total_msgs.
Proof.
  intros Hi. unfold measure.
  assert (A : list_sum (map (fun r => done r (pos st r)) (seq 0 size)) <= total_instr).
  { apply list_sum_le. intros r Hr. apply in_seq in Hr. apply done_le, inv_pos; [exact Hi|lia]. }
  assert (B : forall f : nat * nat * nat -> bool, list_sum (map (fun t => b2n (f t)) triples) <= total_msgs).
  { intros f. rewrite <- length_triples. transitivity (list_sum (map (fun _ : nat * nat * nat => 1) triples)).
    - apply list_sum_le. intros t _. destruct (f t); cbn; lia.
    - rewrite list_sum_const. lia. }
  pose proof (B (fun t => dl st (fst (fst t)) (snd (fst t)) (snd t))). pose proof (B (fun t => bf st (fst (fst t)) (snd (fst t)) (snd t))). lia.
Qed.
Lemma steps_bound n st : steps n st -> n <= total_instr + 2 * total_msgs.
Proof. intros H. rewrite <- (measure_steps H). apply measure_bound, (inv_steps H). Qed.
Lemma finished_stuck n st : steps n st -> finished size R st -> forall l st', ~ step st l st'.
Proof.
  intros Hn Hf l st' Hs. pose proof (inv_steps Hn) as Hi.
  assert (P : forall r, r < size -> posted st r = before r R).
  { intros r Hr. unfold Model_Mpi.posted. rewrite (Hf r Hr). cbn. now rewrite app_nil_r. }
  destruct Hs as [st r a j Hr E Ha Hj|st r a Hr E Ha Hw|st r a Hr E Ha Hw|st s d k x Hs Hd Hx Hk Hg|st s d k Hs Hd Hk Hg Hg'];
    try (rewrite (Hf r Hr) in E; injection E; lia).
  - rewrite P in Hk by exact Hd. rewrite <- cs_recv in Hk by lia. rewrite (@inv_old st Hi s d k Hs Hd) in Hg; [discriminate|]. now rewrite (Hf d Hd).
  - rewrite P in Hk by exact Hs. rewrite (@inv_old st Hi s d k Hs Hd) in Hg; [discriminate|]. now rewrite (Hf d Hd).
Qed.
Lemma stuck_finished n st : steps n st -> (forall l st', ~ step st l st') -> finished size R st.
Proof.
  intros H Hs. assert (Hdec : finished size R st \/ ~ finished size R st).
  { destruct (@dec_bounded size (fun r => pos st r = (R, 0))) as [A|[r [Hr A]]].
    - intros r _. destruct (pos st r) as [a j]. destruct (Nat.eq_dec a R) as [->|], (Nat.eq_dec j 0) as [->|]; [now left|right; intros E; injection E; lia..].
    - now left.
    - right. intros F. apply A, F, Hr. }
  destruct Hdec as [F|F]; [exact F|]. destruct (progress (inv_steps H) F) as (l & st' & Hst & _). elim (Hs l st' Hst).
Qed.
End Engine.
