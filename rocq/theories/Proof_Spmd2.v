(* Invariant of the executions of programs that follow a safe plan. *)
From Coq Require Import String Bool Arith Lia List.
From Verif Require Import Model_Spmd Spec_Spmd Proof_Spmd.
Import ListNotations.
Set Implicit Arguments.

Section Sound.
Variables (size : nat) (D0 : disk) (plan : list item) (P : nat -> prog).
Definition cst0 : cst := Cst D0 [] [] [].
Hypothesis Hsize : 0 < size.
Hypothesis Hsafe : safe size plan cst0.
Hypothesis Hfol : forall r, r < size -> follows (P r) (proj r plan).
Let Hno : no_only_coll plan := @safe_no_only size plan cst0 Hsafe.

Definition passed (p : pst) : nat := if waiting p then nsync (removelast (hist p)) else nsync (hist p).
Record inv (s : state) : Prop := {
  i_fol : forall r, r < size -> exists rest, proj r plan = hist (procs s r) ++ rest /\ follows (todo (procs s r)) rest;
  i_wait : forall r, r < size -> waiting (procs s r) = true -> exists h c, hist (procs s r) = h ++ [Did (Coll c)];
  i_disk : forall e, dsk s e = true <-> D0 e = true \/ exists r, r < size /\ In e (made (hist (procs s r)));
  i_sync : forall r q, r < size -> q < size -> passed (procs s r) <= nsync (hist (procs s q)) }.

Lemma inv_start : inv (start D0 P).
Proof.
constructor; cbn; intros.
- exists (proj r plan); auto.
- discriminate.
- split; auto. intros [H|[r [_ []]]]; auto.
- unfold passed; cbn; auto.
Qed.

Lemma no_app_l : forall a b, no_only_coll (a ++ b) -> no_only_coll a.
Proof. intros a b H r c Hi; apply (H r c), in_or_app; auto. Qed.
Lemma no_app_r : forall a b, no_only_coll (a ++ b) -> no_only_coll b.
Proof. intros a b H r c Hi; apply (H r c), in_or_app; auto. Qed.

Lemma safe_l : forall A C, plan = A ++ C -> safe size A cst0.
Proof. intros A C E; generalize Hsafe; rewrite E; intros H; apply safe_app in H; tauto. Qed.
(* where the other processes are while r is at a point of the plan *)
Lemma region : forall s r q A C, inv s -> r < size -> q < size -> waiting (procs s r) = false -> plan = A ++ C -> hist (procs s r) = proj r A ->
  exists h t, hist (procs s q) = proj q (upto_last A) ++ h /\ proj q (seg (tail_last A ++ C)) = h ++ t.
Proof.
intros s r q A C I Hr Hq Hw EP EH.
assert (HnA : no_only_coll A) by (apply no_app_l with C; rewrite <- EP; auto).
assert (HnU : no_only_coll (upto_last A)) by (apply no_app_l with (tail_last A); rewrite <- upto_tail; auto).
assert (Hj : nsync (hist (procs s r)) = psync A) by (rewrite EH, nsync_proj; auto).
assert (H1 := i_sync I Hr Hq). unfold passed in H1; rewrite Hw, Hj in H1.
assert (H2 := i_sync I Hq Hr). rewrite Hj in H2.
destruct (i_fol I Hq) as [rest [E _]]. rewrite EP, (upto_tail A), <- app_assoc, proj_app in E.
assert (Hh : exists h, hist (procs s q) = proj q (upto_last A) ++ h).
{ destruct (upto_last A) as [|i0 l0] eqn:EU; [exists (hist (procs s q)); auto|]. rewrite <- EU in *.
  assert (Hne : upto_last A <> []) by congruence.
  destruct (app_split _ _ _ _ E) as [[x Hx]|[x [Hx1 Hx2]]]; [exists x; auto|].
  exfalso. assert (H3 := suffix_sync _ (upto_ends q A Hne) Hx2 Hx1). apply (f_equal nsync) in Hx2.
  rewrite nsync_app, nsync_proj, upto_sync in Hx2; auto. lia. }
destruct Hh as [h Hh]. exists h. rewrite Hh, <- app_assoc in E. apply app_inv_head in E.
destruct (seg_split (tail_last A ++ C)) as [R [ER HR]]. rewrite ER, proj_app in E.
destruct (app_split _ _ _ _ (eq_sym E)) as [[x Hx]|[x [Hx1 Hx2]]]; [exists x; auto|]. exfalso.
assert (HnS : no_only_coll (seg (tail_last A ++ C))).
{ apply no_app_l with R; rewrite <- ER. apply no_app_r with (upto_last A). rewrite app_assoc, <- upto_tail, <- EP; auto. }
destruct HR as [->|HR].
- rewrite Hx2, <- app_assoc, app_nil_r in E. rewrite <- (app_nil_r (proj q (seg _))) in E at 1. apply app_inv_head in E. destruct x; [congruence|discriminate].
- assert (H3 : nsync h = 1 + nsync x) by (rewrite Hx2, nsync_app, nsync_proj, HR; auto).
  assert (H4 : nsync (hist (procs s q)) = psync A + nsync h) by (rewrite Hh, nsync_app, nsync_proj, upto_sync; auto).
  unfold passed in H2. destruct (waiting (procs s q)) eqn:Ew; [|lia].
  destruct (i_wait I Hq Ew) as [g [c Hg]]. rewrite Hg, removelast_last in H2.
  assert (H5 : nsync (hist (procs s q)) = nsync g + (if sync c then 1 else 0)) by (rewrite Hg, nsync_app; unfold nsync at 2; cbn; destruct (sync c); auto).
  assert (Hc : sync c = true) by (destruct (sync c); auto; lia). rewrite Hc in H5.
  assert (H6 : ends_sync (hist (procs s q))) by (exists g, c; auto).
  assert (H7 : hist (procs s q) = (proj q (upto_last A) ++ proj q (seg (tail_last A ++ C))) ++ x) by (rewrite Hh, Hx2, app_assoc; auto).
  assert (H8 := suffix_sync _ H6 H7 Hx1). lia.
Qed.
(* what a process sees on the disk at a point of the plan *)
Lemma sees_base : forall s r A C e, inv s -> r < size -> waiting (procs s r) = false -> plan = A ++ C -> hist (procs s r) = proj r A ->
  base (after A cst0) e = true -> dsk s e = true.
Proof.
intros s r A C e I Hr Hw EP EH Hb.
assert (HsA : safe size A cst0) by (apply (@safe_l A C EP)).
assert (HnA : no_only_coll A) by (apply (safe_no_only _ _ _ HsA)).
apply (base_upto cst0 HnA eq_refl e) in Hb. apply (i_disk I). destruct Hb as [Hb|Hb]; auto. right.
assert (HsU : safe size (upto_last A) cst0) by (rewrite (upto_tail A) in HsA; apply safe_app in HsA; tauto).
destruct (pmade_proj _ _ _ HsU Hsize Hb) as [q [Hq Hm]]. exists q; split; auto.
destruct (region _ _ I Hr Hq Hw EP EH) as [h [t [H1 _]]]. rewrite H1, made_app; apply in_or_app; auto.
Qed.
Lemma sees_only : forall s r A C e, inv s -> r < size -> waiting (procs s r) = false -> plan = A ++ C -> hist (procs s r) = proj r A ->
  dsk s e = true -> base (after A cst0) e = true \/ In e (new (after A cst0)) \/ In e (pmade (seg C)).
Proof.
intros s r A C e I Hr Hw EP EH Hd.
assert (HsA : safe size A cst0) by (apply (@safe_l A C EP)).
assert (HnA : no_only_coll A) by (apply (safe_no_only _ _ _ HsA)).
apply (i_disk I) in Hd. destruct Hd as [Hd|[q [Hq Hd]]].
- left; apply (base_upto cst0 HnA eq_refl e); auto.
- destruct (region _ _ I Hr Hq Hw EP EH) as [h [t [H1 H2]]]. rewrite H1, made_app, in_app_iff in Hd. destruct Hd as [Hd|Hd].
  + left; apply (base_upto cst0 HnA eq_refl e); right; apply made_proj with q; auto.
  + right. rewrite seg_nosync_app in H2 by apply tail_sync.
    assert (Hd2 : In e (pmade (tail_last A ++ seg C))) by (apply made_proj with q; rewrite H2, made_app; apply in_or_app; auto).
    rewrite pmade_app, in_app_iff in Hd2. destruct Hd2; auto. left; apply (new_tail cst0 HnA eq_refl e); auto.
Qed.
Lemma point : forall s r v l, inv s -> r < size -> (exists rest, proj r plan = hist (procs s r) ++ rest /\ rest = v :: l) ->
  exists A i B, plan = A ++ i :: B /\ hist (procs s r) = proj r A /\ proj1 r i = [v] /\ proj r B = l /\ ok1 size i (after A cst0) /\ safe size B (after1 i (after A cst0)).
Proof.
intros s r v l I Hr [rest [E ->]]. destruct (proj_split _ _ _ _ _ E) as [A [i [B [H1 [H2 [H3 H4]]]]]].
exists A, i, B; repeat split; auto; generalize Hsafe; rewrite H1; intros Hs; apply safe_app in Hs; cbn in Hs; tauto.
Qed.
Lemma perm_ok : forall s r a k, inv s -> r < size -> waiting (procs s r) = false -> todo (procs s r) = Act a k -> permitted (dsk s) a = true.
Proof.
intros s r a k I Hr Hw Ht. destruct (i_fol I Hr) as [rest [E F]]. rewrite Ht in F. inversion F as [|a0 k0 l F1 F2 F3|]; subst. clear F.
destruct (point (v := Did a) (l := l) I Hr) as [A [i [B [H1 [H2 [H3 [H4 [H5 H6]]]]]]]]; [eauto|].
assert (Hok : ok_act a (after A cst0)).
{ destruct i as [a'|q a'|]; cbn in H3; [injection H3; intros; subst a'; auto| |discriminate].
  destruct (q =? r); [|discriminate]. injection H3; intros; subst a'. cbn in H5; tauto. }
assert (Hb := @sees_base s r A (i :: B)). destruct a as [c|d|d f|d f|d f]; cbn in *; auto; [destruct c; cbn in *; auto| |]; apply Hb; tauto.
Qed.
Lemma saw_ok : forall s r d f k b l, inv s -> r < size -> waiting (procs s r) = false -> todo (procs s r) = Test d f k ->
  proj r plan = hist (procs s r) ++ Saw d f b :: l -> dsk s (File d f) = b.
Proof.
intros s r d f k b l I Hr Hw Ht E.
destruct (point (v := Saw d f b) (l := l) I Hr) as [A [i [B [H1 [H2 [H3 [H4 [H5 H6]]]]]]]]; [eauto|].
assert (Ei : i = Looks d f b) by (destruct i as [a'|q a'|]; cbn in H3; [discriminate|destruct (q =? r); discriminate|injection H3; intros; subst; auto]).
subst i. cbn in H5. destruct H5 as [H5 H7]. destruct b.
- apply (sees_base _ _ _ I Hr Hw H1 H2); auto.
- destruct (dsk s (File d f)) eqn:Ed; auto. exfalso.
  destruct (sees_only _ _ _ I Hr Hw H1 H2 Ed) as [H8|[H8|H8]]; [congruence|tauto|].
  cbn [seg is_sync] in H8. rewrite pmade_cons in H8; cbn [act_of app] in H8. revert H8. apply (@seen_seg size _ _ d f H6). left; auto.
Qed.
Lemma upd_eq : forall f r p, upd f r p r = p.
Proof. intros; unfold upd; rewrite Nat.eqb_refl; auto. Qed.
Lemma upd_ne : forall f r p q, q <> r -> upd f r p q = f q.
Proof. intros; unfold upd. destruct (Nat.eqb_spec q r); congruence. Qed.
Lemma inv_step : forall s r s', inv s -> step size s r s' -> inv s'.
Proof.
intros s r s' I St; inversion St as [r0 d f k Hr Hw Ht E1 E2|r0 a k Hr Hw Ht Hp E1 E2|r0 a k Hr Hw Ht Hp E1 E2|r0 c h Hr Hw Hc Hl E1 E2]; subst.
- (* test *)
  destruct (i_fol I Hr) as [rest [E F]]. rewrite Ht in F. inversion F; subst.
  assert (Eb := @saw_ok s r d f k b l I Hr Hw Ht E). subst b.
  constructor; cbn [procs dsk].
  + intros q Hq. destruct (Nat.eq_dec q r) as [->|Hn]; [rewrite upd_eq; cbn|rewrite upd_ne by auto; apply (i_fol I Hq)].
    exists l; split; auto. rewrite <- app_assoc; auto.
  + intros q Hq. destruct (Nat.eq_dec q r) as [->|Hn]; [rewrite upd_eq; cbn; discriminate|rewrite upd_ne by auto; apply (i_wait I Hq)].
  + intros e; rewrite (i_disk I e). split; intros [H|[q [Hq H]]]; auto; right; exists q; split; auto.
    * destruct (Nat.eq_dec q r) as [->|Hn]; [rewrite upd_eq; cbn; rewrite made_app; apply in_or_app; auto|rewrite upd_ne; auto].
    * destruct (Nat.eq_dec q r) as [->|Hn]; [rewrite upd_eq in H; cbn in H; rewrite made_app, in_app_iff in H; cbn in H; tauto|rewrite upd_ne in H; auto].
  + assert (Ep : forall q, passed (upd (procs s) r (Proc (k (dsk s (File d f))) (hist (procs s r) ++ [Saw d f (dsk s (File d f))]) false) q) = passed (procs s q)).
    { intros q; destruct (Nat.eq_dec q r) as [->|Hn]; [rewrite upd_eq|rewrite upd_ne; auto]. unfold passed; cbn [waiting hist]; rewrite Hw, nsync_app; unfold nsync at 2; cbn; lia. }
    intros q q' Hq Hq'. rewrite Ep. apply Nat.le_trans with (nsync (hist (procs s q'))); [apply (i_sync I); auto|].
    destruct (Nat.eq_dec q' r) as [->|Hn]; [rewrite upd_eq; cbn [hist]; rewrite nsync_app; lia|rewrite upd_ne; auto].
- (* act *)
  destruct (i_fol I Hr) as [rest [E F]]. rewrite Ht in F. inversion F; subst.
  constructor; cbn [procs dsk].
  + intros q Hq. destruct (Nat.eq_dec q r) as [->|Hn]; [rewrite upd_eq; cbn|rewrite upd_ne by auto; apply (i_fol I Hq)].
    exists l; split; auto. rewrite <- app_assoc; auto.
  + intros q Hq. destruct (Nat.eq_dec q r) as [->|Hn]; [rewrite upd_eq; cbn|rewrite upd_ne by auto; apply (i_wait I Hq)].
    destruct a as [c| | | |]; cbn; try discriminate. intros _; exists (hist (procs s r)), c; auto.
  + intros e; unfold add; rewrite orb_true_iff, mem_In, (i_disk I e). split.
    * intros [[H|[q [Hq H]]]|H]; auto; right; [exists q|exists r]; split; auto.
      -- destruct (Nat.eq_dec q r) as [->|Hn]; [rewrite upd_eq; cbn; rewrite made_app; apply in_or_app; auto|rewrite upd_ne; auto].
      -- rewrite upd_eq; cbn; rewrite made_app, made_Did; apply in_or_app; auto.
    * intros [H|[q [Hq H]]]; auto. destruct (Nat.eq_dec q r) as [->|Hn].
      -- rewrite upd_eq in H; cbn [hist] in H; rewrite made_app, made_Did, in_app_iff in H. destruct H; auto. left; right; exists r; auto.
      -- rewrite upd_ne in H by auto. left; right; exists q; auto.
  + assert (Ep : forall q, passed (upd (procs s) r (Proc k (hist (procs s r) ++ [Did a]) (is_coll a)) q) = passed (procs s q)).
    { intros q; destruct (Nat.eq_dec q r) as [->|Hn]; [rewrite upd_eq|rewrite upd_ne; auto]. unfold passed; cbn [waiting hist]; rewrite Hw.
      destruct (is_coll a) eqn:Ea; [rewrite removelast_last; auto|]. rewrite nsync_app; unfold nsync at 2; destruct a; try discriminate; cbn; lia. }
    intros q q' Hq Hq'. rewrite Ep. apply Nat.le_trans with (nsync (hist (procs s q'))); [apply (i_sync I); auto|].
    destruct (Nat.eq_dec q' r) as [->|Hn]; [rewrite upd_eq; cbn [hist]; rewrite nsync_app; lia|rewrite upd_ne; auto].
- rewrite (perm_ok I Hr Hw Ht) in Hp; discriminate.
- (* leave *)
  assert (Ep : forall q, hist (upd (procs s) r (Proc (todo (procs s r)) (hist (procs s r)) false) q) = hist (procs s q) /\
                         todo (upd (procs s) r (Proc (todo (procs s r)) (hist (procs s r)) false) q) = todo (procs s q)).
  { intros q; destruct (Nat.eq_dec q r) as [->|Hn]; [rewrite upd_eq; auto|rewrite upd_ne; auto]. }
  constructor; cbn [procs dsk].
  + intros q Hq. destruct (Ep q) as [-> ->]. apply (i_fol I Hq).
  + intros q Hq. destruct (Ep q) as [-> _]. destruct (Nat.eq_dec q r) as [->|Hn]; [rewrite upd_eq; cbn; discriminate|rewrite upd_ne by auto; apply (i_wait I Hq)].
  + intros e; rewrite (i_disk I e). split; intros [H|[q [Hq H]]]; auto; right; exists q; split; auto; destruct (Ep q) as [Ee _]; rewrite Ee in *; auto.
  + intros q q' Hq Hq'. destruct (Ep q') as [-> _]. destruct (Nat.eq_dec q r) as [->|Hn]; [|rewrite upd_ne by auto; apply (i_sync I); auto].
    rewrite upd_eq; unfold passed; cbn [waiting hist].
    destruct (i_wait I Hr Hw) as [g [c' Hg]].
    assert (Ec : c' = c) by (rewrite Hg, calls_app, calls_Did in Hc; apply app_inj_tail in Hc; tauto). subst c'.
    destruct (sync c) eqn:Es.
    * assert (Hlq : length h < length (calls (hist (procs s q')))) by (apply Hl; auto; destruct c; auto; discriminate).
      destruct (i_fol I Hr) as [rr [Er _]]. destruct (i_fol I Hq') as [rq [Eq _]].
      apply (f_equal calls) in Er; apply (f_equal calls) in Eq. rewrite calls_proj, calls_app in Er, Eq by auto. rewrite Er in Eq.
      destruct (app_split _ _ _ _ Eq) as [[x Hx]|[x [Hx1 Hx2]]].
      -- unfold nsync. rewrite Hx, filter_app, app_length; lia.
      -- exfalso. apply (f_equal (@length call)) in Hx2. rewrite Hc, !app_length in Hx2; cbn in Hx2. destruct x; [congruence|cbn in Hx2; lia].
    * apply Nat.le_trans with (passed (procs s r)); [|apply (i_sync I); auto]. unfold passed; rewrite Hw, Hg, removelast_last, nsync_app.
      unfold nsync at 2; cbn; rewrite Es; cbn; lia.
Qed.
Lemma inv_steps : forall n s, steps size (start D0 P) n s -> inv s.
Proof.
intros n s H; remember (start D0 P) as s0 eqn:E; induction H; [subst; apply inv_start|]. eapply inv_step; eauto.
Qed.

(* ---- consequences ---- *)
Lemma inv_matched : forall s, inv s -> matched size s.
Proof.
intros s I q r i c c' Hq Hr H1 H2. destruct (i_fol I Hq) as [rq [Eq _]]. destruct (i_fol I Hr) as [rr [Er _]].
apply (f_equal calls) in Er; apply (f_equal calls) in Eq. rewrite calls_proj, calls_app in Er, Eq by auto.
assert (A1 : nth_error (pcalls plan) i = Some c) by (rewrite Eq, nth_error_app1; auto; apply nth_error_Some; congruence).
assert (A2 : nth_error (pcalls plan) i = Some c') by (rewrite Er, nth_error_app1; auto; apply nth_error_Some; congruence).
congruence.
Qed.
Lemma tests_app : forall a b, tests (a ++ b) = tests a ++ tests b.
Proof. intros; apply filter_app. Qed.
Lemma tests_proj : forall r q p, tests (proj r p) = tests (proj q p).
Proof.
intros r q p; induction p as [|i p IH]; auto. rewrite !proj_cons, !tests_app, IH; f_equal.
destruct i as [a|x a|d f b]; auto. cbn. destruct (x =? r), (x =? q); auto.
Qed.
Lemma inv_tests : forall s, inv s -> same_tests size s.
Proof.
intros s I q r i c c' Hq Hr H1 H2. destruct (i_fol I Hq) as [rq [Eq _]]. destruct (i_fol I Hr) as [rr [Er _]].
apply (f_equal tests) in Er; apply (f_equal tests) in Eq. rewrite tests_app in Er, Eq. rewrite (tests_proj q r) in Eq.
assert (A1 : nth_error (tests (proj r plan)) i = Some c) by (rewrite Eq, nth_error_app1; auto; apply nth_error_Some; congruence).
assert (A2 : nth_error (tests (proj r plan)) i = Some c') by (rewrite Er, nth_error_app1; auto; apply nth_error_Some; congruence).
congruence.
Qed.
Lemma inv_hist : forall s r, inv s -> r < size -> finished s r -> hist (procs s r) = proj r plan.
Proof. intros s r I Hr [Ht _]. destruct (i_fol I Hr) as [rest [E F]]. rewrite Ht in F; inversion F; subst. rewrite app_nil_r in E; auto. Qed.
Lemma inv_not_raised : forall s r, inv s -> r < size -> ~ raised s r.
Proof. intros s r I Hr H. destruct (i_fol I Hr) as [rest [_ F]]. rewrite H in F; inversion F. Qed.
Lemma argmin : forall (f : nat -> nat) n, 0 < n -> exists r, r < n /\ forall q, q < n -> f r <= f q.
Proof.
intros f n; induction n as [|n IH]; intros H; [lia|]. destruct (Nat.eq_dec n 0) as [->|Hn].
- exists 0; split; auto. intros q Hq; replace q with 0 by lia; auto.
- destruct IH as [r [Hr Hm]]; [lia|]. destruct (le_lt_dec (f r) (f n)) as [Hl|Hl].
  + exists r; split; [lia|]. intros q Hq; destruct (Nat.eq_dec q n) as [->|]; auto. apply Hm; lia.
  + exists n; split; auto. intros q Hq; destruct (Nat.eq_dec q n) as [->|]; auto. specialize (Hm q); lia.
Qed.
Lemma bounded_dec : forall (Q : nat -> bool) n, (exists r, r < n /\ Q r = true) \/ forall r, r < n -> Q r = false.
Proof.
intros Q n; induction n as [|n IH]; [right; intros; lia|]. destruct IH as [[r [H1 H2]]|H].
- left; exists r; split; auto.
- destruct (Q n) eqn:E; [left; exists n; auto|right]. intros r Hr; destruct (Nat.eq_dec r n) as [->|]; auto. apply H; lia.
Qed.
Definition done_b (p : pst) : bool := match todo p with Ret => negb (waiting p) | _ => false end.
Definition active_b (p : pst) : bool := match todo p with Ret => false | _ => negb (waiting p) end.
Lemma inv_progress : forall s, inv s -> (forall r, r < size -> finished s r) \/ can_step size s.
Proof.
intros s I. destruct (bounded_dec (fun r => active_b (procs s r)) size) as [[r [Hr Ha]]|Hna].
- right. unfold active_b in Ha. destruct (waiting (procs s r)) eqn:Hw; [destruct (todo (procs s r)); discriminate|].
  destruct (i_fol I Hr) as [rest [E F]]. destruct (todo (procs s r)) as [| |a k|d f k] eqn:Ht; try discriminate.
  + inversion F.
  + exists r; eexists. eapply step_act; eauto. eapply perm_ok; eauto.
  + exists r; eexists. eapply step_test; eauto.
- destruct (bounded_dec (fun r => waiting (procs s r)) size) as [[r1 [Hr1 Hw1]]|Hnw].
  2:{ left. intros r Hr. specialize (Hna r Hr); specialize (Hnw r Hr). unfold finished, active_b in *. rewrite Hnw in *; split; auto. destruct (todo (procs s r)); auto; discriminate. }
  right. assert (Hle : forall q, q < size -> length (calls (hist (procs s q))) <= length (pcalls plan)).
  { intros q Hq. destruct (i_fol I Hq) as [rest [E _]]. apply (f_equal calls) in E. rewrite calls_proj, calls_app in E by auto. rewrite E, app_length; lia. }
  assert (Hgo : forall r, r < size -> waiting (procs s r) = true -> (forall q, q < size -> length (calls (hist (procs s r))) <= length (calls (hist (procs s q)))) -> can_step size s).
  { intros r Hr Hw Hmin. destruct (i_wait I Hr Hw) as [h [c Hh]]. assert (Hc : calls (hist (procs s r)) = calls h ++ [c]) by (rewrite Hh, calls_app, calls_Did; auto).
    exists r; eexists. eapply step_leave; eauto. intros q Hq _. specialize (Hmin q Hq). rewrite Hc, app_length in Hmin; cbn in Hmin; lia. }
  destruct (argmin (fun r => length (calls (hist (procs s r)))) Hsize) as [r [Hr Hm]].
  destruct (waiting (procs s r)) eqn:Hw; [eapply Hgo; eauto|].
  assert (Hfull : length (calls (hist (procs s r))) = length (pcalls plan)).
  { specialize (Hna r Hr); unfold active_b in Hna; rewrite Hw in Hna. destruct (i_fol I Hr) as [rest [E F]].
    destruct (todo (procs s r)); try discriminate. inversion F; subst. rewrite app_nil_r in E. rewrite <- E, calls_proj; auto. }
  apply (Hgo r1 Hr1 Hw1). intros q Hq. specialize (Hm q Hq). specialize (Hle r1 Hr1). lia.
Qed.
Lemma inv_final : forall s, inv s -> (forall r, r < size -> finished s r) -> forall e, dsk s e = true <-> D0 e = true \/ In e (pmade plan).
Proof.
intros s I Hf e. assert (Hh : forall r, r < size -> hist (procs s r) = proj r plan).
{ intros r Hr. destruct (i_fol I Hr) as [rest [E F]]. destruct (Hf r Hr) as [Ht _]. rewrite Ht in F; inversion F; subst. rewrite app_nil_r in E; auto. }
rewrite (i_disk I e). split; intros [H|H]; auto; right.
- destruct H as [r [Hr H]]. rewrite Hh in H by auto. apply made_proj with r; auto.
- destruct (pmade_proj _ _ _ Hsafe Hsize H) as [r [Hr Hm]]. exists r; split; auto. rewrite Hh; auto.
Qed.
Lemma inv_read : forall s r d f, inv s -> r < size -> reading s r d f -> dsk s (File d f) = true /\ forall q, q < size -> ~ writing s q d f.
Proof.
intros s r d f I Hr [Hw [k Ht]]. split; [apply (perm_ok I Hr Hw Ht)|].
intros q Hq. destruct (i_fol I Hr) as [rest [E F]]. rewrite Ht in F. inversion F as [|a0 k0 l F1 F2 F3|]; subst. clear F.
destruct (point (v := Did (Read d f)) (l := l) I Hr) as [A [i [B [H1 [H2 [H3 [H4 [H5 H6]]]]]]]]; [eauto|].
assert (Hi : is_sync i = false /\ (match act_of i with Some a => creates a | None => [] end) = [] /\ ~ In (File d f) (new (after A cst0)) /\ In (File d f) (seen (after1 i (after A cst0)))).
{ destruct i as [a'|q' a'|]; cbn in H3; [| |discriminate].
  - injection H3; intros; subst a'. cbn in H5; cbn; tauto.
  - destruct (q' =? r); [|discriminate]. injection H3; intros; subst a'. cbn in H5; cbn; tauto. }
destruct Hi as [Hi1 [Hi2 [Hi3 Hi4]]].
destruct (region _ _ I Hr Hq Hw H1 H2) as [h [t [Eh Et]]]. unfold writing. rewrite Eh.
assert (HsA : safe size A cst0) by (apply (@safe_l A (i :: B) H1)).
assert (HnA : no_only_coll A) by (apply (safe_no_only _ _ _ HsA)).
assert (Hc := @upto_closed size A cst0 q (File d f) HsA eq_refl).
rewrite seg_nosync_app in Et by apply tail_sync. cbn [seg] in Et; rewrite Hi1 in Et.
assert (Hm : ~ In (File d f) (pmade (tail_last A ++ i :: seg B))).
{ rewrite pmade_app, pmade_cons, Hi2, !in_app_iff. intros [H|[[]|H]]; [apply Hi3, (new_tail cst0 HnA eq_refl); auto|]. revert H. apply (@seen_seg size _ _ d f H6 Hi4). }
apply new_no_open with (q := q) in Hm. rewrite Et in Hm. unfold opens, closes in *. rewrite !filter_app_len in *. lia.
Qed.
(* every process has made at most twice as many steps as it has done things *)
Definition work (p : pst) : nat := length (hist p) + length (calls (hist p)) - (if waiting p then 1 else 0).
Definition total (s : state) : nat := list_sum (map (fun r => work (procs s r)) (seq 0 size)).
Lemma sum_upd : forall (f g : nat -> nat) n r, r < n -> (forall q, q <> r -> f q = g q) ->
  list_sum (map f (seq 0 n)) + g r = list_sum (map g (seq 0 n)) + f r.
Proof.
intros f g n; induction n as [|n IH]; intros r Hr H; [lia|]. rewrite seq_S, !map_app, !list_sum_app; cbn.
destruct (Nat.eq_dec r n) as [->|Hn].
- assert (E : map f (seq 0 n) = map g (seq 0 n)) by (apply map_ext_in; intros q Hq; apply in_seq in Hq; apply H; lia). rewrite E; lia.
- specialize (IH r ltac:(lia) H). rewrite (H n) by auto. lia.
Qed.
Lemma step_total : forall s r s', inv s -> step size s r s' -> total s' = S (total s).
Proof.
intros s r s' I St.
assert (Hr : r < size) by (inversion St; auto).
assert (Hother : forall q, q <> r -> work (procs s' q) = work (procs s q)) by (intros q Hn; inversion St; subst; cbn [procs]; rewrite upd_ne; auto).
assert (Hown : work (procs s' r) = S (work (procs s r))).
{ inversion St as [r0 d f k Hr' Hw Ht E1 E2|r0 a k Hr' Hw Ht Hp E1 E2|r0 a k Hr' Hw Ht Hp E1 E2|r0 c h Hr' Hw Hc Hl E1 E2]; subst; cbn [procs]; [| |rewrite (perm_ok I Hr Hw Ht) in Hp; discriminate|]; rewrite upd_eq; unfold work; cbn [hist waiting].
  - rewrite Hw, calls_app, !app_length; cbn; lia.
  - rewrite Hw, calls_app, calls_Did, !app_length. destruct a; cbn; lia.
  - rewrite Hw. destruct (i_wait I Hr Hw) as [g [c' Hg]]. rewrite Hg, calls_app, calls_Did, !app_length; cbn; lia. }
unfold total. generalize (sum_upd (fun q => work (procs s' q)) (fun q => work (procs s q)) Hr Hother). lia.
Qed.
Lemma sum_le : forall (f g : nat -> nat) l, (forall q, In q l -> f q <= g q) -> list_sum (map f l) <= list_sum (map g l).
Proof. induction l as [|x l IH]; intros H; [auto|]. assert (H1 := IH (fun q Hq => H q (or_intror Hq))). assert (H2 := H x (or_introl eq_refl)). cbn [map list_sum fold_right]. unfold list_sum in H1. lia. Qed.
Lemma bounded : exists N, forall n s, steps size (start D0 P) n s -> n <= N.
Proof.
exists (list_sum (map (fun r => length (proj r plan) + length (pcalls plan)) (seq 0 size))). intros n s H.
assert (E : total s = n).
{ remember (start D0 P) as s0 eqn:E0. revert E0; induction H as [s|s m r s' s'' H IH H1]; intros E0.
  - subst s. unfold total, start; cbn [procs]. assert (Z : forall n a, list_sum (map (fun r => work (Proc (P r) [] false)) (seq a n)) = 0) by (induction n; intros a; [reflexivity|exact (IHn (S a))]). apply Z.
  - rewrite (step_total (s := s')) with (r := r); auto. rewrite E0 in H; eapply inv_steps; eauto. }
rewrite <- E. assert (I := inv_steps H). unfold total. apply sum_le. intros r Hr; apply in_seq in Hr.
destruct (@i_fol s I r ltac:(lia)) as [rest [E2 _]]. assert (E3 := f_equal calls E2). rewrite calls_proj, calls_app in E3 by auto.
rewrite E2, E3, !app_length. unfold work. lia.
Qed.
End Sound.
