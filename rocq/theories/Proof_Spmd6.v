(* One process raises: simulation by the run in which it does not. *)
From Coq Require Import String Bool Arith Lia List.
From Verif Require Import Model_Spmd Spec_Spmd Proof_Spmd Proof_Spmd2 Proof_Spmd3 Proof_Spmd4 Proof_Spmd5.
Import ListNotations.
Set Implicit Arguments.

Section Fails.
Variables (size : nat) (D0 : disk) (plan : list item) (P : nat -> prog) (q m : nat).
Hypothesis Hsize : 0 < size.
Hypothesis Hsafe : safe size plan (cst0 D0).
Hypothesis Hfol : forall r, r < size -> follows (P r) (proj r plan).
Hypothesis Hq : q < size.
Hypothesis Hend : plan = [] \/ exists p, plan = p ++ every [Coll Barrier].
Record sim (s t : state) : Prop := {
  m_dsk : dsk s = dsk t;
  m_other : forall r, r <> q -> procs s r = procs t r;
  m_hist : hist (procs s q) = hist (procs t q);
  m_wait : waiting (procs s q) = waiting (procs t q);
  m_todo : todo (procs s q) = fail_after (m - length (hist (procs t q))) (todo (procs t q));
  m_len : length (hist (procs t q)) <= m }.
Lemma sim_hist : forall s t r, sim s t -> hist (procs s r) = hist (procs t r).
Proof. intros s t r S. destruct (Nat.eq_dec r q) as [->|Hn]; [apply (m_hist S)|rewrite (m_other S); auto]. Qed.
Lemma sim_start : sim (start D0 (one_fails q m P)) (start D0 P).
Proof.
constructor; cbn; auto; unfold one_fails.
- intros r Hr. destruct (Nat.eqb_spec r q); [contradiction|auto].
- rewrite Nat.eqb_refl, Nat.sub_0_r; auto.
- lia.
Qed.
Lemma sim_same : forall s t r p D, sim s t -> r <> q -> D = dsk t -> forall E, sim (St (add (dsk s) E) (upd (procs s) r p)) (St (add D E) (upd (procs t) r p)).
Proof.
intros s t r p D S Hn -> E. constructor; cbn [dsk procs]; try (rewrite (upd_ne (procs t) p (not_eq_sym Hn)), ?(upd_ne (procs s) p (not_eq_sym Hn))); try apply S.
- rewrite (m_dsk S); auto.
- intros r' Hr'. destruct (Nat.eq_dec r' r) as [->|Hn']; [rewrite !upd_eq; auto|rewrite !upd_ne by auto; apply (m_other S); auto].
Qed.
Lemma sim_step : forall s t s' r, sim s t -> inv size D0 plan t -> step size s r s' -> exists t', step size t r t' /\ sim s' t'.
Proof.
intros s t s' r S I St.
inversion St as [r0 d f k Hr Hw Ht E1 E2|r0 a k Hr Hw Ht Hp E1 E2|r0 a k Hr Hw Ht Hp E1 E2|r0 c h Hr Hw Hc Hl E1 E2]; subst;
  (destruct (Nat.eq_dec r q) as [->|Hn]; [|assert (Eo := m_other S Hn)]).
- rewrite (m_wait S) in Hw. rewrite (m_todo S) in Ht. assert (Hlen := m_len S).
  destruct (todo (procs t q)) as [| |a0 k0|d0 f0 k0] eqn:Et; cbn [fail_after] in Ht; destruct (m - length (hist (procs t q))) as [|x] eqn:Ex; try discriminate.
  injection Ht; intros; subst d0 f0 k. eexists; split; [eapply step_test; eauto|]. rewrite (m_dsk S), (m_hist S).
  constructor; cbn [dsk procs]; auto.
  + intros r' Hr'. rewrite !upd_ne by auto. apply (m_other S); auto.
  + rewrite !upd_eq; auto.
  + rewrite !upd_eq; auto.
  + rewrite !upd_eq. cbn [todo hist]. rewrite app_length. cbn [length]. replace (m - (length (hist (procs t q)) + 1)) with x by lia. auto.
  + rewrite upd_eq. cbn [hist]. rewrite app_length; cbn [length]; lia.
- rewrite Eo in *. eexists; split; [eapply step_test; eauto|]. rewrite (m_dsk S).
  constructor; cbn [dsk procs]; try (rewrite ?(upd_ne (procs t) _ (not_eq_sym Hn)), ?(upd_ne (procs s) _ (not_eq_sym Hn))); try apply S; auto.
  intros r' Hr'. destruct (Nat.eq_dec r' r) as [->|Hn']; [rewrite !upd_eq; auto|rewrite !upd_ne by auto; apply (m_other S); auto].
- rewrite (m_wait S) in Hw. rewrite (m_todo S) in Ht. assert (Hlen := m_len S). rewrite (m_dsk S) in *.
  destruct (todo (procs t q)) as [| |a0 k0|d0 f0 k0] eqn:Et; cbn [fail_after] in Ht; destruct (m - length (hist (procs t q))) as [|x] eqn:Ex; try discriminate.
  injection Ht; intros; subst a0 k. eexists; split; [eapply step_act; eauto|]. rewrite (m_hist S).
  constructor; cbn [dsk procs]; auto.
  + intros r' Hr'. rewrite !upd_ne by auto. apply (m_other S); auto.
  + rewrite !upd_eq; auto.
  + rewrite !upd_eq; auto.
  + rewrite !upd_eq. cbn [todo hist]. rewrite app_length. cbn [length]. replace (m - (length (hist (procs t q)) + 1)) with x by lia. auto.
  + rewrite upd_eq. cbn [hist]. rewrite app_length; cbn [length]; lia.
- rewrite Eo in *. rewrite (m_dsk S) in Hp. eexists; split; [eapply step_act; eauto|]. apply sim_same; auto.
- exfalso. rewrite (m_wait S) in Hw. rewrite (m_todo S) in Ht. rewrite (m_dsk S) in *.
  destruct (todo (procs t q)) as [| |a0 k0|d0 f0 k0] eqn:Et; cbn [fail_after] in Ht; destruct (m - length (hist (procs t q))) as [|x] eqn:Ex; try discriminate.
  injection Ht; intros; subst a0 k. rewrite (perm_ok Hsize Hsafe I Hq Hw Et) in Hp; discriminate.
- exfalso. rewrite Eo in *. rewrite (m_dsk S) in *. rewrite (perm_ok Hsize Hsafe I Hr Hw Ht) in Hp; discriminate.
- eexists; split; [eapply step_leave with (c := c) (h := h); auto; [rewrite <- (m_wait S); auto|rewrite <- (m_hist S); auto|]|].
  + intros r' Hr' Hw'. rewrite <- (sim_hist r' S). auto.
  + constructor; cbn [dsk procs]; rewrite ?upd_eq; cbn [hist todo waiting]; try apply S; auto.
    intros r' Hr'. rewrite !upd_ne by auto. apply (m_other S); auto.
- rewrite Eo in *. eexists; split; [eapply step_leave with (c := c) (h := h); auto|].
  + intros r' Hr' Hw'. rewrite <- (sim_hist r' S). auto.
  + constructor; cbn [dsk procs]; try (rewrite ?(upd_ne (procs t) _ (not_eq_sym Hn)), ?(upd_ne (procs s) _ (not_eq_sym Hn))); try apply S; auto.
    intros r' Hr'. destruct (Nat.eq_dec r' r) as [->|Hn']; [rewrite !upd_eq; auto|rewrite !upd_ne by auto; apply (m_other S); auto].
Qed.
Lemma sim_steps : forall n s, steps size (start D0 (one_fails q m P)) n s -> exists t, steps size (start D0 P) n t /\ sim s t.
Proof.
intros n s H. remember (start D0 (one_fails q m P)) as s0 eqn:E. induction H as [s|s n r s' s'' H IH H1]; subst.
- exists (start D0 P); split; [constructor|apply sim_start].
- destruct (IH eq_refl) as [t [Ht S]]. destruct (sim_step S (@inv_steps size D0 plan P Hsize Hsafe Hfol _ _ Ht) H1) as [t' [Ht' S']]. exists t'; split; auto. econstructor; eauto.
Qed.
Let Hno : no_only_coll plan := @safe_no_only size plan (cst0 D0) Hsafe.
Lemma rest_sync : forall h rest, proj q plan = h ++ rest -> rest <> [] -> 1 <= nsync rest.
Proof.
intros h rest E Hr. destruct Hend as [E0|[p E0]].
- rewrite E0 in E. cbn in E. destruct h, rest; try discriminate. congruence.
- apply (@suffix_sync (proj q plan) h rest); auto. rewrite E0, proj_app. exists (proj q p), Barrier; split; auto.
Qed.
(* once q has raised nobody finishes *)
Lemma raised_blocks : forall s t r, sim s t -> inv size D0 plan t -> raised s q -> r < size -> r <> q -> ~ finished s r.
Proof.
intros s t r S I Hra Hr Hn [Hf1 Hf2]. unfold raised in Hra. rewrite (m_todo S) in Hra. rewrite (m_other S Hn) in Hf1, Hf2.
destruct (i_fol I Hq) as [rest [E F]]. assert (Hne : rest <> []). { intros Er. rewrite Er in F. inversion F as [E1| |]. rewrite <- E1 in Hra. discriminate Hra. }
assert (H1 := rest_sync _ E Hne). assert (H2 := i_sync I Hr Hq). unfold passed in H2. rewrite Hf2 in H2.
rewrite (inv_hist I Hr (conj Hf1 Hf2)), nsync_proj in H2 by auto. apply (f_equal nsync) in E. rewrite nsync_app, nsync_proj in E by auto. lia.
Qed.
Lemma maximal : forall s t, sim s t -> inv size D0 plan t -> ~ can_step size s ->
  (forall r, r < size -> finished s r) \/ (raised s q /\ forall r, r < size -> r <> q -> waiting (procs s r) = true).
Proof.
intros s t S I Hmax.
assert (Hoth : forall r, r < size -> r <> q -> waiting (procs s r) = true \/ finished s r).
{ intros r Hr Hn. destruct (waiting (procs s r)) eqn:Hw; auto. right; split; auto. assert (Eo := m_other S Hn). destruct (i_fol I Hr) as [rest [E F]]. rewrite <- Eo in F.
  destruct (todo (procs s r)) as [| |a k|d f k] eqn:Et; auto; [inversion F| |]; exfalso; apply Hmax; exists r; eexists.
  - eapply step_act; eauto. rewrite (m_dsk S). rewrite Eo in Hw, Et. apply (perm_ok Hsize Hsafe I Hr Hw Et).
  - eapply step_test; eauto. }
assert (Dr : raised s q \/ ~ raised s q) by (unfold raised; destruct (todo (procs s q)); auto; right; discriminate).
destruct Dr as [Hra|Hnr].
- right. split; auto. intros r Hr Hn. destruct (Hoth r Hr Hn) as [H|H]; auto. destruct (raised_blocks S I Hra Hr Hn H).
- left. destruct (@inv_progress size D0 plan Hsize Hsafe _ I) as [Hf|[r [t' Hst]]].
  + intros r Hr. destruct (Nat.eq_dec r q) as [->|Hn]; [|unfold finished; rewrite (m_other S Hn); apply Hf; auto].
    destruct (Hf q Hq) as [H1 H2]. split; [rewrite (m_todo S), H1; auto|rewrite (m_wait S); auto].
  + exfalso. apply Hmax. assert (Hr : r < size) by (inversion Hst; auto). exists r.
    destruct (Nat.eq_dec r q) as [->|Hn].
    * inversion Hst as [r0 d f k _ Hw Ht E1 E2|r0 a k _ Hw Ht Hp E1 E2|r0 a k _ Hw Ht Hp E1 E2|r0 c h _ Hw Hc Hl E1 E2]; subst.
      -- assert (Es := m_todo S). rewrite Ht in Es. cbn [fail_after] in Es. unfold raised in Hnr. destruct (m - length (hist (procs t q))); [congruence|].
         eexists. eapply step_test; eauto. rewrite (m_wait S); auto.
      -- assert (Es := m_todo S). rewrite Ht in Es. cbn [fail_after] in Es. unfold raised in Hnr. destruct (m - length (hist (procs t q))); [congruence|].
         eexists. eapply step_act; eauto; [rewrite (m_wait S); auto|rewrite (m_dsk S); auto].
      -- rewrite (perm_ok Hsize Hsafe I Hq Hw Ht) in Hp; discriminate.
      -- eexists. eapply step_leave with (c := c) (h := h); auto; [rewrite (m_wait S); auto|rewrite (m_hist S); auto|].
         intros r' Hr' Hw'. rewrite (sim_hist r' S). auto.
    * assert (Eo := m_other S Hn). inversion Hst as [r0 d f k _ Hw Ht E1 E2|r0 a k _ Hw Ht Hp E1 E2|r0 a k _ Hw Ht Hp E1 E2|r0 c h _ Hw Hc Hl E1 E2]; subst; rewrite <- Eo in *.
      -- eexists. eapply step_test; eauto.
      -- eexists. eapply step_act; eauto. rewrite (m_dsk S); auto.
      -- rewrite Eo in *. rewrite (perm_ok Hsize Hsafe I Hr Hw Ht) in Hp; discriminate.
      -- eexists. eapply step_leave with (c := c) (h := h); auto. intros r' Hr' Hw'. rewrite (sim_hist r' S). auto.
Qed.
End Fails.

(* every session ends with a barrier *)
Lemma plan_end : forall size c s, exists p, plan_of size c s = p ++ every [Coll Barrier].
Proof.
intros size c s. destruct c as [c|c l|c|c|d nd norm|res dir]; cbn [plan_of]; unfold fit_plan, stream_plan, coeffs_plan, rec_plan, pod_plan, pod_coeffs_plan; rewrite !app_assoc; eexists; reflexivity.
Qed.
Lemma session_end : forall size cs s, session_plan size cs s = [] \/ exists p, session_plan size cs s = p ++ every [Coll Barrier].
Proof.
intros size cs; induction cs as [|c cs IH]; intros s; cbn [session_plan]; auto. right. destruct (IH (after (plan_of size c s) s)) as [E|[p E]]; rewrite E.
- rewrite app_nil_r. apply plan_end.
- rewrite app_assoc; eauto.
Qed.
