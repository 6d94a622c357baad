(* C140: an exception on one process is not noticed by the others. *)
From Coq Require Import String Bool Arith Lia List.
From Verif Require Import Model_Spmd Spec_Spmd Proof_Spmd Proof_Spmd2 Proof_Spmd3 Proof_Spmd4 Proof_Spmd5 Proof_Spmd6 Prop_Spmd.
Import ListNotations.
Set Implicit Arguments.

(* whatever the session, the process and the point at which it raises: from then on no other process returns from the session or raises *)
Theorem C140_nobody_returns_after_an_error : forall size D cs q m n s, provided D cs -> q < size ->
  steps size (start D (one_fails q m (session size cs))) n s -> raised s q -> forall r, r < size -> r <> q -> ~ finished s r /\ ~ raised s r.
Proof.
intros size D cs q m n s Hp Hq H Hra r Hr Hn. assert (Hs : 0 < size) by lia.
destruct (@s_ok size D cs Hs Hp) as [H1 [H2 _]].
destruct (@sim_steps size D _ (session size cs) q m Hs H1 (fun r _ => H2 r) Hq _ _ H) as [t [Ht S]].
assert (I := @s_inv size D cs Hs Hp _ _ Ht). split.
- apply (@raised_blocks size D _ q m Hs H1 Hq (session_end size cs (cst0 D)) s t r S I Hra Hr Hn).
- unfold raised. rewrite (m_other S) by auto. apply (inv_not_raised I Hr).
Qed.
Print Assumptions C140_nobody_returns_after_an_error.
(* every run comes to a halt ... *)
Theorem C140_runs_halt : forall size D cs q m, provided D cs -> q < size ->
  exists N, forall n s, steps size (start D (one_fails q m (session size cs))) n s -> n <= N.
Proof.
intros size D cs q m Hp Hq. assert (Hs : 0 < size) by lia. destruct (@s_ok size D cs Hs Hp) as [H1 [H2 _]].
destruct (@C139_ends_after_boundedly_many_steps size D cs Hs Hp) as [N HN]. exists N. intros n s H.
destruct (@sim_steps size D _ (session size cs) q m Hs H1 (fun r _ => H2 r) Hq _ _ H) as [t [Ht S]]. eapply HN; eauto.
Qed.
Print Assumptions C140_runs_halt.
(* ... and when it does, the process has raised and all others are inside a collective call that never ends, if the error came before the end
   of the session: m is less than the number of operations of q in a run without error *)
Theorem C140_the_others_wait_forever : forall size D cs q m n s n0 s0, provided D cs -> q < size ->
  steps size (start D (session size cs)) n0 s0 -> (forall r, r < size -> finished s0 r) -> m < length (hist (procs s0 q)) ->
  steps size (start D (one_fails q m (session size cs))) n s -> ~ can_step size s ->
  raised s q /\ forall r, r < size -> r <> q -> waiting (procs s r) = true.
Proof.
intros size D cs q m n s n0 s0 Hp Hq H0 Hf0 Hm H Hmax. assert (Hs : 0 < size) by lia.
destruct (@s_ok size D cs Hs Hp) as [H1 [H2 _]].
destruct (@sim_steps size D _ (session size cs) q m Hs H1 (fun r _ => H2 r) Hq _ _ H) as [t [Ht S]].
assert (I := @s_inv size D cs Hs Hp _ _ Ht). assert (I0 := @s_inv size D cs Hs Hp _ _ H0).
assert (M := @maximal size D _ q m Hs H1 Hq (session_end size cs (cst0 D)) s t S I Hmax). destruct M as [Hf|M]; auto. exfalso.
assert (Hl := m_len S). rewrite (inv_hist I0 Hq (Hf0 q Hq)) in Hm.
destruct (Hf q Hq) as [Ht1 _]. rewrite (m_todo S) in Ht1. destruct (i_fol I Hq) as [rest [E F]].
assert (Er : rest = []).
{ destruct (todo (procs t q)); cbn in Ht1; [inversion F; auto|discriminate| |]; destruct (m - length (hist (procs t q))); discriminate. }
rewrite E, Er, app_nil_r in Hm. lia.
Qed.
Print Assumptions C140_the_others_wait_forever.
(* a missing input file is only looked for by process 0, before its first operation (reader.py 190-193, 492-495): m = 0, q = 0 *)
Definition ex_files : list cmd := [CFit (Fit ["res"%string] 3 5 2 false false PerFreq (NetCDF 2) None)].
Example C140_nonvacuous : exists n s, steps 2 (start empty_disk (one_fails 0 0 (session 2 ex_files))) n s
  /\ provided empty_disk ex_files /\ raised s 0 /\ waiting (procs s 1) = true /\ ~ can_step 2 s.
Proof.
set (s0 := start empty_disk (one_fails 0 0 (session 2 ex_files))).
exists 1. eexists. split; [econstructor; [constructor|]|].
- eapply (@step_act 2 s0 1 (Coll Bcast)); try reflexivity. lia.
- split; [cbn; auto|]. split; [reflexivity|]. split; [reflexivity|].
  intros [r [s' H]]. inversion H as [r0 d f k Hr Hw Ht E1 E2|r0 a k Hr Hw Ht Hp E1 E2|r0 a k Hr Hw Ht Hp E1 E2|r0 c h Hr Hw Hc Hl E1 E2]; subst;
  (destruct r as [|[|r]]; [| |lia]); try discriminate.
  assert (E : h = [] /\ c = Bcast).
  { cbn in Hc. destruct h as [|x h]; [injection Hc; auto|]. injection Hc; intros Hc2 _. destruct h; discriminate. }
  destruct E as [-> ->]. specialize (Hl 0 ltac:(lia) eq_refl). cbn in Hl. lia.
Qed.
