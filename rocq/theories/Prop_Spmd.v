(* C139: the processes of a parallel session keep in step, and what they leave on the disk does not depend on their number or on the schedule. *)
From Coq Require Import String Bool Arith Lia List.
From Verif Require Import Model_Spmd Spec_Spmd Proof_Spmd Proof_Spmd2 Proof_Spmd3 Proof_Spmd4 Proof_Spmd5.
Import ListNotations.
Set Implicit Arguments.
Local Open Scope string_scope.
Local Open Scope list_scope.

Section Sessions.
Variables (size : nat) (D : disk) (cs : list cmd).
Hypothesis Hs : 0 < size.
Hypothesis Hp : provided D cs.
Let plan := session_plan size cs (cst0 D).
Lemma s_ok : safe size plan (cst0 D) /\ (forall r, follows (session size cs r) (proj r plan))
  /\ forall e, D e = true \/ In e (pmade plan) <-> D e = true \/ In e (flat_map leaves cs).
Proof. apply (@session_ok size Hs cs (cst0 D) D); auto; [repeat split|intros; reflexivity]. Qed.
Lemma s_inv : forall n s, steps size (start D (session size cs)) n s -> inv size D plan s.
Proof. intros n s. apply inv_steps; auto; [|intros r _]; apply s_ok. Qed.
End Sessions.

(* any number of processes, any disk, any session that finds its inputs, any schedule *)
Theorem C139_collective_calls_match : forall size D cs n s, 0 < size -> provided D cs -> steps size (start D (session size cs)) n s -> matched size s.
Proof. intros size D cs n s Hs Hp H. apply inv_matched with D (session_plan size cs (cst0 D)); [apply (@s_ok size D cs Hs Hp)|apply (@s_inv size D cs Hs Hp _ _ H)]. Qed.
Print Assumptions C139_collective_calls_match.
Theorem C139_no_process_raises : forall size D cs n s r, 0 < size -> provided D cs -> steps size (start D (session size cs)) n s -> r < size -> ~ raised s r.
Proof. intros size D cs n s r Hs Hp H. apply (inv_not_raised (@s_inv size D cs Hs Hp _ _ H)). Qed.
Print Assumptions C139_no_process_raises.
Theorem C139_never_stuck : forall size D cs n s, 0 < size -> provided D cs -> steps size (start D (session size cs)) n s ->
  (forall r, r < size -> finished s r) \/ can_step size s.
Proof. intros size D cs n s Hs Hp H. apply (@inv_progress size D (session_plan size cs (cst0 D))); [auto|apply (@s_ok size D cs Hs Hp)|apply (@s_inv size D cs Hs Hp _ _ H)]. Qed.
Print Assumptions C139_never_stuck.
Theorem C139_ends_after_boundedly_many_steps : forall size D cs, 0 < size -> provided D cs -> exists N, forall n s, steps size (start D (session size cs)) n s -> n <= N.
Proof. intros size D cs Hs Hp. destruct (@s_ok size D cs Hs Hp) as [H1 [H2 _]]. apply (@bounded size D _ (session size cs) Hs H1). auto. Qed.
Print Assumptions C139_ends_after_boundedly_many_steps.
Lemma steps_more : forall size s0 n s r s', steps size s0 n s -> step size s r s' -> steps size s0 (S n) s'.
Proof. intros; econstructor; eauto. Qed.
Theorem C139_every_run_can_be_completed : forall size D cs n s, 0 < size -> provided D cs -> steps size (start D (session size cs)) n s ->
  exists n' s', steps size (start D (session size cs)) n' s' /\ n <= n' /\ forall r, r < size -> finished s' r.
Proof.
intros size D cs n s Hs Hp H. destruct (@C139_ends_after_boundedly_many_steps size D cs Hs Hp) as [N HN].
assert (G : forall k n s, steps size (start D (session size cs)) n s -> N <= n + k ->
  exists n' s', steps size (start D (session size cs)) n' s' /\ n <= n' /\ forall r, r < size -> finished s' r).
{ induction k as [|k IH]; intros m t Ht Hk; (destruct (@C139_never_stuck size D cs _ _ Hs Hp Ht) as [Hf|[r [t' Hst]]]; [exists m, t; auto|]).
  - assert (HS := HN _ _ (steps_more Ht Hst)). lia.
  - destruct (IH _ _ (steps_more Ht Hst) ltac:(lia)) as [n' [s' [H1 [H2 H3]]]]. exists n', s'; repeat split; auto; try lia; apply H3; auto. }
apply (G N n s H). lia.
Qed.
Print Assumptions C139_every_run_can_be_completed.
Theorem C139_files_are_read_complete : forall size D cs n s r d f, 0 < size -> provided D cs -> steps size (start D (session size cs)) n s ->
  r < size -> reading s r d f -> dsk s (File d f) = true /\ forall q, q < size -> ~ writing s q d f.
Proof. intros size D cs n s r d f Hs Hp H. apply (@inv_read size D (session_plan size cs (cst0 D))); [auto|apply (@s_ok size D cs Hs Hp)|apply (@s_inv size D cs Hs Hp _ _ H)]. Qed.
Print Assumptions C139_files_are_read_complete.
Theorem C139_processes_see_the_same_files : forall size D cs n s, 0 < size -> provided D cs -> steps size (start D (session size cs)) n s -> same_tests size s.
Proof. intros size D cs n s Hs Hp H. apply (inv_tests (@s_inv size D cs Hs Hp _ _ H)). Qed.
Print Assumptions C139_processes_see_the_same_files.
(* neither the schedule nor the number of processes matters for which files are there in the end *)
Theorem C139_files_left : forall size D cs n s, 0 < size -> provided D cs -> steps size (start D (session size cs)) n s ->
  (forall r, r < size -> finished s r) -> forall e, dsk s e = true <-> D e = true \/ In e (flat_map leaves cs).
Proof.
intros size D cs n s Hs Hp H Hf e. destruct (@s_ok size D cs Hs Hp) as [A [B C]]. rewrite <- C.
assert (I := @s_inv size D cs Hs Hp _ _ H). eapply inv_final; eauto.
Qed.
Print Assumptions C139_files_left.
Theorem C139_schedule_does_not_matter : forall size D cs n s n' s', 0 < size -> provided D cs ->
  steps size (start D (session size cs)) n s -> (forall r, r < size -> finished s r) ->
  steps size (start D (session size cs)) n' s' -> (forall r, r < size -> finished s' r) ->
  forall r, r < size -> hist (procs s r) = hist (procs s' r).
Proof.
intros size D cs n s n' s' Hs Hp H Hf H' Hf' r Hr.
rewrite (inv_hist (@s_inv size D cs Hs Hp _ _ H) Hr (Hf r Hr)), (inv_hist (@s_inv size D cs Hs Hp _ _ H') Hr (Hf' r Hr)); auto.
Qed.
Print Assumptions C139_schedule_does_not_matter.

(* a session of three calls on an empty disk: blocks are stored, modes in one file each, coefficients use them, the reconstruction uses those *)
Definition ex_fit : fitcfg := Fit ["res"] 3 5 2 true true PerMode (Arrays 1) (Some 1).
Definition ex_session : list cmd := [CFit ex_fit; CFit ex_fit; CCoeffs (Coef ["res"] ["res"; "coeffs"] [1; 4] 2 false); CRec (Rec ["res"; "coeffs"] ["res"; "recons"] "r")].
Definition empty_disk : disk := fun _ => false.
Example C139_provided : provided empty_disk ex_session.
Proof.
cbn [provided ex_session]. split; [exact I|]. split; [exact I|]. split; [split|].
- intros f Hf. cbn [In] in Hf. destruct Hf as [<-|[<-|[<-|[]]]]; reflexivity.
- intros f Hf. cbn [In] in Hf. destruct Hf as [<-|[<-|[]]]; right; exists 0; split; [cbn; lia|reflexivity|cbn; lia|reflexivity].
- split; [|exact I]. intros f Hf. cbn [In] in Hf. destruct Hf as [<-|[<-|[<-|[<-|[]]]]]; reflexivity.
Qed.
Example C139_nonvacuous : forall size, 0 < size -> exists n s, steps size (start empty_disk (session size ex_session)) n s
  /\ (forall r, r < size -> finished s r) /\ dsk s (File ["res"; "recons"] (Recon "r")) = true /\ dsk s (File ["res"; "modes"] (ModePart 4 1)) = true
  /\ dsk s (File ["res"; "modes"] (Mode 4)) = false.
Proof.
intros size Hs. destruct (@C139_every_run_can_be_completed size empty_disk ex_session _ _ Hs C139_provided (steps_0 size _)) as [n [s [H1 [_ H2]]]].
exists n, s. split; auto. split; auto. assert (F := @C139_files_left size empty_disk ex_session _ _ Hs C139_provided H1 H2).
split; [|split]; [apply F; right; apply mem_In; reflexivity|apply F; right; apply mem_In; reflexivity|].
destruct (dsk s _) eqn:E; auto. apply F in E. destruct E as [E|E]; [discriminate|]. apply mem_In in E. exfalso; revert E. vm_compute. discriminate.
Qed.
