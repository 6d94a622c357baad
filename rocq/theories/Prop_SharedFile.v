(* C141: the parameter file written by all processes at once is complete. *)
From Coq Require Import Arith Lia List Bool.
From Verif Require Import Model_SharedFile.
Import ListNotations.
Set Implicit Arguments.
Section Proofs.
Variables (A : Type) (z : A) (size : nat) (text : list A).
(* somebody has written everything before his position, and nothing lies beyond the text *)
Definition good (s : st A) : Prop :=
  exists q p, pos s q = Some p /\ p <= len (shared s) <= length text /\ forall i, i < p -> at_ (shared s) i = nth i text z.
Lemma nth_piece : forall k p i, p <= i -> i < p + k -> p + k <= length text -> nth (i - p) (firstn k (skipn p text)) z = nth i text z.
Proof.
intros k p i H1 H2 H3. transitivity (nth (i - p) (skipn p text) z).
- rewrite <- (firstn_skipn k (skipn p text)) at 2. rewrite app_nth1; auto. rewrite firstn_length, skipn_length; lia.
- rewrite <- (firstn_skipn p text) at 2. rewrite app_nth2; rewrite firstn_length, Nat.min_l by lia; auto.
Qed.
Lemma good_step : forall s s', (good s \/ forall r, pos s r = None) -> step z size text s s' -> good s'.
Proof.
intros s s' H St. destruct St as [r Hr Hn|r p k Hr Hp Hk Hl].
- exists r, 0. unfold set; cbn. rewrite Nat.eqb_refl. repeat split; auto; intros; lia.
- destruct H as [[q [p0 [Hq [Hlen Hat]]]]|H]; [|rewrite H in Hp; discriminate].
  assert (Hw : length (firstn k (skipn p text)) = k) by (rewrite firstn_length, skipn_length; lia).
  destruct (Nat.eq_dec q r) as [->|Hn].
  + rewrite Hp in Hq; injection Hq; intros; subst p0. exists r, (p + k). unfold set; cbn [pos shared len at_ write_at]. rewrite Nat.eqb_refl, Hw. repeat split; try lia.
    intros i Hi. destruct (Nat.leb_spec p i); cbn [andb].
    * destruct (Nat.ltb_spec i (p + k)); [|lia]. apply nth_piece; auto.
    * destruct (Nat.ltb_spec i (len (shared s))); [auto|lia].
  + exists q, p0. unfold set; cbn [pos shared len at_ write_at]. destruct (Nat.eqb_spec q r); [contradiction|]. rewrite Hw. repeat split; auto; try lia.
    intros i Hi. destruct (Nat.leb_spec p i); cbn [andb].
    * destruct (Nat.ltb_spec i (p + k)); [apply nth_piece; auto|]. destruct (Nat.ltb_spec i (len (shared s))); [auto|lia].
    * destruct (Nat.ltb_spec i (len (shared s))); [auto|lia].
Qed.
Lemma good_steps : forall f s, steps z size text (begin f) s -> good s \/ forall r, pos s r = None.
Proof. intros f s H. remember (begin f) as s0 eqn:E. induction H; subst; [right; auto|left; eapply good_step; eauto]. Qed.
Lemma pos_in : forall f s, steps z size text (begin f) s -> forall r p, pos s r = Some p -> r < size.
Proof.
intros f s H. remember (begin f) as s0 eqn:E. induction H as [|s s' s'' H IH St]; subst; [discriminate|]. specialize (IH eq_refl).
intros q p Hp. destruct St as [r Hr Hn|r p' k Hr Hp' Hk Hl]; cbn in Hp; unfold set in Hp; destruct (Nat.eqb_spec q r); subst; auto; eapply IH; eauto.
Qed.
End Proofs.
(* whatever was in the file, however many processes write it and however their openings and pieces interleave, it holds the text when all are done *)
Theorem C141_parameter_file_complete : forall (A : Type) (z : A) size text f s, 0 < size ->
  steps z size text (begin f) s -> all_closed size text s -> content (shared s) = text.
Proof.
intros A z size text f s Hs H Hc. destruct (good_steps H) as [[q [p [Hq [Hlen Hat]]]]|Hn]; [|specialize (Hc 0 Hs); rewrite Hn in Hc; discriminate].
assert (Hqs := pos_in H q Hq). rewrite (Hc q Hqs) in Hq. injection Hq; intros; subst p. unfold content.
assert (El : len (shared s) = length text) by lia. rewrite El. apply nth_ext with (d := z) (d' := z); [rewrite map_length, seq_length; auto|].
intros i Hi. rewrite map_length, seq_length in Hi. rewrite nth_indep with (d' := at_ (shared s) 0) by (rewrite map_length, seq_length; auto).
rewrite map_nth, seq_nth by auto. apply Hat; auto.
Qed.
Print Assumptions C141_parameter_file_complete.
(* before that it need not: a late opening leaves a hole in front of what the other process goes on to write *)
Theorem C141_incomplete_before_the_end_refuted : exists s, steps 0 2 [7; 8] (begin (truncated 0)) s /\ pos s 0 = Some 2 /\ content (shared s) = [0; 8].
Proof.
eexists. split; [|split].
- eapply ss_S; [eapply ss_S; [eapply ss_S; [eapply ss_S; [apply ss_0|]|]|]|].
  + apply (@s_open nat 0 2 [7; 8] (begin (truncated 0)) 0); auto.
  + eapply (@s_write nat 0 2 [7; 8] _ 0 0 1); cbn; auto; lia.
  + eapply (@s_open nat 0 2 [7; 8] _ 1); cbn; auto.
  + eapply (@s_write nat 0 2 [7; 8] _ 0 1 1); cbn; auto; lia.
- reflexivity.
- reflexivity.
Qed.
Print Assumptions C141_incomplete_before_the_end_refuted.

(* a finished run of two processes over a file that held other text: the second opens late and rewrites what the first had written *)
Example C141_nonvacuous : exists s, steps 0 2 [7; 8] (begin {| len := 3; at_ := fun _ => 5 |}) s /\ all_closed 2 [7; 8] s /\ content (shared s) = [7; 8].
Proof.
eexists. split; [|split].
- eapply ss_S; [eapply ss_S; [eapply ss_S; [eapply ss_S; [eapply ss_S; [apply ss_0|]|]|]|]|].
  + apply (@s_open nat 0 2 [7; 8] (begin {| len := 3; at_ := fun _ => 5 |}) 0); auto.
  + eapply (@s_write nat 0 2 [7; 8] _ 0 0 1); cbn; auto; lia.
  + eapply (@s_open nat 0 2 [7; 8] _ 1); cbn; auto.
  + eapply (@s_write nat 0 2 [7; 8] _ 0 1 1); cbn; auto; lia.
  + eapply (@s_write nat 0 2 [7; 8] _ 1 0 2); cbn; auto; lia.
- intros q Hq. destruct q as [|[|q]]; [reflexivity|reflexivity|lia].
- reflexivity.
Qed.
