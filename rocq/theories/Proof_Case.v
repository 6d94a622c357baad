(* str.lower() maps two words to the same one exactly when they differ only in case. *)
From Coq Require Import String Ascii List Arith Lia.
From Verif Require Import Base_List Model_Select Spec_Case.
Import ListNotations.
Set Implicit Arguments.
Local Open Scope string_scope.

Lemma get_lt : forall s i a, get i s = Some a -> i < String.length s.
Proof. induction s as [|b s IH]; intros [|i] a H; cbn in *; try discriminate; [lia|]. apply IH in H. lia. Qed.
Ltac each i := do 26 (destruct i as [|i]; [|]).
Lemma pair_lower i a b : get i capitals = Some a -> get i smalls = Some b -> lower_ascii a = b /\ lower_ascii b = b.
Proof.
  intros Ha Hb. pose proof (get_lt _ _ Ha) as Hi. change (String.length capitals) with 26 in Hi.
  do 26 (destruct i as [|i]; [injection Ha as <-; injection Hb as <-; split; reflexivity|]). lia.
Qed.
Fixpoint pos (a : ascii) (s : string) : nat := match s with EmptyString => 0 | String b s' => if Ascii.eqb a b then 0 else S (pos a s') end.
Definition ok_letter (a : ascii) : bool :=
  if Ascii.eqb a (lower_ascii a) then true else
  match get (pos a capitals) capitals, get (pos a capitals) smalls with
  | Some x, Some y => Ascii.eqb x a && Ascii.eqb y (lower_ascii a) | _, _ => false end.
Lemma all_letters : forall a, ok_letter a = true.
Proof. intros [[] [] [] [] [] [] [] []]; vm_compute; reflexivity. Qed.
Lemma lower_same a : same_letter a (lower_ascii a).
Proof.
  pose proof (all_letters a) as H. unfold ok_letter in H. destruct (Ascii.eqb_spec a (lower_ascii a)) as [E|_]; [now left|].
  right. exists (pos a capitals). destruct (get (pos a capitals) capitals) as [x|] eqn:Ex; [|discriminate].
  destruct (get (pos a capitals) smalls) as [y|] eqn:Ey; [|discriminate]. apply andb_prop in H. destruct H as [H1 H2].
  apply Ascii.eqb_eq in H1, H2. subst. auto.
Qed.
Lemma same_letterE a b : same_letter a b <-> lower_ascii a = lower_ascii b.
Proof.
  split.
  - intros [->|(i & [[Ha Hb]|[Ha Hb]])]; [reflexivity| |].
    + destruct (pair_lower _ Ha Hb) as [-> ->]. reflexivity.
    + destruct (pair_lower _ Hb Ha) as [-> ->]. reflexivity.
  - intros E. destruct (lower_same a) as [Ea|(i & [[Ha Hb]|[Ha Hb]])], (lower_same b) as [Eb|(j & [[Hc Hd]|[Hc Hd]])].
    + left. congruence.
    + right. exists j. right. rewrite <- E in Hd. rewrite Ea. auto.
    + exfalso. destruct (pair_lower _ Hd Hc) as [H1 H2]. destruct (lower_same b) as [F|_].
      * rewrite <- F in Hd. clear -Hc Hd. pose proof (get_lt _ _ Hc) as Hi. change (String.length smalls) with 26 in Hi.
        do 26 (destruct j as [|j]; [cbn in Hc, Hd; congruence|]). lia.
      * rewrite H2 in Hd. clear -Hc Hd. pose proof (get_lt _ _ Hc) as Hi. change (String.length smalls) with 26 in Hi.
        do 26 (destruct j as [|j]; [cbn in Hc, Hd; congruence|]). lia.
    + right. exists i. left. rewrite E in Hb. rewrite <- Eb in Hb. auto.
    + left. rewrite E in Hb. assert (i = j).
      { clear -Hb Hd. pose proof (get_lt _ _ Hb) as Hi. pose proof (get_lt _ _ Hd) as Hj. change (String.length smalls) with 26 in Hi, Hj.
        assert (P : forall i x, get i smalls = Some x -> pos x smalls = i).
        { clear. intros i x H. pose proof (get_lt _ _ H) as Hi. change (String.length smalls) with 26 in Hi.
          do 26 (destruct i as [|i]; [cbn in H; injection H as <-; reflexivity|]). lia. }
        rewrite <- (P _ _ Hb). apply P, Hd. }
      subst j. congruence.
    + exfalso. pose proof (pair_lower _ Hd Hc) as [H1 H2]. rewrite H2 in Hd. clear -Hc Hd. pose proof (get_lt _ _ Hc) as Hi. change (String.length smalls) with 26 in Hi.
        do 26 (destruct j as [|j]; [cbn in Hc, Hd; congruence|]). lia.
    + exfalso. pose proof (pair_lower _ Hb Ha) as [H1 H2]. rewrite H2 in Hb. clear -Ha Hb. pose proof (get_lt _ _ Ha) as Hi. change (String.length smalls) with 26 in Hi.
        do 26 (destruct i as [|i]; [cbn in Ha, Hb; congruence|]). lia.
    + exfalso. pose proof (pair_lower _ Hb Ha) as [H1 H2]. rewrite H2 in Hb. clear -Ha Hb. pose proof (get_lt _ _ Ha) as Hi. change (String.length smalls) with 26 in Hi.
        do 26 (destruct i as [|i]; [cbn in Ha, Hb; congruence|]). lia.
    + exfalso. pose proof (pair_lower _ Hb Ha) as [H1 H2]. rewrite H2 in Hb. clear -Ha Hb. pose proof (get_lt _ _ Ha) as Hi. change (String.length smalls) with 26 in Hi.
        do 26 (destruct i as [|i]; [cbn in Ha, Hb; congruence|]). lia.
Qed.
Lemma same_wordE s t : same_word s t <-> lower s = lower t.
Proof.
  revert t. induction s as [|a s IH]; intros [|b t]; cbn; try (split; [tauto|discriminate]); [tauto|].
  rewrite same_letterE, IH. split; [intros [-> ->]; reflexivity|]. intros H. injection H. auto.
Qed.
Lemma same_wordE' s k : lower k = k -> same_word s k <-> lower s = k.
Proof. intros H. rewrite same_wordE, H. tauto. Qed.
