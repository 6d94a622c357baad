(* Proofs: Fourier block files and crash points. *)
From Coq Require Import String.
From Verif Require Import Base_List Model_Parallel Spec_Array Proof_Parallel Proof_Npy2 Spec_Reader Model_Reader2 Model_Base
  Proof_Names Proof_Weights Proof_Reader2b Model_Standard.
Local Open Scope nat_scope.
Set Implicit Arguments.

Lemma count_fold {A} (c : A -> bool) l a : fold_left (fun a x => if c x then a + 1 else a) l a = a + length (filter c l).
Proof.
  revert a; induction l as [|x l IH]; intros a; cbn [fold_left filter]; [cbn; lia|].
  rewrite IH. destruct (c x); cbn; lia.
Qed.
Lemma filter_length_le' {A} (c : A -> bool) l : length (filter c l) <= length l.
Proof. induction l as [|x l IH]; cbn; [lia|]. destruct (c x); cbn; lia. Qed.
Lemma NoDup_app' {A} (l l' : list A) : NoDup l -> NoDup l' -> (forall x, In x l -> In x l' -> False) -> NoDup (l ++ l').
Proof.
  induction 1 as [|x l Hx H IH]; intros H' Hd; cbn [app]; [assumption|]. constructor.
  - intros Hi. apply in_app_or in Hi as [Hi|Hi]; [contradiction|]. apply (Hd x); [now left|assumption].
  - apply IH; [assumption|]. intros y Hy. apply Hd. now right.
Qed.
Lemma NoDup_app_l {A} (l l' : list A) : NoDup (l ++ l') -> NoDup l.
Proof.
  induction l as [|x l IH]; intros H; [constructor|]. cbn in H. inversion H as [|? ? Hx H']; subst. constructor.
  - intros Hi. apply Hx. apply in_or_app. now left.
  - now apply IH.
Qed.
Lemma filter_full {A} (c : A -> bool) l : length (filter c l) = length l <-> forall x, In x l -> c x = true.
Proof.
  induction l as [|x l IH]; cbn [filter length]; [firstorder|].
  pose proof (filter_length_le' c l) as Hle. destruct (c x) eqn:E; cbn [length].
  - split.
    + intros H y [<-|Hy]; [assumption|]. apply IH; [lia|assumption].
    + intros H. f_equal. apply IH. intros y Hy. apply H. now right.
  - split; [lia|]. intros H. rewrite H in E by now left. discriminate.
Qed.

Lemma present_iff {X} (m : fs X) nb nf : are_blocks_present m nb nf = true <->
  forall b f, b < nb -> f < nf -> m (block_file b f) <> None.
Proof.
  unfold are_blocks_present.
  set (g := fun i_blk => fold_left (fun a i_freq => if exists_file m (block_file i_blk i_freq) then a + 1 else a) (seq 0 nf) 0 =? nf).
  change (fold_left _ (seq 0 nb) 0) with (fold_left (fun a x => if g x then a + 1 else a) (seq 0 nb) 0).
  rewrite count_fold. cbn [plus]. rewrite Nat.eqb_eq. rewrite <- (seq_length nb 0) at 2. rewrite filter_full. split.
  - intros H b f Hb Hf. specialize (H b ltac:(apply in_seq; lia)). unfold g in H.
    rewrite count_fold in H. cbn [plus] in H. apply Nat.eqb_eq in H. rewrite <- (seq_length nf 0) in H at 2.
    rewrite filter_full in H. specialize (H f ltac:(apply in_seq; lia)). unfold exists_file in H.
    destruct (m (block_file b f)); congruence.
  - intros H b Hb. apply in_seq in Hb. unfold g. rewrite count_fold. cbn [plus]. apply Nat.eqb_eq.
    rewrite <- (seq_length nf 0) at 2. apply filter_full. intros f Hf. apply in_seq in Hf.
    specialize (H b f ltac:(lia) ltac:(lia)). unfold exists_file. destruct (m (block_file b f)); congruence.
Qed.

Definition op_name {X} (o : fs_op X) : string := match o with Create k => k | Write k _ => k end.
Lemma fs_set_same {X} (m : fs X) k v : fs_set m k v k = Some v.
Proof. unfold fs_set. now rewrite String.eqb_refl. Qed.
Lemma fs_set_other {X} (m : fs X) k v k' : k' <> k -> fs_set m k v k' = m k'.
Proof. intros H. unfold fs_set. now destruct (String.eqb_spec k' k). Qed.
Lemma run_other {X} (os : list (fs_op X)) m k : (forall o, In o os -> op_name o <> k) -> fs_run m os k = m k.
Proof.
  unfold fs_run. revert m; induction os as [|o os IH]; intros m H; cbn [fold_left]; [reflexivity|].
  rewrite IH by (intros; apply H; now right). specialize (H o (or_introl eq_refl)).
  destruct o; cbn [fs_step op_name] in *; apply fs_set_other; congruence.
Qed.
Lemma run_app {X} (o1 o2 : list (fs_op X)) m : fs_run m (o1 ++ o2) = fs_run (fs_run m o1) o2.
Proof. apply fold_left_app. Qed.

Lemma expected_In nb nf b f : In (b, f) (expected nb nf) <-> b < nb /\ f < nf.
Proof. unfold expected. rewrite in_prod_iff, !in_seq. lia. Qed.
Lemma NoDup_list_prod {A B} (l : list A) (l' : list B) : NoDup l -> NoDup l' -> NoDup (list_prod l l').
Proof.
  intros H H'. induction H as [|x l Hx H IH]; cbn [list_prod]; [constructor|].
  apply NoDup_app'.
  - apply FinFun.Injective_map_NoDup; [|assumption]. intros a b E. congruence.
  - exact IH.
  - intros [a b] Ha Hb. apply in_map_iff in Ha as (y & E & _). injection E as <- <-.
    apply in_prod_iff in Hb as [Hb _]. contradiction.
Qed.
Lemma expected_NoDup nb nf : NoDup (expected nb nf).
Proof. apply NoDup_list_prod; apply seq_NoDup. Qed.

Section Save.
Context {X : Type}.
Variables (mid : nat -> nat -> list X) (qhat : nat -> nat -> X).
Notation one := (save_one mid qhat).
Definition name (e : nat * nat) := block_file (fst e) (snd e).
Lemma name_inj e e' : name e = name e' -> e = e'.
Proof. intros H. apply block_file_inj in H as [H1 H2]. destruct e, e'; cbn in *; congruence. Qed.
Lemma one_names e o : In o (one e) -> op_name o = name e.
Proof.
  unfold save_one. cbn [In]. intros [<-|H]; [reflexivity|]. apply in_app_or in H as [H|[<-|[]]]; [|reflexivity].
  apply in_map_iff in H as (x & <- & _). reflexivity.
Qed.
Lemma run_one m e : fs_run m (one e) (name e) = Some (Some (qhat (fst e) (snd e))).
Proof.
  unfold save_one. change (?a :: ?b ++ ?c) with ((a :: b) ++ c). rewrite run_app. cbn [fs_run fold_left fs_step].
  apply fs_set_same.
Qed.
Lemma run_not_in m es e : ~ In e es -> fs_run m (flat_map one es) (name e) = m (name e).
Proof.
  intros H. apply run_other. intros o Ho. apply in_flat_map in Ho as (e' & He & Ho). apply one_names in Ho.
  rewrite Ho. intros E. apply name_inj in E. congruence.
Qed.
Lemma run_all m es e : NoDup es -> In e es -> fs_run m (flat_map one es) (name e) = Some (Some (qhat (fst e) (snd e))).
Proof.
  revert m; induction es as [|x es IH]; intros m Hn Hin; [destruct Hin|]. cbn [flat_map]. rewrite run_app.
  inversion Hn as [|? ? Hni Hn']; subst. destruct Hin as [->|Hin].
  - rewrite run_not_in by assumption. apply run_one.
  - now apply IH.
Qed.
Lemma firstn_flat_map n es : (exists es1 e es2 k, es = es1 ++ e :: es2 /\ k < length (one e) /\
     firstn n (flat_map one es) = flat_map one es1 ++ firstn k (one e)) \/ firstn n (flat_map one es) = flat_map one es.
Proof.
  revert n; induction es as [|x es IH]; intros n; [right; now destruct n|]. cbn [flat_map].
  destruct (Nat.lt_ge_cases n (length (one x))) as [H|H].
  - left. exists [], x, es, n. split; [reflexivity|]. split; [assumption|].
    rewrite firstn_app. replace (n - length (one x)) with 0 by lia. cbn. now rewrite app_nil_r.
  - rewrite firstn_app, firstn_all2 by lia. destruct (IH (n - length (one x))) as [(es1 & e & es2 & k & E & Hk & E2)|E].
    + left. exists (x :: es1), e, es2, k. split; [now rewrite E|]. split; [assumption|].
      cbn [flat_map]. now rewrite E2, app_assoc.
    + right. now rewrite E.
Qed.
(* a crash: the first n file operations of the writing run were carried out, from an empty folder *)
Definition crashed (n nb nf : nat) : fs X := fs_run (fun _ => None) (firstn n (save_ops nb nf mid qhat)).

Lemma crash_accepted n nb nf : are_blocks_present (crashed n nb nf) nb nf = true ->
  forall b f, b < nb -> f < nf -> (b, f) <> (nb - 1, nf - 1) -> crashed n nb nf (block_file b f) = Some (Some (qhat b f)).
Proof.
  intros Hp b f Hb Hf Hlast. unfold crashed, save_ops in *.
  pose proof (@expected_NoDup nb nf) as Hnd.
  destruct (firstn_flat_map n (expected nb nf)) as [(es1 & e & es2 & k & E & Hk & E2)|E2]; rewrite E2 in *.
  - assert (Hes2 : es2 = []).
    { destruct es2 as [|e2 es2]; [reflexivity|exfalso].
      assert (Hin : In e2 (expected nb nf)) by (rewrite E; apply in_or_app; right; right; now left).
      destruct e2 as [b2 f2]. pose proof Hin as Hin'. apply expected_In in Hin as [Hb2 Hf2].
      rewrite present_iff in Hp. apply (Hp b2 f2 Hb2 Hf2). change (block_file b2 f2) with (name (b2, f2)).
      rewrite run_app. rewrite E in Hnd. apply NoDup_remove in Hnd as [Hnd Hne].
      assert (Hn2 : ~ In (b2, f2) es1).
      { intros H. apply NoDup_remove_2 in Hnd. apply Hnd. apply in_or_app. now left. }
      rewrite run_other.
      - rewrite run_not_in by assumption. reflexivity.
      - intros o Ho. assert (Ho' : In o (one e)) by (rewrite <- (firstn_skipn k (one e)); apply in_or_app; now left).
        apply one_names in Ho'. rewrite Ho'. intros Ex. apply name_inj in Ex. subst e. apply Hne. apply in_or_app. right. now left. }
    subst es2.
    assert (Ee : e = (nb - 1, nf - 1)).
    { assert (El : last (expected nb nf) (0, 0) = e) by (rewrite E; apply last_last).
      rewrite <- El. unfold expected. destruct nb as [|nb']; [lia|]. destruct nf as [|nf']; [lia|].
      rewrite (seq_S nb' 0). cbn [plus]. rewrite (Nat.sub_succ nb'), Nat.sub_0_r.
      assert (Ea : forall (l : list nat) x (l' : list nat), list_prod (l ++ [x]) l' = list_prod l l' ++ map (fun y => (x, y)) l').
      { induction l as [|y l IHl]; intros x l'; cbn [list_prod app]; [now rewrite app_nil_r|]. rewrite IHl. now rewrite app_assoc. }
      rewrite Ea, (seq_S nf' 0), map_app, app_assoc. cbn [map plus]. rewrite last_last. f_equal. lia. }
    assert (Hin : In (b, f) es1).
    { assert (Hi : In (b, f) (expected nb nf)) by (apply expected_In; lia). rewrite E in Hi.
      apply in_app_or in Hi as [Hi|[Hi|[]]]; [assumption|congruence]. }
    rewrite run_app. rewrite run_other.
    + change (block_file b f) with (name (b, f)). apply (run_all (fun _ => None)); [|assumption].
      rewrite E in Hnd. eapply NoDup_app_l. exact Hnd.
    + intros o Ho. assert (Ho' : In o (one e)) by (rewrite <- (firstn_skipn k (one e)); apply in_or_app; now left).
      apply one_names in Ho'. rewrite Ho'. intros Ex. change (block_file b f) with (name (b, f)) in Ex.
      apply name_inj in Ex. congruence.
  - change (block_file b f) with (name (b, f)). apply (run_all (fun _ => None)); [assumption|]. apply expected_In; lia.
Qed.

Lemma load_ok (m : fs X) nb nf : (forall b f, b < nb -> f < nf -> m (block_file b f) = Some (Some (qhat b f))) ->
  load_blocks m nb nf = Ok (map (fun bf => qhat (fst bf) (snd bf)) (expected nb nf)).
Proof.
  intros H. unfold load_blocks. apply all_ok_map. intros [b f] Hin. apply expected_In in Hin as [Hb Hf].
  cbn [fst snd]. now rewrite H.
Qed.
End Save.
