(* C129: which weights the emulation predicts with. *)
From Coq Require Import String QArith Lqa.
From Verif Require Import Base_List Model_Base Proof_Names Model_Train.
Set Implicit Arguments.
Local Open Scope nat_scope.

(* ---- specification ---- *)
Section Spec.
Variables N W D : Type.
Variable fit_epoch : N -> D -> N * option Q.
(* the network after k epochs on d, and the loss reported after epoch k (counted from 0) *)
Fixpoint after (k : nat) (net : N) (d : D) : N := match k with 0 => net | S k => fst (fit_epoch (after k net d) d) end.
Definition loss (net : N) (d : D) (k : nat) : option Q := snd (fit_epoch (after k net d) d).
(* epoch k is the first with the smallest loss among the epochs with a finite one *)
Definition best_epoch (epochs : nat) (net : N) (d : D) (k : nat) : Prop :=
  k < epochs /\ exists x, loss net d k = Some x /\
  (forall j y, j < epochs -> loss net d j = Some y -> (x <= y)%Q) /\ (forall j y, j < k -> loss net d j = Some y -> (x < y)%Q).
Definition trains (idx : Z) (e : event N D) : Prop := match e with Train _ i _ _ => i = idx | _ => False end.
End Spec.
Arguments trains {N D}.

Section Proof.
Variables N W D : Type.
Variable fit_epoch : N -> D -> N * option Q.
Variable weights : N -> W.
Variable load_weights : N -> W -> N.
Variable epochs : nat.
Notation after := (after fit_epoch). Notation loss := (loss fit_epoch). Notation fit := (fit fit_epoch weights).
Notation run := (run fit_epoch weights load_weights epochs). Notation step := (step fit_epoch weights load_weights epochs).

Lemma after_S k net d : after (S k) net d = after k (fst (fit_epoch net d)) d.
Proof. induction k as [|k IH]; [reflexivity|]. cbn [Prop_Train.after] in *. now rewrite IH. Qed.
Lemma loss_S k net d : loss net d (S k) = loss (fst (fit_epoch net d)) d k.
Proof. unfold Prop_Train.loss. now rewrite after_S. Qed.
Lemma fit_net n : forall net d best file, fst (fit n net d best file) = after n net d.
Proof using fit_epoch weights. clear load_weights epochs.
  induction n as [|n IH]; intros net d best file; [reflexivity|]. rewrite after_S. cbn [Model_Train.fit]. destruct (fit_epoch net d) as [net' l].
  destruct l as [x|]; [destruct (improves x best)|]; apply IH.
Qed.
(* no epoch improves on best *)
Lemma fit_none n : forall net d best file, (forall j y, j < n -> loss net d j = Some y -> improves y best = false) ->
  snd (fit n net d best file) = file.
Proof using fit_epoch weights. clear load_weights epochs.
  induction n as [|n IH]; intros net d best file H; [reflexivity|]. cbn [Model_Train.fit].
  assert (H0 := H 0). assert (HS : forall j y, j < n -> loss (fst (fit_epoch net d)) d j = Some y -> improves y best = false).
  { intros j y Hj E. apply (H (S j)); [lia|]. now rewrite loss_S. }
  unfold Prop_Train.loss in H0. cbn [Prop_Train.after] in H0. destruct (fit_epoch net d) as [net' l]. cbn [fst snd] in *.
  destruct l as [x|]; [|now apply IH]. rewrite (H0 x) by (reflexivity || lia). now apply IH.
Qed.
Lemma improves_lt x b : improves x (Some b) = true <-> (x < b)%Q.
Proof using. clear.
  cbn. rewrite Bool.negb_true_iff, <- Bool.not_true_iff_false, Qle_bool_iff. split; intros H; [now apply Qnot_le_lt|now apply Qlt_not_le].
Qed.
Lemma fit_best n : forall net d best file k x, k < n -> loss net d k = Some x -> improves x best = true ->
  (forall j y, j < n -> loss net d j = Some y -> (x <= y)%Q) -> (forall j y, j < k -> loss net d j = Some y -> (x < y)%Q) ->
  snd (fit n net d best file) = Some (weights (after (S k) net d)).
Proof using fit_epoch weights. clear load_weights epochs.
  induction n as [|n IH]; intros net d best file k x Hk Hx Hb Hmin Hfst; [lia|].
  rewrite after_S. cbn [Model_Train.fit].
  assert (HminS : forall j y, j < n -> loss (fst (fit_epoch net d)) d j = Some y -> (x <= y)%Q).
  { intros j y Hj E. apply (Hmin (S j)); [lia|]. now rewrite loss_S. }
  destruct k as [|k].
  - assert (E : snd (fit_epoch net d) = Some x) by exact Hx.
    destruct (fit_epoch net d) as [net' l]. cbn [fst snd] in *. subst l. rewrite Hb.
    rewrite fit_none; [reflexivity|]. intros j y Hj E. apply Bool.not_true_iff_false. rewrite improves_lt. apply Qle_not_lt. now apply (HminS j).
  - rewrite loss_S in Hx.
    assert (Hfst0 := Hfst 0). unfold Prop_Train.loss in Hfst0 at 1. cbn [Prop_Train.after] in Hfst0.
    assert (HfstS : forall j y, j < k -> loss (fst (fit_epoch net d)) d j = Some y -> (x < y)%Q).
    { intros j y Hj E. apply (Hfst (S j)); [lia|]. now rewrite loss_S. }
    destruct (fit_epoch net d) as [net' l]. cbn [fst snd] in *.
    destruct l as [y|]; [|apply (IH net' d best file k x); auto; lia].
    destruct (improves y best); [|apply (IH net' d best file k x); auto; lia].
    apply (IH net' d (Some y) _ k x); auto; try lia. apply improves_lt. apply Hfst0; [lia|reflexivity].
Qed.

Lemma weight_file_inj p q i j : weight_file p i = weight_file q j -> String.length p = 4 -> String.length q = 4 -> p = q /\ i = j.
Proof using. clear.
  unfold weight_file. intros H Hp Hq.
  assert (H1 : append p (py_str i) = append q (py_str j)).
  { revert H. generalize (append p (py_str i)) (append q (py_str j)). intros s t H.
    assert (L : String.length s = String.length t).
    { apply (f_equal String.length) in H. revert H. clear. 
      assert (A : forall a b, String.length (append a b) = String.length a + String.length b).
      { induction a as [|c a IH]; intros b; cbn; [reflexivity|now rewrite IH]. }
      rewrite !A. lia. }
    revert t H L. induction s as [|c s IH]; intros [|e t] H L; try discriminate; [reflexivity|]. cbn in H. injection H as -> H. f_equal. apply IH; [exact H|]. now injection L. }
  destruct p as [|a1 [|a2 [|a3 [|a4 [|]]]]]; try discriminate. destruct q as [|b1 [|b2 [|b3 [|b4 [|]]]]]; try discriminate.
  cbn [append] in H1. injection H1 as -> -> -> -> H1. split; [reflexivity|now apply py_str_inj].
Qed.

Lemma train_part_ok s o part idx d net : nets s o = Some net ->
  exists s', train_part fit_epoch weights epochs s o part idx d = Ok s' /\ nets s' o = Some (after epochs net d) /\
  folder s' (weight_file part idx) = snd (fit epochs net d None (folder s (weight_file part idx))) /\
  (forall n, n <> weight_file part idx -> folder s' n = folder s n).
Proof.
  intros H. unfold train_part. rewrite H. assert (F := fit_net epochs net d None (folder s (weight_file part idx))).
  destruct (fit epochs net d None (folder s (weight_file part idx))) as [net' w]. cbn [fst snd] in *.
  eexists. split; [reflexivity|]. cbn [nets folder]. unfold put, write. rewrite Nat.eqb_refl, String.eqb_refl. repeat split.
  - now rewrite F.
  - intros n Hn. now apply String.eqb_neq in Hn as ->.
Qed.

(* files of other indices are not touched *)
Lemma train_part_other s o part idx d s' n : train_part fit_epoch weights epochs s o part idx d = Ok s' -> n <> weight_file part idx -> folder s' n = folder s n.
Proof.
  unfold train_part. destruct (nets s o); [|discriminate]. destruct (fit _ _ _ _ _) as [net' w]. intros E Hn. injection E as <-.
  cbn [folder]. unfold write. now apply String.eqb_neq in Hn as ->.
Qed.
Lemma step_other s e idx part : ~ trains idx e -> part = "real"%string \/ part = "imag"%string ->
  folder (step s e) (weight_file part idx) = folder s (weight_file part idx).
Proof.
  intros Hn Hp. assert (L : String.length part = 4) by (destruct Hp as [-> | ->]; reflexivity).
  destruct e as [o net|o i re im|o i c]; cbn [Model_Train.step]; [reflexivity| |].
  - assert (Hi : idx <> i) by (intros ->; apply Hn; reflexivity).
    unfold model_train. destruct (train_part _ _ _ _ _ "real" _ _) as [s1|] eqn:E1; cbn [bind]; [|reflexivity].
    assert (F1 : folder s1 (weight_file part idx) = folder s (weight_file part idx)).
    { eapply train_part_other; [exact E1|]. intros E. apply weight_file_inj in E as [_ E]; auto. }
    destruct im as [d|]; [|exact F1]. destruct (train_part _ _ _ s1 _ "imag" _ _) as [s2|] eqn:E2; [|reflexivity].
    rewrite <- F1. eapply train_part_other; [exact E2|]. intros E. apply weight_file_inj in E as [_ E]; auto.
  - unfold load. destruct (nets s o) as [net|]; [|reflexivity]. destruct (folder s (weight_file "real" i)) as [w|]; [|reflexivity].
    destruct c; [|reflexivity]. cbn [fst nets folder]. destruct (put _ _ _ _); [|reflexivity]. destruct (folder s (weight_file "imag" i)); reflexivity.
Qed.
Lemma run_other evs : forall s idx part, (forall e, In e evs -> ~ trains idx e) -> part = "real"%string \/ part = "imag"%string ->
  folder (run s evs) (weight_file part idx) = folder s (weight_file part idx).
Proof.
  induction evs as [|e evs IH]; intros s idx part H Hp; [reflexivity|].
  change (run s (e :: evs)) with (run (step s e) evs). rewrite IH; [|intros; apply H; now right|exact Hp].
  apply step_other; [apply H; now left|exact Hp].
Qed.
Lemma run_app s a b : run s (a ++ b) = run (run s a) b.
Proof. apply fold_left_app. Qed.
Lemma real_ne_imag i j : weight_file "real" i <> weight_file "imag" j.
Proof. intros H. apply weight_file_inj in H as [H _]; [discriminate|reflexivity|reflexivity]. Qed.
End Proof.

(* ---- C129 ---- *)
(* Inference for an index, by any object, after any further history without training of that index, predicts the real part with the
   weights of the best epoch of the training (not of the last epoch), starting from the network the object had before. *)
Theorem C129_real_part_uses_best_epoch : forall N W D fit_epoch (weights : N -> W) load_weights epochs s before o idx (re : D) im rest net k,
  let run := run fit_epoch weights load_weights epochs in
  nets (run s before) o = Some net -> best_epoch fit_epoch epochs net re k ->
  (forall e, In e rest -> ~ trains idx e) ->
  let t := run s (before ++ Train o idx re im :: rest) in
  forall o', nets t o' <> None ->
  exists t', model_inference load_weights t o' idx false = Ok (t', (weights (after fit_epoch (S k) net re), None)).
Proof.
  intros N W D fit_epoch weights load_weights epochs s before o idx re im rest net k run0 Hnet [Hk [x [Hx [Hmin Hfst]]]] Hrest t o' Ho.
  assert (F : folder t (weight_file "real" idx) = Some (weights (after fit_epoch (S k) net re))).
  { unfold t, run0. rewrite run_app. change (?a :: ?b) with ([a] ++ b) at 1. rewrite run_app. rewrite run_other; [|exact Hrest|now left].
    change (Model_Train.run fit_epoch weights load_weights epochs s before) with (run0 s before). set (sb := run0 s before) in *. clearbody sb.
    cbn [Model_Train.run fold_left Model_Train.step]. unfold model_train.
    destruct (train_part_ok fit_epoch weights epochs _ o "real" idx re Hnet) as [s1 [E1 [N1 [F1 O1]]]].
    rewrite E1. cbn [bind].
    assert (G : folder s1 (weight_file "real" idx) = Some (weights (after fit_epoch (S k) net re))).
    { rewrite F1. apply (@fit_best N W D fit_epoch weights epochs net re None _ k x Hk Hx); [reflexivity|exact Hmin|exact Hfst]. }
    destruct im as [d|]; [|exact G].
    destruct (train_part_ok fit_epoch weights epochs s1 o "imag" idx d N1) as [s2 [E2 [N2 [F2 O2]]]]. rewrite E2.
    rewrite O2; [exact G|apply real_ne_imag]. }
  unfold model_inference, load. destruct (nets t o'); [|contradiction]. rewrite F. cbn [bind]. eexists. reflexivity.
Qed.
Print Assumptions C129_real_part_uses_best_epoch.

(* The imaginary part is trained from the network reached at the last epoch of the real part, and predicted with the best epoch of
   its own training. *)
Theorem C129_imaginary_part_uses_best_epoch : forall N W D fit_epoch (weights : N -> W) load_weights epochs s before o idx (re im : D) rest net k k',
  let run := run fit_epoch weights load_weights epochs in
  nets (run s before) o = Some net -> best_epoch fit_epoch epochs net re k ->
  let net' := after fit_epoch epochs net re in
  best_epoch fit_epoch epochs net' im k' ->
  (forall e, In e rest -> ~ trains idx e) ->
  let t := run s (before ++ Train o idx re (Some im) :: rest) in
  forall o', nets t o' <> None ->
  exists t', model_inference load_weights t o' idx true =
    Ok (t', (weights (after fit_epoch (S k) net re), Some (weights (after fit_epoch (S k') net' im)))).
Proof.
  intros N W D fit_epoch weights load_weights epochs s before o idx re im rest net k k' run0 Hnet Hb net' [Hk' [y [Hy [Hmin' Hfst']]]] Hrest t o' Ho.
  destruct (C129_real_part_uses_best_epoch weights load_weights s before o idx (Some im) rest Hnet Hb Hrest o' Ho) as [t1 E1].
  fold run0 in E1. fold t in E1.
  assert (F : folder t (weight_file "imag" idx) = Some (weights (after fit_epoch (S k') net' im))).
  { unfold t, run0. rewrite run_app. change (?a :: ?b) with ([a] ++ b) at 1. rewrite run_app. rewrite run_other; [|exact Hrest|now right].
    change (Model_Train.run fit_epoch weights load_weights epochs s before) with (run0 s before). set (sb := run0 s before) in *. clearbody sb.
    cbn [Model_Train.run fold_left Model_Train.step]. unfold model_train.
    destruct (train_part_ok fit_epoch weights epochs _ o "real" idx re Hnet) as [s1 [E2 [N1 [F1 O1]]]].
    rewrite E2. cbn [bind].
    destruct (train_part_ok fit_epoch weights epochs s1 o "imag" idx im N1) as [s2 [E3 [N2 [F2 O2]]]]. rewrite E3, F2.
    apply (@fit_best N W D fit_epoch weights epochs net' im None _ k' y Hk' Hy); [reflexivity|exact Hmin'|exact Hfst']. }
  unfold model_inference in *. unfold load in *. destruct (nets t o') as [no|]; [|contradiction]. destruct (folder t (weight_file "real" idx)) as [w|]; [|discriminate].
  cbn [bind fst snd nets folder] in *. injection E1 as E1 E1'. subst w. unfold put at 1. rewrite Nat.eqb_refl, F. cbn [bind fst snd]. eexists. reflexivity.
Qed.
Print Assumptions C129_imaginary_part_uses_best_epoch.

(* A training in which every loss is nan or inf (or that runs no epoch) keeps the weights of the previous one: nothing tells the user. *)
Theorem C129_failed_training_keeps_old_weights : forall N W D fit_epoch (weights : N -> W) load_weights epochs s o idx (re : D) im net,
  nets s o = Some net -> (forall j, j < epochs -> loss fit_epoch net re j = None) ->
  let t := step fit_epoch weights load_weights epochs s (Train o idx re im) in
  folder t (weight_file "real" idx) = folder s (weight_file "real" idx) /\ exists t', model_train fit_epoch weights epochs s o idx re im = Ok t'.
Proof.
  intros N W D fit_epoch weights load_weights epochs s o idx re im net Hnet Hl t. unfold t. cbn [step]. unfold model_train.
  destruct (train_part_ok fit_epoch weights epochs s o "real" idx re Hnet) as [s1 [E1 [N1 [F1 O1]]]]. rewrite E1. cbn [bind].
  assert (G : folder s1 (weight_file "real" idx) = folder s (weight_file "real" idx)).
  { rewrite F1. apply fit_none. intros j y Hj E. rewrite (Hl j Hj) in E. discriminate. }
  destruct im as [d|]; [|split; [exact G|now exists s1]].
  destruct (train_part_ok fit_epoch weights epochs s1 o "imag" idx d N1) as [s2 [E2 [N2 [F2 O2]]]]. rewrite E2.
  split; [|now exists s2]. rewrite O2; [exact G|apply real_ne_imag].
Qed.
Print Assumptions C129_failed_training_keeps_old_weights.

(* expectation: a training replaces both networks of its index.  Training on real data leaves the network of the imaginary part of an
   earlier training (or none), which inference on complex data then combines with the new real one (or fails). *)
Theorem C129_stale_imaginary_part_refuted : forall N W D fit_epoch (weights : N -> W) load_weights epochs s o idx (re : D) net k,
  nets s o = Some net -> best_epoch fit_epoch epochs net re k ->
  let t := step fit_epoch weights load_weights epochs s (Train o idx re None) in
  match folder s (weight_file "imag" idx) with
  | Some old => exists t', model_inference load_weights t o idx true = Ok (t', (weights (after fit_epoch (S k) net re), Some old))
  | None => model_inference load_weights t o idx true = Err OSError
  end.
Proof.
  intros N W D fit_epoch weights load_weights epochs s o idx re net k Hnet Hb t.
  assert (Hnt : nets t o <> None /\ folder t (weight_file "imag" idx) = folder s (weight_file "imag" idx)).
  { unfold t. cbn [step]. unfold model_train. destruct (train_part_ok fit_epoch weights epochs s o "real" idx re Hnet) as [s1 [E1 [N1 [F1 O1]]]].
    rewrite E1. cbn [bind]. rewrite N1. split; [discriminate|]. apply O1. intros E. symmetry in E. now apply real_ne_imag in E. }
  destruct Hnt as [Hnt Hf].
  destruct (C129_real_part_uses_best_epoch weights load_weights s [] o idx None [] Hnet Hb (fun _ F => match F with end) o Hnt) as [t1 E1].
  cbn [app run fold_left] in E1. fold t in E1. rewrite <- Hf.
  unfold model_inference, load in *. destruct (nets t o); [|contradiction]. destruct (folder t (weight_file "real" idx)); [|discriminate].
  cbn [bind fst snd nets folder] in *. injection E1 as E1 E1'. subst w. unfold put. rewrite Nat.eqb_refl.
  destruct (folder t (weight_file "imag" idx)); cbn [bind fst snd]; [eexists|]; reflexivity.
Qed.
Print Assumptions C129_stale_imaginary_part_refuted.

(* expectation: inference is an observation.  It loads weights into the network later trainings start from: there are a training routine
   and histories differing only in an inference after which a later prediction differs. *)
Definition count_up (n : nat) (_ : unit) : nat * option Q := (S n, Some 0%Q).
Theorem C129_inference_is_an_observation_refuted :
  let run := run count_up (fun n => n) (fun _ w => w) 2 (St (fun _ => None) (fun _ => None)) in
  let pre := [Initialize 0 0; Train 0 0%Z tt None] in
  let post := [Train 0 1%Z tt None] in
  exists w w' t t', model_inference (fun _ w => w) (run (pre ++ post)) 0 1%Z false = Ok (t, (w, None)) /\
    model_inference (fun _ w => w) (run (pre ++ Infer 0 0%Z false :: post)) 0 1%Z false = Ok (t', (w', None)) /\ w <> w'.
Proof. do 4 eexists. split; [reflexivity|]. split; [reflexivity|]. vm_compute. discriminate. Qed.
Print Assumptions C129_inference_is_an_observation_refuted.

(* losses nan, 3, 1, 2, 1: the third epoch is kept *)
Definition sample (n : nat) (_ : unit) : nat * option Q := (S n, nth n [None; Some 3; Some 1; Some 2; Some 1]%Q None).
Example C129_nonvacuous : best_epoch sample 5 0 tt 2 /\
  folder (run sample (fun n => n) (fun _ w => w) 5 (St (fun _ => None) (fun _ => None)) [Initialize 0 0; Train 0 7%Z tt None]) "real7.weights.h5" = Some 3.
Proof.
  split; [|reflexivity]. split; [lia|]. exists 1%Q. split; [reflexivity|]. split; intros j y Hj.
  - do 5 (destruct j as [|j]; [cbn; intros E; try discriminate; injection E as <-; lra|]). lia.
  - do 2 (destruct j as [|j]; [cbn; intros E; try discriminate; injection E as <-; lra|]). lia.
Qed.
