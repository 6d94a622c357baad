(* C130: what an object shows after fits that return and fits that raise. *)
From Coq Require Import String QArith.
From Verif Require Import Base_List Model_Reader2 Model_Base Model_Object.
Set Implicit Arguments.
Local Open Scope nat_scope.

(* evaluate a fit, arguments first *)
Ltac ev := cbv beta iota zeta delta [Model_Object.fit groups exec option_map pred fst snd o_nt o_xshape o_n_blocks o_weights o_freq o_savedir_sim o_eigs o_n_modes].
Section C130.
Variables (W E : Type) (zeros : nat -> nat -> E) (columns : E -> nat).
Notation attempt := (attempt W E). Notation obj := (obj W E).
Notation fit := (@fit W E zeros columns). Notation history := (@history W E zeros columns).

(* all attributes describe the fit of a *)
Definition describes (p : params) (a : attempt) (o : obj) : Prop :=
  o_nt o = Some (a_nt a) /\ o_xshape o = Some (a_xshape a) /\ o_n_blocks o = Some (blocks p a) /\ o_weights o = Some (w_saved a) /\
  o_freq o = Some (freq_of p a) /\ o_savedir_sim o = Some (folder_of p a) /\ o_eigs o = Some (a_eigs a) /\ o_n_modes o = Some (columns (a_eigs a)).
(* the attributes that hold results *)
Definition results (o : obj) := (o_freq o, o_savedir_sim o, o_eigs o, o_n_modes o).

Lemma fit_cases p o a : feasible p a = true -> (a_raises a = None \/ exists k, a_raises a = Some k /\ 11 <= k) ->
  describes p a (fst (fit p o a)) /\ snd (fit p o a) = true.
Proof.
  intros Hf Hr. unfold describes, Model_Object.fit. destruct o.
  destruct Hr as [-> | [k [-> Hk]]]; [|do 11 (destruct k as [|k]; [lia|])]; ev; rewrite !Hf; repeat split; reflexivity.
Qed.
Lemma fit_fails_early p o a : feasible p a = false \/ (exists k, a_raises a = Some k /\ k <= 6) ->
  results (fst (fit p o a)) = results o /\ snd (fit p o a) = false.
Proof.
  intros H. unfold Model_Object.fit, results. destruct o.
  destruct H as [Hf|[k [-> Hk]]].
  - destruct (a_raises a) as [n|]; [do 5 (destruct n as [|n]; [split; reflexivity|])|]; ev; rewrite ?Hf; split; reflexivity.
  - destruct (feasible p a) eqn:Hf; do 7 (destruct k as [|k]; [ev; rewrite ?Hf; split; reflexivity|]); lia.
Qed.
End C130.

(* A fit that returns: every attribute describes it, whatever happened before, returned or not. *)
Theorem C130_after_a_fit_that_returns : forall W E zeros columns p (before : list (attempt W E)) a,
  let o := history zeros columns p before in
  snd (fit zeros columns p o a) = true ->
  describes columns p a (history zeros columns p (before ++ [a])) /\ feasible p a = true.
Proof.
  intros W E zeros columns p before a o H. unfold history. rewrite fold_left_app. cbn [fold_left]. change (fold_left _ before _) with o.
  assert (F : feasible p a = true).
  { destruct (feasible p a) eqn:Hf; [reflexivity|]. destruct (fit_fails_early zeros columns p o a (or_introl Hf)) as [_ H2]. congruence. }
  split; [|exact F]. apply fit_cases; [exact F|].
  destruct (a_raises a) as [k|] eqn:Ek; [|now left]. right. exists k. split; [reflexivity|].
  destruct (Nat.le_gt_cases 11 k) as [Hk|Hk]; [exact Hk|exfalso]. revert H. clearbody o. unfold fit. rewrite Ek. destruct o.
  do 11 (destruct k as [|k]; [ev; rewrite ?F; discriminate|]). lia.
Qed.
Print Assumptions C130_after_a_fit_that_returns.

(* What the attributes of a fit that returns say, in terms of its record: it holds exactly that many blocks, at least two; the folder lies in the
   chosen directory. Conversely a fit of a record that holds two blocks returns unless something else fails. *)
Theorem C130_what_the_attributes_say : forall W E zeros columns p (before : list (attempt W E)) a,
  p_n_overlap p < p_n_dft p ->
  let o := history zeros columns p before in
  snd (fit zeros columns p o a) = true ->
  exists nb, o_n_blocks (history zeros columns p (before ++ [a])) = Some (Z.of_nat nb) /\ 2 <= nb /\ 4 <= p_n_dft p /\
    (nb - 1) * (p_n_dft p - p_n_overlap p) + p_n_dft p <= a_nt a < nb * (p_n_dft p - p_n_overlap p) + p_n_dft p /\
    o_savedir_sim (history zeros columns p (before ++ [a])) =
      Some (append (append (p_savedir p) "/") (result_folder (Z.of_nat (p_n_dft p)) (Z.of_nat (p_n_overlap p)) (Z.of_nat nb))).
Proof.
  intros W E zeros columns p before a Ho o H. destruct (C130_after_a_fit_that_returns zeros columns p before a H) as [D F].
  destruct D as [_ [_ [-> [_ [_ [-> _]]]]]]. unfold feasible in F. apply Bool.negb_true_iff, Bool.orb_false_iff in F. destruct F as [F1 F2].
  apply Nat.ltb_ge in F1. apply Z.ltb_ge in F2. exists (Z.to_nat (blocks p a)). rewrite Z2Nat.id by lia. split; [reflexivity|]. split; [lia|]. split; [exact F1|].
  split.
  - unfold blocks, n_blocks_of in *. set (d := (Z.of_nat (p_n_dft p) - Z.of_nat (p_n_overlap p))%Z) in *.
    assert (Hd : (0 < d)%Z) by (unfold d; lia).
    assert (M := Z.mod_pos_bound (Z.of_nat (a_nt a) - Z.of_nat (p_n_overlap p)) d Hd). assert (Q := Z.div_mod (Z.of_nat (a_nt a) - Z.of_nat (p_n_overlap p)) d ltac:(lia)).
    revert F2 M Q. generalize ((Z.of_nat (a_nt a) - Z.of_nat (p_n_overlap p)) / d)%Z ((Z.of_nat (a_nt a) - Z.of_nat (p_n_overlap p)) mod d)%Z.
    intros q m F2 M Q. unfold d in *. clear d. nia.
  - unfold folder_of. f_equal. generalize (result_folder (Z.of_nat (p_n_dft p)) (Z.of_nat (p_n_overlap p)) (blocks p a)). intros r.
    induction (p_savedir p) as [|c s IH]; [reflexivity|]. cbn [append]. f_equal. exact IH.
Qed.
Print Assumptions C130_what_the_attributes_say.
Theorem C130_two_blocks_are_enough : forall W E zeros columns p (o : obj W E) a,
  p_n_overlap p < p_n_dft p -> 4 <= p_n_dft p -> 2 * p_n_dft p <= a_nt a + p_n_overlap p -> a_raises a = None -> snd (fit zeros columns p o a) = true.
Proof.
  intros W E zeros columns p o a Ho Hd Hn Hr. apply fit_cases; [|now left]. unfold feasible. apply Bool.negb_true_iff, Bool.orb_false_iff.
  split; [now apply Nat.ltb_ge|]. apply Z.ltb_ge. unfold blocks, n_blocks_of. apply Z.div_le_lower_bound; lia.
Qed.
Print Assumptions C130_two_blocks_are_enough.

(* Attempts that raise before the frequency axis (unreadable data, weights of the wrong size, too few blocks, ...) leave frequencies,
   folder, eigenvalues and mode count as they were, any number of times. *)
Theorem C130_failed_attempts_keep_results : forall W E zeros columns p (before : list (attempt W E)) failed,
  (forall a, In a failed -> feasible p a = false \/ (exists k, a_raises a = Some k /\ k <= 6)) ->
  results (history zeros columns p (before ++ failed)) = results (history zeros columns p before).
Proof.
  intros W E zeros columns p before failed. unfold history. rewrite fold_left_app. generalize (fold_left (fun o a => fst (fit zeros columns p o a)) before (fresh W E)).
  induction failed as [|a failed IH]; intros o H; [reflexivity|]. cbn [fold_left]. rewrite IH by (intros; apply H; now right).
  apply fit_fails_early. apply H. now left.
Qed.
Print Assumptions C130_failed_attempts_keep_results.

(* expectation: the attributes of an object belong to one fit.  After a second record that is too short the object reports the block
   count and length of the second record with the eigenvalues, frequencies and folder of the first. *)
Theorem C130_attributes_belong_to_one_fit_refuted : forall W E zeros columns p (a b : attempt W E),
  feasible p a = true -> a_raises a = None -> feasible p b = false -> a_raises b = None -> 4 <= p_n_dft p ->
  let o := history zeros columns p [a; b] in
  o_n_blocks o = Some (blocks p b) /\ o_nt o = Some (a_nt b) /\ o_weights o = Some (w_local b) /\
  o_eigs o = Some (a_eigs a) /\ o_freq o = Some (freq_of p a) /\ o_savedir_sim o = Some (folder_of p a) /\
  (blocks p b < blocks p a)%Z.
Proof.
  intros W E zeros columns p a b Ha Ra Hb Rb Hd. destruct (fit_cases zeros columns p (fresh W E) a Ha (or_introl Ra)) as [D _].
  cbv zeta. change (history zeros columns p [a; b]) with (fst (fit zeros columns p (fst (fit zeros columns p (fresh W E) a)) b)).
  revert D. generalize (fst (fit zeros columns p (fresh W E) a)). intros o [_ [_ [_ [_ [D1 [D2 [D3 _]]]]]]]. unfold fit. rewrite Rb.
  destruct o; ev. rewrite Hb. repeat split; try assumption.
  unfold feasible in *. apply Nat.ltb_ge in Hd. rewrite Hd in *. cbn [orb] in *.
  apply Bool.negb_true_iff, Z.ltb_ge in Ha. apply Bool.negb_false_iff, Z.ltb_lt in Hb. lia.
Qed.
Print Assumptions C130_attributes_belong_to_one_fit_refuted.

(* expectation: eigenvalues shown are computed ones.  If computing or writing the modes fails, the object shows an array of zeros of the
   right shape. *)
Theorem C130_zero_eigenvalues_refuted : forall W E zeros columns p (before : list (attempt W E)) a,
  feasible p a = true -> a_raises a = Some 9 ->
  let o := history zeros columns p (before ++ [a]) in
  o_eigs o = Some (zeros (length (freq_of p a)) (Z.to_nat (blocks p a))) /\ o_freq o = Some (freq_of p a) /\ o_savedir_sim o = Some (folder_of p a).
Proof.
  intros W E zeros columns p before a Hf Hr. unfold history. rewrite fold_left_app. cbn [fold_left]. generalize (fold_left (fun o a => fst (fit zeros columns p o a)) before (fresh W E)).
  intros o. unfold fit. rewrite Hr. destruct o; ev. rewrite Hf. repeat split.
Qed.
Print Assumptions C130_zero_eigenvalues_refuted.

(* Reading modes through the object: before the first fit that gets as far as its folder it raises AttributeError (not the ValueError it
   announces); with both storage options off it returns None and raises nothing, fitted or not. *)
Theorem C130_reading_modes_through_the_object : forall W E zeros columns p (l : list (attempt W E)),
  (p_disk p = false -> p_disk2 p = false -> Model_Object.get_modes_at_freq p (history zeros columns p l) = Ok None) /\
  (p_disk p || p_disk2 p = true ->
   (forall a, In a l -> feasible p a = false \/ (exists k, a_raises a = Some k /\ k <= 6)) ->
   Model_Object.get_modes_at_freq p (history zeros columns p l) = Err AttributeError) /\
  (forall before a, l = before ++ [a] -> p_disk p || p_disk2 p = true -> snd (fit zeros columns p (history zeros columns p before) a) = true ->
   Model_Object.get_modes_at_freq p (history zeros columns p l) = Ok (Some (folder_of p a))).
Proof.
  intros W E zeros columns p l. unfold Model_Object.get_modes_at_freq. split; [|split].
  - intros -> ->. reflexivity.
  - intros -> H. assert (R := C130_failed_attempts_keep_results zeros columns p [] l H). cbn [app] in R.
    apply (f_equal (fun x => snd (fst (fst x)))) in R. cbn [results fst snd] in R. rewrite R. reflexivity.
  - intros before a -> -> H. destruct (C130_after_a_fit_that_returns zeros columns p before a H) as [D _].
    destruct D as [_ [_ [_ [_ [_ [-> _]]]]]]. reflexivity.
Qed.
Print Assumptions C130_reading_modes_through_the_object.

Example C130_nonvacuous : let p := Params 8 0 1%Q false "r" true false in
  let a := Attempt 40 [5] true 1 2 3 4 7 None in let b := Attempt 12 [5] true 1 2 3 4 7 None in
  feasible p a = true /\ feasible p b = false /\ blocks p a = 5%Z /\ blocks p b = 1%Z /\
  o_savedir_sim (history (fun _ _ => 0) (fun x => x) p [a; b]) = Some "r/nfft8_novlp0_nblks5"%string.
Proof. repeat split. Qed.
