(* Proofs about Model_ModeFiles.v. *)
From Coq Require Import String Ascii Sorting.Sorted.
From Verif Require Import Base_List Model_Reader2 Model_Base Model_ModeFiles Proof_Names Proof_Reader2b.
Set Implicit Arguments.
Local Open Scope nat_scope.

Lemma load_in X (d : dir X) k x : NoDup (map fst d) -> In (k, x) d -> load d k = Ok x.
Proof.
  unfold load. induction d as [|[k' x'] d IH]; cbn [map fst find]; intros Hn Hi; [contradiction|].
  inversion Hn as [|? ? Hk Hn']; subst. destruct Hi as [E|Hi].
  - injection E as -> ->. now rewrite String.eqb_refl.
  - destruct (String.eqb_spec k' k) as [->|Hne]; [|now apply IH].
    exfalso. apply Hk. apply in_map_iff. exists (k, x). auto.
Qed.

Lemma load_all X (d e : dir X) : NoDup (map fst d) -> (forall p, In p e -> In p d) ->
  all_ok (map (load d) (map fst e)) = Ok (map snd e).
Proof.
  intros Hn. induction e as [|[k x] e IH]; intros Hi; [reflexivity|]. cbn [map all_ok fst snd].
  rewrite (@load_in X d k x Hn) by (apply Hi; now left). cbn [bind]. rewrite IH by (intros; apply Hi; now right). reflexivity.
Qed.

Lemma str_leb_antisym s t : str_leb s t = true -> str_leb t s = true -> s = t.
Proof.
  unfold str_leb. rewrite (String.compare_antisym s t).
  destruct (String.compare t s) eqn:E; cbn; try discriminate. intros _ _. symmetry. now apply String.compare_eq_iff.
Qed.
Lemma str_leb_total s t : str_leb s t = true \/ str_leb t s = true.
Proof. unfold str_leb. rewrite (String.compare_antisym s t). destruct (String.compare t s); cbn; auto. Qed.
Lemma str_leb_trans s t u : str_leb s t = true -> str_leb t u = true -> str_leb s u = true.
Proof.
  unfold str_leb. revert t u; induction s as [|a s IH]; intros [|b t] [|c u]; cbn; try congruence; auto.
  unfold Ascii.compare. specialize (IH t u).
  destruct (N.compare_spec (N_of_ascii a) (N_of_ascii b)) as [E|E|E];
  destruct (N.compare_spec (N_of_ascii b) (N_of_ascii c)) as [F|F|F];
  destruct (N.compare_spec (N_of_ascii a) (N_of_ascii c)) as [G|G|G];
  intros; try discriminate; try lia; auto.
Qed.

(* the sorted names of a directory that is a rearrangement of a strictly increasing list of names *)
Lemma sort_names (l l' : list string) : Permutation l l' -> StronglySorted (fun a b => str_leb a b = true) l' -> sort str_leb l = l'.
Proof.
  intros Hp Hs. apply (@sorted_unique _ str_leb); [exact str_leb_antisym| |assumption|].
  - apply sort_sorted; [exact str_leb_total|exact str_leb_trans].
  - rewrite sort_perm. exact Hp.
Qed.

Lemma ends_npy s : ends_with ".npy" (append s ".npy") = true.
Proof.
  unfold ends_with. rewrite string_length_app. change (String.length ".npy") with 4.
  replace (String.length s + 4 - 4) with (String.length s) by lia.
  apply andb_true_intro. split; [apply Nat.leb_le; lia|].
  induction s as [|a s IH]; [reflexivity|]. exact IH.
Qed.
Lemma prefix_app a s : String.prefix a (append a s) = true.
Proof. induction a as [|c a IH]; [now destruct s|]. cbn. destruct (ascii_dec c c); [exact IH|contradiction]. Qed.
Lemma prefix_inv a s : String.prefix a s = true -> exists t, s = append a t.
Proof.
  revert s; induction a as [|c a IH]; intros s H; [exists s; reflexivity|]. destruct s as [|d s]; [discriminate|].
  cbn in H. destruct (ascii_dec c d); [subst|discriminate]. destruct (IH _ H) as [t ->]. exists t. reflexivity.
Qed.
Lemma append_assoc a b c : append (append a b) c = append a (append b c).
Proof. induction a as [|x a IH]; [reflexivity|]. cbn. now rewrite IH. Qed.

Lemma glob_npy s : glob "" ".npy" (append s ".npy") = true.
Proof.
  unfold glob. rewrite ends_npy. rewrite string_length_app. cbn [String.length].
  replace (0 + 4 <=? String.length s + 4) with true by (symmetry; apply Nat.leb_le; lia).
  destruct (append s ".npy"); reflexivity.
Qed.
Lemma freq_file_npy f : (glob "" ".npy" (freq_file f) && negb (String.prefix "." (freq_file f)))%bool = true.
Proof. unfold freq_file. rewrite <- append_assoc, glob_npy. reflexivity. Qed.
Lemma mode_file_npy f m : (glob "" ".npy" (mode_file f m) && negb (String.prefix "." (mode_file f m)))%bool = true.
Proof. unfold mode_file. rewrite <- !append_assoc, glob_npy. reflexivity. Qed.

Lemma mode_file_prefix f m : mode_file f m = append (mode_prefix f) (append (pad8 m) ".npy").
Proof. unfold mode_file, mode_prefix. now rewrite !append_assoc. Qed.
Lemma glob_mode_file f g m : glob (mode_prefix f) ".npy" (mode_file g m) = (f =? g).
Proof.
  destruct (Nat.eqb_spec f g) as [->|Hne].
  - unfold glob. rewrite mode_file_prefix, prefix_app. rewrite <- append_assoc, ends_npy, !string_length_app.
    apply Nat.leb_le. cbn [String.length]. lia.
  - unfold glob. destruct (String.prefix (mode_prefix f) (mode_file g m)) eqn:E; [|reflexivity]. exfalso.
    apply prefix_inv in E as [t E]. unfold mode_prefix, mode_file in E. rewrite !append_assoc in E.
    apply app_inj_l in E. cbn [append] in E.
    assert (Hu : ~ (0 <= digit "_" <= 9)%Z) by (unfold digit; cbn; lia).
    apply split_unique in E as [E _]; [|apply digits_lacks; [apply pad8_digits|assumption]..].
    apply pad8_inj in E. congruence.
Qed.
Lemma glob_freq_file f g : glob (mode_prefix f) ".npy" (freq_file g) = false.
Proof.
  unfold glob. destruct (String.prefix (mode_prefix f) (freq_file g)) eqn:E; [|reflexivity]. exfalso.
  apply prefix_inv in E as [t E]. unfold mode_prefix, freq_file in E. rewrite append_assoc in E.
  change "freq_idx_f"%string with (append "freq_idx_" "f") in E. rewrite append_assoc in E. apply app_inj_l in E.
  pose proof (pad8_digits g) as D. destruct (pad8 g) as [|c s]; cbn in E; [discriminate|].
  injection E as Ec _. cbn in D. destruct D as [D _]. subst c. unfold digit in D. cbn in D. lia.
Qed.

Lemma sorted_map_seq (g : nat -> string) (a n : nat) :
  (forall i j, i < j -> j < a + n -> str_leb (g i) (g j) = true) -> StronglySorted (fun a b => str_leb a b = true) (map g (seq a n)).
Proof.
  revert a; induction n as [|n IH]; intros a H; [constructor|]. cbn [seq map]. constructor.
  - apply IH. intros i j Hi Hj. apply H; lia.
  - apply Forall_forall. intros s Hs. apply in_map_iff in Hs as [j [<- Hj]]. apply in_seq in Hj. apply H; lia.
Qed.
Lemma filter_all A (p : A -> bool) l : (forall x, In x l -> p x = true) -> filter p l = l.
Proof. induction l as [|x l IH]; intros H; [reflexivity|]. cbn. rewrite H by now left. f_equal. apply IH. intros; apply H; now right. Qed.
Lemma filter_perm A (p : A -> bool) l l' : Permutation l l' -> Permutation (filter p l) (filter p l').
Proof.
  induction 1; cbn; [constructor|destruct (p x); [now constructor|assumption]|destruct (p x), (p y); try reflexivity; apply perm_swap|].
  now transitivity (filter p l').
Qed.
Lemma freq_file_leb i j : i < j -> (Z.of_nat j < 100000000)%Z -> str_leb (freq_file i) (freq_file j) = true.
Proof. intros H Hj. unfold str_leb. rewrite freq_file_compare by lia. now rewrite (proj2 (Nat.compare_lt_iff i j) H). Qed.
(* every *.npy directory: names in sorted order *)
Lemma get_all_sorted X (d e : dir X) : Permutation d e -> NoDup (map fst d) -> e <> [] ->
  (forall p, In p e -> (glob "" ".npy" (fst p) && negb (String.prefix "." (fst p)))%bool = true) ->
  StronglySorted (fun a b => str_leb a b = true) (map fst e) ->
  get_all_modes d = Ok (map snd e).
Proof.
  intros Hp Hn He Hg Hs. unfold get_all_modes.
  assert (F : forall p, In p d -> In p e) by (intros; eapply Permutation_in; eassumption).
  rewrite (@filter_all _ _ (map fst d)).
  2:{ intros s H. apply in_map_iff in H as [p [<- H]]. apply Hg. auto. }
  rewrite (@sort_names _ (map fst e)); [|now apply Permutation_map|assumption].
  assert (E : all_ok (map (load d) (map fst e)) = Ok (map snd e)).
  { apply load_all; [assumption|]. intros; eapply Permutation_in; [symmetry; eassumption|assumption]. }
  destruct (map fst e) eqn:En; [|exact E]. destruct e; [congruence|discriminate].
Qed.
Lemma flat_map_div A (h : nat -> nat -> A) nm nf : 0 < nm ->
  flat_map (fun f => map (h f) (seq 0 nm)) (seq 0 nf) = map (fun i => h (i / nm) (i mod nm)) (seq 0 (nf * nm)).
Proof.
  intros Hm. induction nf as [|nf IH]; [reflexivity|]. rewrite seq_S, flat_map_app, IH. cbn [flat_map]. rewrite app_nil_r.
  replace (S nf * nm) with (nf * nm + nm) by lia. rewrite seq_app, map_app. f_equal. cbn [Nat.add].
  apply nth_ext with (d := h 0 0) (d' := h 0 0); [now rewrite !map_length, !seq_length|].
  intros i Hi. rewrite map_length, seq_length in Hi.
  rewrite (nth_indep _ (h 0 0) (h nf 0)) by (rewrite map_length, seq_length; lia).
  rewrite (map_nth (h nf)), seq_nth by lia.
  set (k := fun i => h (i / nm) (i mod nm)).
  rewrite (nth_indep _ (h 0 0) (k 0)) by (rewrite map_length, seq_length; lia).
  rewrite (map_nth k), seq_nth by lia. subst k. cbn beta.
  rewrite Nat.add_0_l. rewrite Nat.add_comm, Nat.div_add, Nat.mod_add by lia.
  now rewrite Nat.div_small, Nat.mod_small by lia.
Qed.
Lemma mode_file_leb f m g n : (Z.of_nat f < 100000000)%Z -> (Z.of_nat g < 100000000)%Z -> (Z.of_nat m < 100000000)%Z -> (Z.of_nat n < 100000000)%Z ->
  f < g \/ f = g /\ m < n -> str_leb (mode_file f m) (mode_file g n) = true.
Proof.
  intros. unfold str_leb. rewrite mode_file_compare by assumption. destruct (Nat.compare_spec f g); try reflexivity; try lia.
  destruct (Nat.compare_spec m n); try reflexivity; lia.
Qed.
Lemma div_mod_lt i j nm : 0 < nm -> i < j -> i / nm < j / nm \/ i / nm = j / nm /\ i mod nm < j mod nm.
Proof.
  intros Hm H. pose proof (Nat.div_mod_eq i nm). pose proof (Nat.div_mod_eq j nm).
  pose proof (Nat.mod_upper_bound i nm ltac:(lia)). pose proof (Nat.mod_upper_bound j nm ltac:(lia)).
  destruct (Nat.lt_trichotomy (i / nm) (j / nm)) as [L|[L|L]]; [now left| |exfalso].
  - right. split; [assumption|]. rewrite L in *. lia.
  - assert (nm * (j / nm) + nm <= nm * (i / nm)) by nia. lia.
Qed.
Lemma NoDup_map_inj_on A B (g : A -> B) l : (forall x y, In x l -> In y l -> g x = g y -> x = y) -> NoDup l -> NoDup (map g l).
Proof.
  induction l as [|x l IH]; intros Hi Hn; [constructor|]. inversion Hn; subst. cbn. constructor.
  - intros H. apply in_map_iff in H as [y [E Hy]]. apply Hi in E; [subst; contradiction|now right|now left].
  - apply IH; [|assumption]. intros; apply Hi; auto; now right.
Qed.
