(* C65, C94: names of mode files, reading all of them back, and what that does to the working directory. *)
From Coq Require Import String Ascii Sorting.Sorted.
From Verif Require Import Base_List Model_Reader2 Model_Base Model_ModeFiles Proof_Names Proof_Reader2b Proof_ModeFiles.
Set Implicit Arguments.
Local Open Scope nat_scope.

(* ---- specification: what the batch algorithm leaves in the directory 'modes' (C33, standard.py:238-345) ---- *)
Definition freq_files {X} (nf : nat) (c : nat -> X) : dir X := map (fun f => (freq_file f, c f)) (seq 0 nf).
Definition mode_files {X} (nf nm : nat) (c : nat -> nat -> X) : dir X :=
  flat_map (fun f => map (fun m => (mode_file f m, c f m)) (seq 0 nm)) (seq 0 nf).
(* an index that fits into eight digits *)
Definition fits (n : nat) : Prop := (Z.of_nat n <= 100000000)%Z.


(* names: no two indices share a file, without any bound *)
Theorem C65_names_never_collide :
  (forall f g, freq_file f = freq_file g -> f = g) /\
  (forall f m g n, mode_file f m = mode_file g n -> f = g /\ m = n) /\
  (forall f g m, freq_file f <> mode_file g m).
Proof. split; [exact freq_file_inj|split; [exact mode_file_inj|exact freq_mode_file_disjoint]]. Qed.
Print Assumptions C65_names_never_collide.

(* one file per frequency: whatever the listing order, frequency f is at position f *)
Theorem C65_all_modes_per_frequency : forall X nf (c : nat -> X) (listing : dir X),
  0 < nf -> fits nf -> Permutation listing (freq_files nf c) ->
  get_all_modes listing = Ok (map c (seq 0 nf)).
Proof.
  intros X nf c d H0 Hf Hp. unfold fits in Hf.
  assert (Nn : NoDup (map fst (freq_files nf c))).
  { unfold freq_files. rewrite map_map. cbn [fst]. apply FinFun.Injective_map_NoDup; [exact freq_file_inj|apply seq_NoDup]. }
  rewrite (@get_all_sorted X d (freq_files nf c)).
  - unfold freq_files. rewrite map_map. reflexivity.
  - exact Hp.
  - eapply Permutation_NoDup; [|exact Nn]. apply Permutation_map. now symmetry.
  - unfold freq_files. destruct nf; [lia|discriminate].
  - intros p H. apply in_map_iff in H as [f [<- _]]. cbn [fst]. apply freq_file_npy.
  - unfold freq_files. rewrite map_map. cbn [fst]. apply sorted_map_seq. intros i j Hi Hj. apply freq_file_leb; lia.
Qed.
Print Assumptions C65_all_modes_per_frequency.

Lemma mode_files_as_map X nf nm (c : nat -> nat -> X) : 0 < nm ->
  mode_files nf nm c = map (fun i => (mode_file (i / nm) (i mod nm), c (i / nm) (i mod nm))) (seq 0 (nf * nm)).
Proof. intros. unfold mode_files. now rewrite (@flat_map_div _ (fun f m => (mode_file f m, c f m))). Qed.
Lemma mode_files_nodup X nf nm (c : nat -> nat -> X) : 0 < nm -> NoDup (map fst (mode_files nf nm c)).
Proof.
  intros Hm. rewrite mode_files_as_map, map_map by assumption. cbn [fst].
  apply NoDup_map_inj_on; [|apply seq_NoDup]. intros i j _ _ E. apply mode_file_inj in E as [E1 E2].
  rewrite (Nat.div_mod_eq i nm), (Nat.div_mod_eq j nm). now rewrite E1, E2.
Qed.

(* one file per mode: whatever the listing order, the stack runs through the frequencies and, within one, the modes *)
Theorem C65_all_modes_per_mode : forall X nf nm (c : nat -> nat -> X) (listing : dir X),
  0 < nf -> 0 < nm -> fits nf -> fits nm -> Permutation listing (mode_files nf nm c) ->
  exists stack, get_all_modes listing = Ok stack /\ length stack = nf * nm /\
    forall f m, f < nf -> m < nm -> nth_error stack (f * nm + m) = Some (c f m).
Proof.
  intros X nf nm c d H0 H1 Hf Hm Hp. unfold fits in *.
  exists (map snd (mode_files nf nm c)). split; [|split].
  - apply (@get_all_sorted X d (mode_files nf nm c)).
    + exact Hp.
    + eapply Permutation_NoDup; [|apply (@mode_files_nodup X nf nm c H1)]. apply Permutation_map. now symmetry.
    + rewrite mode_files_as_map by assumption. destruct nf as [|nf]; [lia|]. destruct nm as [|nm]; [lia|]. discriminate.
    + intros p H. rewrite mode_files_as_map in H by assumption. apply in_map_iff in H as [i [<- _]]. apply mode_file_npy.
    + rewrite mode_files_as_map, map_map by assumption. cbn [fst]. apply sorted_map_seq. intros i j Hi Hj.
      assert (Bj : j / nm < nf) by (apply Nat.div_lt_upper_bound; lia).
      assert (Bi : i / nm <= j / nm) by (apply Nat.div_le_mono; lia).
      pose proof (Nat.mod_upper_bound i nm ltac:(lia)). pose proof (Nat.mod_upper_bound j nm ltac:(lia)).
      apply mode_file_leb; try lia. apply div_mod_lt; lia.
  - rewrite map_length, mode_files_as_map, map_length, seq_length by assumption. reflexivity.
  - intros f m Hf' Hm'. rewrite mode_files_as_map, map_map by assumption.
    assert (Hlt : f * nm + m < nf * nm) by nia.
    apply map_nth_error with (f := fun i => snd (mode_file (i / nm) (i mod nm), c (i / nm) (i mod nm))) (d := f * nm + m) in Hlt as E || idtac.
    rewrite nth_error_map. rewrite (nth_error_nth' _ 0) by (rewrite seq_length; exact Hlt).
    rewrite seq_nth by exact Hlt. cbn [option_map snd Nat.add].
    rewrite Nat.add_comm, Nat.div_add, Nat.mod_add by lia. now rewrite Nat.div_small, Nat.mod_small by lia.
Qed.
Print Assumptions C65_all_modes_per_mode.

Lemma find_none_notin X (d : dir X) k : ~ In k (map fst d) -> find (fun e => String.eqb (fst e) k) d = None.
Proof.
  induction d as [|e d IH]; intros H; [reflexivity|]. cbn in *. destruct (String.eqb_spec (fst e) k) as [E|E]; [|apply IH; tauto].
  exfalso. apply H. now left.
Qed.

(* the modes of one frequency, one file per frequency *)
Theorem C65_modes_of_a_frequency : forall X nf (c : nat -> X) (listing : dir X) f,
  Permutation listing (freq_files nf c) ->
  get_modes_at_freq listing f = if f <? nf then Ok (One (c f)) else Err UnboundLocalError.
Proof.
  intros X nf c d f Hp. unfold get_modes_at_freq.
  assert (Nn : NoDup (map fst d)).
  { eapply Permutation_NoDup; [apply Permutation_map; symmetry; exact Hp|]. unfold freq_files. rewrite map_map. cbn [fst].
    apply FinFun.Injective_map_NoDup; [exact freq_file_inj|apply seq_NoDup]. }
  destruct (Nat.ltb_spec f nf) as [Hf|Hf].
  - pose proof (@load_in X d (freq_file f) (c f) Nn) as L. unfold load in L.
    destruct (find (fun e => String.eqb (fst e) (freq_file f)) d) as [e|].
    + assert (E : Ok (snd e) = Ok (c f)).
      { apply L. eapply Permutation_in; [symmetry; exact Hp|]. unfold freq_files. apply in_map_iff. exists f. split; [reflexivity|]. apply in_seq. lia. }
      injection E as ->. reflexivity.
    + assert (E : Err OSError = Ok (c f)); [|discriminate E].
      apply L. eapply Permutation_in; [symmetry; exact Hp|]. unfold freq_files. apply in_map_iff. exists f. split; [reflexivity|]. apply in_seq. lia.
  - rewrite find_none_notin.
    2:{ intros H. eapply Permutation_in in H; [|apply Permutation_map; exact Hp]. unfold freq_files in H. rewrite map_map in H.
        apply in_map_iff in H as [g [E H]]. cbn [fst] in E. apply freq_file_inj in E. apply in_seq in H. lia. }
    replace (filter (glob (mode_prefix f) ".npy") (map fst d)) with (@nil string); [reflexivity|].
    symmetry. destruct (filter (glob (mode_prefix f) ".npy") (map fst d)) as [|s l] eqn:E; [reflexivity|exfalso].
    assert (H : In s (filter (glob (mode_prefix f) ".npy") (map fst d))) by (rewrite E; now left).
    apply filter_In in H as [H G]. eapply Permutation_in in H; [|apply Permutation_map; exact Hp].
    unfold freq_files in H. rewrite map_map in H. apply in_map_iff in H as [g [<- _]]. cbn [fst] in G.
    rewrite glob_freq_file in G. discriminate.
Qed.
Print Assumptions C65_modes_of_a_frequency.

Lemma filter_mode_files X nf nm (c : nat -> nat -> X) f : f < nf ->
  filter (fun e => glob (mode_prefix f) ".npy" (fst e)) (mode_files nf nm c) = map (fun m => (mode_file f m, c f m)) (seq 0 nm).
Proof.
  intros Hf. unfold mode_files.
  assert (G : forall a n, filter (fun e => glob (mode_prefix f) ".npy" (fst e))
       (flat_map (fun f => map (fun m => (mode_file f m, c f m)) (seq 0 nm)) (seq a n)) =
       if (a <=? f) && (f <? a + n) then map (fun m => (mode_file f m, c f m)) (seq 0 nm) else []).
  { intros a n. revert a; induction n as [|n IH]; intros a; cbn [seq flat_map].
    - destruct (Nat.leb_spec a f), (Nat.ltb_spec f (a + 0)); cbn; try reflexivity; lia.
    - rewrite filter_app, IH.
      assert (E : filter (fun e => glob (mode_prefix f) ".npy" (fst e)) (map (fun m => (mode_file a m, c a m)) (seq 0 nm))
                  = if f =? a then map (fun m => (mode_file a m, c a m)) (seq 0 nm) else []).
      { clear IH. induction (seq 0 nm) as [|m l IHl]; [now destruct (f =? a)|]. cbn [map filter fst]. rewrite glob_mode_file, IHl.
        now destruct (f =? a). }
      rewrite E. destruct (Nat.eqb_spec f a) as [->|Hne].
      + destruct (Nat.leb_spec (S a) a); [lia|]. cbn [andb]. rewrite app_nil_r.
        destruct (Nat.leb_spec a a), (Nat.ltb_spec a (a + S n)); cbn; try reflexivity; lia.
      + cbn [app]. destruct (Nat.leb_spec (S a) f), (Nat.ltb_spec f (S a + n)), (Nat.leb_spec a f), (Nat.ltb_spec f (a + S n)); cbn; try reflexivity; lia. }
  rewrite G. destruct (Nat.leb_spec 0 f), (Nat.ltb_spec f (0 + nf)); cbn; try reflexivity; lia.
Qed.
Lemma filter_map_fst X (p : string -> bool) (d : dir X) : filter p (map fst d) = map fst (filter (fun e => p (fst e)) d).
Proof. induction d as [|e d IH]; [reflexivity|]. cbn. destruct (p (fst e)); cbn; now rewrite IH. Qed.

(* the modes of one frequency, one file per mode: all of them, in the order of the modes *)
Theorem C65_modes_of_a_frequency_per_mode : forall X nf nm (c : nat -> nat -> X) (listing : dir X) f,
  0 < nm -> fits nf -> fits nm -> f < nf -> Permutation listing (mode_files nf nm c) ->
  get_modes_at_freq listing f = Ok (Stacked (map (c f) (seq 0 nm))).
Proof.
  intros X nf nm c d f Hm Hf Hb Hfn Hp. unfold fits in *. unfold get_modes_at_freq.
  rewrite find_none_notin.
  2:{ intros H. eapply Permutation_in in H; [|apply Permutation_map; exact Hp]. rewrite mode_files_as_map, map_map in H by assumption.
      apply in_map_iff in H as [i [E _]]. cbn [fst] in E. symmetry in E. now apply freq_mode_file_disjoint in E. }
  set (e := map (fun m => (mode_file f m, c f m)) (seq 0 nm)).
  assert (P : Permutation (filter (fun e => glob (mode_prefix f) ".npy" (fst e)) d) e).
  { unfold e. rewrite <- (@filter_mode_files X nf nm c f Hfn). now apply filter_perm. }
  rewrite (@sort_names _ (map fst e)).
  2:{ rewrite filter_map_fst. now apply Permutation_map. }
  2:{ unfold e. rewrite map_map. cbn [fst]. apply sorted_map_seq. intros i j Hi Hj. apply mode_file_leb; lia. }
  rewrite load_all.
  - unfold e at 2. rewrite map_map. cbn [snd bind]. destruct nm; [lia|]. reflexivity.
  - eapply Permutation_NoDup; [apply Permutation_map; symmetry; exact Hp|now apply mode_files_nodup].
  - intros p Hi. eapply Permutation_in in Hi; [|symmetry; exact P]. now apply filter_In in Hi as [Hi _].
Qed.
Print Assumptions C65_modes_of_a_frequency_per_mode.

(* a directory with 3 frequencies and 2 modes, listed backwards *)
Example C65_case :
  get_all_modes (rev (mode_files 3 2 (fun f m => 10 * f + m))) = Ok [0; 1; 10; 11; 20; 21] /\
  get_modes_at_freq (rev (mode_files 3 2 (fun f m => 10 * f + m))) 2 = Ok (Stacked [20; 21]) /\
  get_modes_at_freq (rev (freq_files 3 (fun f => f))) 3 = Err UnboundLocalError /\ fits 3.
Proof. repeat split; vm_compute; congruence. Qed.

(* ---- C94: reading all modes changes the working directory of the process ---- *)
(* With a relative results path a second read works only if <results>/modes exists below itself. *)
Theorem C94_second_read_fails : forall X is_dir (listing : list string -> dir X) cwd p,
  absolute p = false ->
  is_dir (cwd ++ parts p ++ ["modes"%string]) = true ->
  is_dir (cwd ++ (parts p ++ ["modes"%string]) ++ parts p ++ ["modes"%string]) = false ->
  let first := get_all_modes_at is_dir listing cwd p in
  snd first = cwd ++ parts p ++ ["modes"%string] /\
  fst first = get_all_modes (listing (cwd ++ parts p ++ ["modes"%string])) /\
  get_all_modes_at is_dir listing (snd first) p = (Err OSError, snd first).
Proof.
  intros X is_dir listing cwd p Ha H1 H2. unfold get_all_modes_at, chdir, modes_path, resolve. cbn [absolute parts].
  rewrite Ha, H1. cbn [fst snd]. split; [reflexivity|split; [reflexivity|]].
  rewrite <- app_assoc, H2. reflexivity.
Qed.
Print Assumptions C94_second_read_fails.

(* expectation: reading does not depend on how often it was done before; true of absolute paths only *)
Theorem C94_absolute_paths_repeat : forall X is_dir (listing : list string -> dir X) cwd cwd' p,
  absolute p = true -> fst (get_all_modes_at is_dir listing cwd p) = fst (get_all_modes_at is_dir listing cwd' p).
Proof.
  intros X is_dir listing cwd cwd' p Ha. unfold get_all_modes_at, chdir, modes_path, resolve. cbn [absolute parts]. rewrite Ha.
  now destruct (is_dir _).
Qed.
Print Assumptions C94_absolute_paths_repeat.

Theorem C94_repeatable_refuted :
  exists X is_dir (listing : list string -> dir X) cwd p a,
    let first := get_all_modes_at is_dir listing cwd p in
    fst first = Ok a /\ fst (get_all_modes_at is_dir listing (snd first) p) = Err OSError.
Proof.
  exists nat, (fun d => if list_eq_dec string_dec d ["home"; "results"; "modes"]%string then true else false),
    (fun _ => freq_files 2 (fun f => f)), ["home"%string], (Path false ["results"%string]), [0; 1]. now vm_compute.
Qed.
Print Assumptions C94_repeatable_refuted.
