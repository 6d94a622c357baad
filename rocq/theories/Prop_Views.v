(* C128: arrays returned by the mode readers and the files they come from. *)
From Coq Require Import String.
From Verif Require Import Base_List Model_Reader2 Model_Base Model_ModeFiles Proof_Names Proof_ModeFiles Model_Views.
Set Implicit Arguments.
Local Open Scope nat_scope.

(* ---- specification ---- *)
Section Spec.
Variable V : Type.
(* what the h-th returned array shows to its holder *)
Definition shows (s : st V) (h : nat) : option (list (list V)) := option_map (contents (files s)) (nth_error (heap s) h).
(* what is on disk under a name *)
Definition on_disk (s : st V) (name : string) : option (list V) := lookup (files s) name.
Definition is_edit (h : nat) (e : event V) : bool := match e with Edit k _ _ _ => k =? h | _ => false end.
Definition is_save (e : event V) : bool := match e with Save _ _ => true | _ => false end.
Definition is_get_freq (e : event V) : bool := match e with GetFreq _ => true | _ => false end.
(* one file per mode: no file has the name of the modes of a whole frequency *)
Definition per_mode_folder (d : dir (list V)) : Prop := forall f, lookup d (freq_file f) = None.
Definition saves_per_mode (e : event V) : Prop := match e with Save n _ => forall f, n <> freq_file f | _ => True end.
End Spec.

Section Proof.
Variable V : Type.
Variable writable : string -> bool.
Implicit Types (d : dir (list V)) (s : st V).
Notation run := (run writable). Notation step := (step writable).

Lemma lookup_set d n c m : lookup (set_file d n c) m = if String.eqb n m then (match lookup d n with Some _ => Some c | None => None end) else lookup d m.
Proof.
  unfold lookup. induction d as [|[k x] d IH]; cbn [set_file map find fst snd]; [now destruct (String.eqb n m)|].
  fold (set_file d n c) in *. destruct (String.eqb_spec k n) as [->|Hkn]; cbn [find fst snd].
  - destruct (String.eqb_spec n m) as [->|]; cbn [snd]; [|exact IH]. now rewrite ?String.eqb_refl.
  - destruct (String.eqb_spec k m) as [->|]; [|exact IH]. destruct (String.eqb_spec n m) as [->|]; [contradiction|reflexivity].
Qed.
Lemma lookup_app d n c m : lookup (d ++ [(n, c)]) m = match lookup d m with Some x => Some x | None => if String.eqb n m then Some c else None end.
Proof.
  unfold lookup. induction d as [|[k x] d IH]; cbn [app find fst snd]; [destruct (String.eqb n m); reflexivity|].
  destruct (String.eqb k m); [reflexivity|exact IH].
Qed.
Lemma nth_error_upd A i j (x : A) l : nth_error (upd_nth i x l) j = if (i =? j) && (i <? length l) then Some x else nth_error l j.
Proof.
  revert i j. induction l as [|a l IH]; intros [|i] [|j]; cbn; try reflexivity.
  - now rewrite Bool.andb_false_r.
  - rewrite IH. reflexivity.
Qed.

(* no step drops a file *)
Lemma step_keeps_file s e n : lookup (files s) n <> None -> lookup (files (step s e)) n <> None.
Proof.
  intros H. destruct e as [f| |h j i v|m c]; cbn [Model_Views.step].
  - destruct (get_freq _ _ _); exact H.
  - destruct (get_all _ _); exact H.
  - unfold edit. destruct (nth_error (heap s) _) as [a|]; [|exact H]. destruct (nth_error (contents _ _) _) as [c|]; [|exact H].
    destruct (_ <? _); [|exact H]. destruct a; [|exact H]. cbn [files]. rewrite lookup_set. destruct (String.eqb_spec name n) as [->|]; [|exact H].
    destruct (lookup (files s) n); [discriminate|contradiction].
  - destruct (lookup (files s) m) as [c0|] eqn:E.
    + destruct (_ =? _); [|exact H]. cbn [files]. rewrite lookup_set, E. destruct (String.eqb_spec m n); [discriminate|exact H].
    + cbn [files]. rewrite lookup_app. destruct (lookup (files s) n); [discriminate|contradiction].
Qed.
(* a map stays a map of its file *)
Lemma step_keeps_map s e h n : nth_error (heap s) h = Some (Mapped n) -> nth_error (heap (step s e)) h = Some (Mapped n).
Proof.
  intros H. assert (Hl : h < length (heap s)) by (apply nth_error_Some; congruence). destruct e as [f| |k j i v|m c]; cbn [Model_Views.step].
  - destruct (get_freq _ _ _); [|exact H]. cbn [new heap]. now rewrite nth_error_app1.
  - destruct (get_all _ _); [|exact H]. cbn [new heap]. now rewrite nth_error_app1.
  - unfold edit. destruct (nth_error (heap s) k) as [a|] eqn:Ek; [|exact H]. destruct (nth_error (contents _ _) _) as [c|]; [|exact H].
    destruct (_ <? _); [|exact H]. destruct a; [exact H|]. cbn [heap]. rewrite nth_error_upd.
    destruct (Nat.eqb_spec k h) as [->|]; [congruence|exact H].
  - destruct (lookup (files s) m); [destruct (_ =? _)|]; exact H.
Qed.
(* a copy is changed by edits of the copy only *)
Lemma step_keeps_copy s e h l : nth_error (heap s) h = Some (Owned l) -> is_edit h e = false -> nth_error (heap (step s e)) h = Some (Owned l).
Proof.
  intros H He. assert (Hl : h < length (heap s)) by (apply nth_error_Some; congruence). destruct e as [f| |k j i v|m c]; cbn [Model_Views.step is_edit] in *.
  - destruct (get_freq _ _ _); [|exact H]. cbn [new heap]. now rewrite nth_error_app1.
  - destruct (get_all _ _); [|exact H]. cbn [new heap]. now rewrite nth_error_app1.
  - unfold edit. destruct (nth_error (heap s) k) as [a|] eqn:Ek; [|exact H]. destruct (nth_error (contents _ _) _) as [c|]; [|exact H].
    destruct (_ <? _); [|exact H]. destruct a; [exact H|]. cbn [heap]. now rewrite nth_error_upd, He.
  - destruct (lookup (files s) m); [destruct (_ =? _)|]; exact H.
Qed.
Lemma run_keeps_file evs : forall s n, lookup (files s) n <> None -> lookup (files (run s evs)) n <> None.
Proof. induction evs as [|e evs IH]; intros s n H; [exact H|]. apply IH. now apply step_keeps_file. Qed.
Lemma run_keeps_map evs : forall s h n, nth_error (heap s) h = Some (Mapped n) -> nth_error (heap (run s evs)) h = Some (Mapped n).
Proof. induction evs as [|e evs IH]; intros s h n H; [exact H|]. apply IH. now apply step_keeps_map. Qed.
Lemma run_keeps_copy evs : forall s h l, nth_error (heap s) h = Some (Owned l) -> forallb (fun e => negb (is_edit h e)) evs = true ->
  nth_error (heap (run s evs)) h = Some (Owned l).
Proof.
  induction evs as [|e evs IH]; intros s h l H He; [exact H|]. cbn [forallb] in He. apply andb_prop in He as [H1 H2].
  apply IH; [|exact H2]. apply step_keeps_copy; [exact H|]. now apply Bool.negb_true_iff.
Qed.

(* histories in which no map is ever handed out *)
Definition no_maps s := forall h n, nth_error (heap s) h <> Some (Mapped n).
Lemma files_without_maps s e : no_maps s -> per_mode_folder (files s) \/ is_get_freq e = false ->
  no_maps (step s e) /\ files (step s e) = if is_save e then files (step (St (files s) []) e) else files s.
Proof.
  intros Hm Hc. destruct e as [f| |k j i v|m c]; cbn [Model_Views.step is_save is_get_freq] in *.
  - destruct Hc as [Hc|]; [|discriminate]. unfold get_freq. rewrite (Hc f). cbn [new].
    destruct (get_modes_at_freq (files s) f) as [[x|l]|]; cbn [bind new files heap]; [| |split; [exact Hm|reflexivity]].
    all: split; [|reflexivity]; intros h n; cbn [heap]; destruct (Nat.lt_ge_cases h (length (heap s))) as [Hh|Hh].
    all: rewrite ?nth_error_app1 by assumption; rewrite ?nth_error_app2 by assumption; try apply Hm.
    all: destruct (h - length (heap s)) as [|[|]]; cbn; congruence.
  - unfold get_all. destruct (get_all_modes (files s)); cbn [bind new]; [|split; [exact Hm|reflexivity]].
    destruct (forallb _ _); cbn [new files heap]; [|split; [exact Hm|reflexivity]]. split; [|reflexivity].
    intros h n; cbn [heap]; destruct (Nat.lt_ge_cases h (length (heap s))) as [Hh|Hh].
    all: rewrite ?nth_error_app1 by assumption; rewrite ?nth_error_app2 by assumption; try apply Hm.
    destruct (h - length (heap s)) as [|[|]]; cbn; congruence.
  - unfold edit. destruct (nth_error (heap s) k) as [a|] eqn:Ek; [|split; [exact Hm|reflexivity]].
    destruct (nth_error (contents _ _) _) as [c|]; [|split; [exact Hm|reflexivity]]. destruct (_ <? _); [|split; [exact Hm|reflexivity]].
    destruct a; [now apply Hm in Ek|]. cbn [files heap]. split; [|reflexivity].
    intros h n. cbn [heap]. rewrite nth_error_upd. destruct (_ && _); [congruence|apply Hm].
  - cbn [files]. destruct (lookup (files s) m); [destruct (_ =? _)|]; (split; [exact Hm|reflexivity]).
Qed.
Lemma per_mode_kept d e : per_mode_folder d -> saves_per_mode e -> per_mode_folder (files (step (St d []) e)) \/ is_save e = false.
Proof.
  intros Hd He. destruct e as [f| |k j i v|m c]; cbn [is_save]; try (right; reflexivity). left. cbn [Model_Views.step files saves_per_mode] in *.
  intros f. specialize (Hd f). destruct (lookup d m) as [c0|] eqn:E; [destruct (_ =? _)|]; cbn [files]; [|exact Hd|].
  - rewrite lookup_set. destruct (String.eqb_spec m (freq_file f)) as [->|]; [congruence|exact Hd].
  - rewrite lookup_app, Hd. destruct (String.eqb_spec m (freq_file f)) as [->|]; [now destruct (He f)|reflexivity].
Qed.
Lemma only_saves evs : forall s, no_maps s ->
  (per_mode_folder (files s) /\ (forall e, In e evs -> saves_per_mode e)) \/ (forall e, In e evs -> is_get_freq e = false) ->
  files (run s evs) = files (run (St (files s) []) (filter (@is_save V) evs)).
Proof.
  induction evs as [|e evs IH]; intros s Hm Hc; [reflexivity|].
  assert (H : per_mode_folder (files s) \/ is_get_freq e = false) by (destruct Hc as [[H _]|H]; [left; exact H|right; apply H; now left]).
  destruct (files_without_maps e Hm H) as [Hm' Hf]. cbn [Model_Views.run fold_left filter]. change (fold_left step evs (step s e)) with (run (step s e) evs).
  rewrite IH; [|exact Hm'|].
  - destruct (is_save e) eqn:Es; [|now rewrite Hf].
    cbn [Model_Views.run fold_left]. rewrite Hf.
    destruct (step (St (files s) []) e) as [d hp] eqn:E. cbn [files].
    assert (hp = []) as ->; [|reflexivity].
    destruct e; try discriminate. cbn [Model_Views.step files heap] in E. destruct (lookup (files s) name); [destruct (_ =? _)|]; now injection E.
  - destruct Hc as [[H1 H2]|H1]; [left; split|right; intros; apply H1; now right].
    + rewrite Hf. destruct (per_mode_kept (d := files s) e H1 (H2 e (or_introl eq_refl))) as [Hk| ->]; [|exact H1].
      destruct (is_save e); [exact Hk|exact H1].
    + intros; apply H2; now right.
Qed.
End Proof.

(* ---- C128 ---- *)
(* The array returned for a frequency that is stored in one file is that file: at all later times it shows what is on disk,
   through all further reads, edits and fits. *)
Theorem C128_returned_array_is_the_file : forall V writable (d : dir (list V)) before f after,
  let s := run writable (St d []) before in
  on_disk s (freq_file f) <> None -> writable (freq_file f) = true ->
  let h := length (heap s) in
  let s' := run writable s (GetFreq f :: after) in
  exists c, on_disk s' (freq_file f) = Some c /\ shows s' h = Some [c].
Proof.
  intros V writable d before f after s Hd Hw h s'.
  assert (Hh : nth_error (heap (step writable s (GetFreq f))) h = Some (Mapped (freq_file f))).
  { cbn [step]. unfold get_freq, get_data_from_file, on_disk in *. destruct (lookup (files s) (freq_file f)); [|contradiction].
    rewrite Hw. cbn [new heap]. unfold h. rewrite nth_error_app2, Nat.sub_diag by lia. reflexivity. }
  apply (run_keeps_map writable after) in Hh. change (run writable (step writable s (GetFreq f)) after) with s' in Hh.
  assert (Hk : lookup (files s') (freq_file f) <> None) by (apply (run_keeps_file writable (GetFreq f :: after)); exact Hd).
  unfold on_disk, shows. rewrite Hh. cbn [option_map contents].
  destruct (lookup (files s') (freq_file f)) as [c|]; [|contradiction]. exists c. split; reflexivity.
Qed.
Print Assumptions C128_returned_array_is_the_file.

(* Hence changing one entry of the returned array changes the saved modes: that entry of that file, nothing else. *)
Theorem C128_edits_change_the_saved_modes : forall V writable (d : dir (list V)) before f after i v c,
  let s := run writable (St d []) before in
  on_disk s (freq_file f) <> None -> writable (freq_file f) = true ->
  let h := length (heap s) in
  let s' := run writable s (GetFreq f :: after) in
  on_disk s' (freq_file f) = Some c -> i < length c ->
  let s'' := step writable s' (Edit h 0 i v) in
  (exists c', on_disk s'' (freq_file f) = Some c' /\ length c' = length c /\
     forall j, nth_error c' j = if j =? i then Some v else nth_error c j) /\
  (forall name, name <> freq_file f -> on_disk s'' name = on_disk s' name).
Proof.
  intros V writable d before f after i v c s Hd Hw h s' Hc Hi s''.
  assert (Hh : nth_error (heap (step writable s (GetFreq f))) h = Some (Mapped (freq_file f))).
  { cbn [step]. unfold get_freq, get_data_from_file, on_disk in *. destruct (lookup (files s) (freq_file f)); [|contradiction].
    rewrite Hw. cbn [new heap]. unfold h. rewrite nth_error_app2, Nat.sub_diag by lia. reflexivity. }
  apply (run_keeps_map writable after) in Hh. change (run writable (step writable s (GetFreq f)) after) with s' in Hh.
  unfold on_disk in *.
  assert (E : files s'' = set_file (files s') (freq_file f) (upd_nth i v c)).
  { unfold s''. cbn [step]. unfold edit. rewrite Hh. cbn [contents]. rewrite Hc. cbn [nth_error].
    destruct (Nat.ltb_spec i (length c)); [reflexivity|lia]. }
  split.
  - exists (upd_nth i v c). rewrite E, lookup_set, String.eqb_refl, Hc. split; [reflexivity|]. split; [apply upd_nth_length|].
    intros j. rewrite nth_error_upd. replace (i <? length c) with true by (symmetry; now apply Nat.ltb_lt). now rewrite Bool.andb_true_r, Nat.eqb_sym.
  - intros n Hn. rewrite E, lookup_set. destruct (String.eqb_spec (freq_file f) n) as [E1|]; [now elim Hn|reflexivity].
Qed.
Print Assumptions C128_edits_change_the_saved_modes.

(* expectation: reading and working on what was read does not change saved results.  It does, and later reads return the change. *)
Theorem C128_reading_is_harmless_refuted : forall V writable (d : dir (list V)) f c i v x,
  lookup d (freq_file f) = Some c -> writable (freq_file f) = true -> nth_error c i = Some x -> v <> x ->
  let s := run writable (St d []) [GetFreq f; Edit 0 0 i v; GetFreq f] in
  on_disk s (freq_file f) <> on_disk (St d []) (freq_file f) /\
  (exists l, shows s 1 = Some [l] /\ nth_error l i = Some v).
Proof.
  intros V writable d f c i v x Hc Hw Hx Hv s.
  assert (Hi : i < length c) by (apply nth_error_Some; congruence).
  destruct (@C128_edits_change_the_saved_modes V writable d [] f [] i v c) as [[c' [H1 [H2 H3]]] _]; try assumption.
  { unfold on_disk. cbn [run fold_left files]. congruence. }
  { unfold on_disk. cbn [run fold_left step files]. unfold get_freq, get_data_from_file. rewrite Hc, Hw. exact Hc. }
  set (s1 := run writable (St d []) [GetFreq f; Edit 0 0 i v]).
  assert (D : on_disk s1 (freq_file f) = Some c') by exact H1.
  destruct (@C128_returned_array_is_the_file V writable d [GetFreq f; Edit 0 0 i v] f []) as [c2 [H4 H5]]; [change (on_disk s1 (freq_file f) <> None); congruence|exact Hw|].
  assert (L : length (heap s1) = 1).
  { unfold s1. cbn [run fold_left step]. unfold get_freq, get_data_from_file. cbn [files]. rewrite Hc, Hw. cbn [new heap app files]. unfold edit. cbn [heap nth_error files contents]. rewrite Hc.
    cbn [nth_error]. destruct (i <? length c); reflexivity. }
  change (run writable (St d []) [GetFreq f; Edit 0 0 i v]) with s1 in H4, H5. rewrite L in H5.
  change (run writable s1 [GetFreq f]) with s in H4, H5.
  assert (E2 : c2 = c').
  { assert (F : files s = files s1).
    { change s with (step writable s1 (GetFreq f)). cbn [step]. unfold new. destruct (get_freq _ _ _); reflexivity. }
    unfold on_disk in *. rewrite F in H4. congruence. }
  subst c2. assert (N : nth_error c' i = Some v) by (rewrite H3, Nat.eqb_refl; reflexivity). split; [|exists c'; split; [exact H5|exact N]].
  unfold on_disk in *. cbn [files]. rewrite H4, Hc. intros E. injection E as ->. congruence.
Qed.
Print Assumptions C128_reading_is_harmless_refuted.

(* With one file per mode nothing but a fit changes what is on disk, whatever is read and edited; nor, in any layout, if modes are
   only read all at once. *)
Theorem C128_other_readers_are_harmless : forall V writable (d : dir (list V)) evs,
  (per_mode_folder d /\ forall e, In e evs -> saves_per_mode e) \/ (forall e, In e evs -> is_get_freq e = false) ->
  forall name, on_disk (run writable (St d []) evs) name = on_disk (run writable (St d []) (filter (@is_save V) evs)) name.
Proof.
  intros V writable d evs H name. unfold on_disk. rewrite only_saves; [reflexivity|intros [|h] n; discriminate|exact H].
Qed.
Print Assumptions C128_other_readers_are_harmless.
(* and what was read stays as it was read until its holder changes it *)
Theorem C128_copies_are_private : forall V writable (d : dir (list V)) before e after x,
  let s := run writable (St d []) before in
  let h := length (heap s) in
  e = GetAll \/ (exists f, e = GetFreq f /\ on_disk s (freq_file f) = None) ->
  shows (step writable s e) h = Some x ->
  forallb (fun e => negb (is_edit h e)) after = true ->
  shows (run writable s (e :: after)) h = Some x.
Proof.
  intros V writable d before e after x s h He Hx Ha.
  assert (H : exists l, nth_error (heap (step writable s e)) h = Some (Owned l)).
  { unfold shows in Hx. destruct (nth_error (heap (step writable s e)) h) as [[n|l]|] eqn:E; [|now exists l|discriminate]. exfalso.
    assert (N : nth_error (heap s) h = None) by (apply nth_error_None; unfold h; lia).
    destruct He as [-> | [f [-> Hf]]]; cbn [step] in E.
    - unfold get_all in E. destruct (get_all_modes (files s)); cbn [bind new] in E; [|congruence].
      destruct (forallb _ _); cbn [new heap] in E; [|congruence]. unfold h in E. rewrite nth_error_app2, Nat.sub_diag in E by lia. discriminate.
    - unfold on_disk in Hf. unfold get_freq in E. rewrite Hf in E. destruct (get_modes_at_freq (files s) f) as [[y|l]|]; cbn [bind new heap] in E; [| |congruence].
      all: unfold h in E; rewrite nth_error_app2, Nat.sub_diag in E by lia; discriminate. }
  destruct H as [l Hl]. unfold shows in *. rewrite Hl in Hx. cbn [option_map contents] in Hx. injection Hx as <-.
  change (run writable s (e :: after)) with (run writable (step writable s e) after).
  now rewrite (run_keeps_copy writable after (step writable s e) h Hl Ha).
Qed.
Print Assumptions C128_copies_are_private.

(* Files that may not be written cannot be read by frequency in one layout, though they can in the other. *)
Theorem C128_read_only_results : forall V (writable : string -> bool) (d : dir (list V)) f,
  (forall n, writable n = false) ->
  (lookup d (freq_file f) <> None -> get_freq writable d f = Err OSError) /\
  (forall l, d <> [] -> (forall e, In e d -> (exists g m, fst e = mode_file g m)) ->
     get_modes_at_freq d f = Ok (Stacked l) -> get_freq writable d f = Ok (Owned l) /\ exists x, get_all writable d = Err x).
Proof.
  intros V writable d f Hw. split.
  - intros H. unfold get_freq, get_data_from_file. destruct (lookup d (freq_file f)); [now rewrite Hw|contradiction].
  - intros l Hne Hm Hg. split.
    + unfold get_freq. destruct (lookup d (freq_file f)) as [c|] eqn:E.
      * unfold lookup in E. destruct (find _ d) as [e|] eqn:F; [|discriminate]. apply find_some in F as [F1 F2]. apply String.eqb_eq in F2.
        destruct (Hm e F1) as [g [m Eg]]. rewrite F2 in Eg. now apply freq_mode_file_disjoint in Eg.
      * now rewrite Hg.
    + unfold get_all. destruct (get_all_modes d) as [k|e]; cbn [bind]; [|now exists e].
      destruct d as [|e d]; [contradiction|]. cbn [forallb]. destruct (Hm e (or_introl eq_refl)) as [g [m Eg]].
      rewrite Eg, Hw, mode_file_npy. cbn. now exists OSError.
Qed.
Print Assumptions C128_read_only_results.

(* two frequencies with one file each, and one frequency with one file per mode *)
Example C128_case : let d := [(freq_file 0, [1; 2]); (freq_file 1, [3; 4])] in
  let s := run (fun _ => true) (St d []) [GetFreq 1; GetAll; Edit 0 0 1 9; Edit 1 0 0 7; GetFreq 1] in
  on_disk s (freq_file 1) = Some [3; 9] /\ on_disk s (freq_file 0) = Some [1; 2] /\ shows s 2 = Some [[3; 9]] /\ shows s 1 = Some [[7; 2]; [3; 4]].
Proof. vm_compute. repeat split. Qed.
Example C128_case_modes : let d := [(mode_file 0 0, [1; 2]); (mode_file 0 1, [3; 4])] in
  per_mode_folder d /\ shows (run (fun _ => false) (St d []) [GetFreq 0; Edit 0 1 1 9]) 0 = Some [[1; 2]; [3; 9]] /\
  on_disk (run (fun _ => false) (St d []) [GetFreq 0; Edit 0 1 1 9]) (mode_file 0 1) = Some [3; 4].
Proof.
  split; [|vm_compute; repeat split]. intros f. unfold lookup. cbn [find fst].
  destruct (String.eqb_spec (mode_file 0 0) (freq_file f)) as [E|_]; [symmetry in E; now apply freq_mode_file_disjoint in E|].
  destruct (String.eqb_spec (mode_file 0 1) (freq_file f)) as [E|_]; [symmetry in E; now apply freq_mode_file_disjoint in E|]. reflexivity.
Qed.
