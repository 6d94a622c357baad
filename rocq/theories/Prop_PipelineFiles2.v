(* Property theorems C166: coefficients from the folder of a fit of netCDF files. *)
From Coq Require Import QArith.
From Verif Require Import Base_List Model_Parallel Model_Reader1 Model_Reader2 Model_Select Model_Base Model_Standard Model_Pipeline Spec_Array Spec_Reader Spec_Reader2
  Proof_Parallel Proof_Npy2 Proof_Reader1 Proof_Reader1b Proof_Reader2b Proof_Standard1 Proof_Pipeline Prop_Standard1.
From Coq Require Import Sorting.Permutation List Lia.
Import ListNotations.
Local Open Scope nat_scope.
Set Implicit Arguments.

Lemma filter_below (P : nat -> bool) K b : K <= b -> (forall m, P m = true <-> m < K) -> filter P (seq 0 b) = seq 0 K.
Proof.
  intros Hb HP. replace b with (K + (b - K)) by lia. rewrite seq_app, filter_app. cbn [plus].
  replace (filter P (seq K (b - K))) with (@nil nat).
  - rewrite app_nil_r. assert (G : forall l, (forall x, In x l -> P x = true) -> filter P l = l).
    { induction l as [|x l IH]; intros H; [reflexivity|]. cbn. rewrite (H x) by now left. f_equal. apply IH. intros y Hy. apply H. now right. }
    apply G. intros x Hx. apply in_seq in Hx. apply HP. lia.
  - symmetry. assert (G : forall l, (forall x, In x l -> P x = false) -> filter P l = []).
    { induction l as [|x l IH]; intros H; [reflexivity|]. cbn. rewrite (H x) by now left. apply IH. intros y Hy. apply H. now right. }
    apply G. intros x Hx. apply in_seq in Hx. destruct (P x) eqn:E; [|reflexivity]. apply HP in E. lia.
Qed.
Lemma filter_none (P : nat -> bool) l : (forall m, P m = false) -> filter P l = [].
Proof. intros H. induction l as [|x l IH]; [reflexivity|]. cbn. now rewrite H. Qed.
Lemma gather_ext A (m m' : nat -> option (list A)) : (forall f, m f = m' f) -> forall nm fs cnt p, gather m nm cnt fs p = gather m' nm cnt fs p.
Proof.
  intros H nm fs. induction fs as [|f fs IH]; intros cnt p; [reflexivity|]. cbn [gather]. rewrite H. destruct (m' f) as [cols|]; [|reflexivity].
  destruct (length cols =? nm); [|reflexivity]. destruct (put nm cnt 0 cols p); [|reflexivity]. cbn [bind]. apply IH.
Qed.
Lemma below_max A (g : A -> nat) l e : In e l -> g e < fold_right (fun e n => Nat.max (S (g e)) n) 0 l.
Proof.
  induction l as [|a l IH]; intros H; [destruct H|]. cbn [fold_right]. destruct H as [->|H]; [lia|]. specialize (IH H). lia.
Qed.
Lemma nth_error_seq T (F : nat -> T) n f : nth_error (map F (seq 0 n)) f = if f <? n then Some (F f) else None.
Proof.
  destruct (Nat.ltb_spec f n) as [H|H].
  - rewrite (nth_error_nth' _ (F 0)) by (rewrite map_length, seq_length; lia). now rewrite (nth_map_seq0 F) by assumption.
  - apply nth_error_None. rewrite map_length, seq_length. lia.
Qed.

From mathcomp Require Import all_ssreflect all_algebra.
From Verif Require Import Model_Spod Model_SpodPar Model_PipelineNum Proof_PipelineNum Proof_PipelineFit Prop_Pipeline Model_Coeffs Model_PipelineCoef Proof_PipelineCoef
  Model_StoreFiles Prop_StoreFiles Prop_Workflow Model_PipelineFiles.
Unset Strict Implicit.
Unset Printing Implicit Defensive.
Import Order.TTheory GRing.Theory Num.Theory.
Local Open Scope ring_scope.

Section Stack.
Variables (T : Type) (zero : T) (files : list (nat * nat * list T)).
Lemma mode_of_spec f m x : (forall y, List.In (f, m, y) files <-> y = x) -> mode_of files f m = Some x.
Proof.
move=> H; rewrite /mode_of; case E: (List.find _ _) => [[[f' m'] y]|] /=.
  have [Hin] := List.find_some _ _ E; rewrite /= => /andP [/PeanoNat.Nat.eqb_eq Ef /PeanoNat.Nat.eqb_eq Em].
  by move: Hin; rewrite Ef Em => /H ->.
have := List.find_none _ _ E (f, m, x) (proj2 (H x) erefl).
by rewrite /= !PeanoNat.Nat.eqb_refl.
Qed.
Lemma mode_of_none f m : (forall y, ~ List.In (f, m, y) files) -> mode_of files f m = None.
Proof.
move=> H; rewrite /mode_of; case E: (List.find _ _) => [[[f' m'] y]|] //=.
have [Hin] := List.find_some _ _ E; rewrite /= => /andP [/PeanoNat.Nat.eqb_eq Ef /PeanoNat.Nat.eqb_eq Em].
by case: (H y); rewrite -Ef -Em.
Qed.
Lemma bound_spec e : List.In e files -> (e.1.2 < bound files)%coq_nat.
Proof.
by move=> H; exact: (@below_max _ (fun e : nat * nat * list T => e.1.2) files e H).
Qed.
End Stack.

(* how the coefficients see the folder *)
Lemma coef_array_ext (C : numClosedFieldType) svd (tol : C) (A : Type) (cast : A -> C) fo (m m' : nat -> option (nd C)) T_lb T_ub fi data np :
  (forall f, m f = m' f) ->
  let F m := Folder (rf_xdim fo) (rf_nv fo) (rf_freq fo) (rf_nfreq fo) (rf_nm fo) (rf_weights fo) m in
  coef_array svd tol cast (F m) T_lb T_ub fi data np = coef_array svd tol cast (F m') T_lb T_ub fi data np.
Proof.
move=> H F.
have Hl ax k cm f : load_modes (F m) ax k cm f = load_modes (F m') ax k cm f by rewrite /load_modes /= H.
have Hr s cm : coef_rank cast (F m) s data cm = coef_rank cast (F m') s data cm.
  rewrite /coef_rank; case: (distribute_data data cm) => [[[d ax] g]|] //=; case: (distribute_dimension _ _ _) => [w|] //=.
  case: ifP => // _.
  have -> : List.map (load_modes (F m) ax (length (flat w)) cm) (freq_list s) = List.map (load_modes (F m') ax (length (flat w)) cm) (freq_list s).
    by apply: List.map_ext => f; apply: Hl.
  by case: (all_ok _) => //= _; rewrite /get_modes; case: ifP => // _; rewrite (@gather_ext _ _ (fun f => match load_modes (F m') ax (length (flat w)) cm f with Ok c => Some c | Err _ => None end)) // => f; rewrite Hl.
rewrite /coef_array /=; case: (select_freqs _ _ _ _ _) => //= s; case: (alloc_coeffs _ _ _) => //= _.
by rewrite (List.map_ext _ _ (Hr s)).
Qed.

Section Ref.
Variables (C : numClosedFieldType).
Variable eig : forall nb, 'M[C]_nb -> 'rV[C]_nb * 'M[C]_nb.
Variable argsort : forall nb, 'rV[C]_nb -> 'I_nb -> 'I_nb.
Variables (c : config C) (rec : list (list C)) (W : list C) (sh : list nat) (files : list (nat * nat * list C)).
Hypothesis H : (n_modes_save c <= n_blocks c)%N.
Hypothesis HK : (0 < n_modes_save c)%N.
Hypothesis Hfiles : forall f m x, List.In (f, m, x) files <-> (f < n_freq c)%N /\ exists Hm : (m < n_modes_save c)%N, x = ref_mode_file eig argsort rec W sh H f (Ordinal Hm).
Lemma stacked_ref f : stacked 0 files sh f = if Nat.ltb f (n_freq c) then Some (ref_freq_file eig argsort rec W sh H f) else None.
Proof.
have Hno m : (~ (f < n_freq c)%N \/ ~ (m < n_modes_save c)%N) -> mode_of files f m = None.
  by move=> D; apply: mode_of_none => y /Hfiles [Hf [Hm _]]; case: D.
have Hyes m (Hm : (m < n_modes_save c)%N) : (f < n_freq c)%N -> mode_of files f m = Some (ref_mode_file eig argsort rec W sh H f (Ordinal Hm)).
  move=> Hf; apply: mode_of_spec => y; rewrite Hfiles; split; last by move=> ->; split=> //; exists Hm.
  by move=> [_ [Hm' ->]]; rewrite (eq_irrelevance Hm' Hm).
case: (PeanoNat.Nat.ltb_spec f (n_freq c)) => Hf; last first.
  rewrite /stacked /numbers filter_none // => m; rewrite Hno //; left => /ssrnat.ltP Hf'; lia.
have Hf' := introT ssrnat.ltP Hf.
have Hn : numbers files f = List.seq 0 (n_modes_save c).
  apply: filter_below.
    have Hm : (n_modes_save c - 1 < n_modes_save c)%N by rewrite subn1 prednK.
    have /bound_spec : List.In (f, (n_modes_save c - 1)%N, ref_mode_file eig argsort rec W sh H f (Ordinal Hm)) files by apply/Hfiles; split=> //; exists Hm.
    by rewrite /= -minusE => Hb; have := elimT ssrnat.ltP HK; lia.
  move=> m; case: (ltnP m (n_modes_save c)) => Hm; first by rewrite (Hyes _ Hm) //; split=> // _; apply/ssrnat.ltP.
  rewrite Hno; last by right; rewrite ltnNge Hm.
  by split=> // /ssrnat.ltP; rewrite ltnNge Hm.
rewrite /stacked Hn.
have Hne : List.seq 0 (n_modes_save c) <> nil by move/(f_equal (@length _)); rewrite List.seq_length /=; have := elimT ssrnat.ltP HK; lia.
have some_of (S R : Type) (l : list S) (F : list S -> R) : l <> nil -> match l with nil => None | x :: y => Some (F (x :: y)) end = Some (F l) by case: l.
rewrite (some_of _ _ _ (fun ms => Nd (List.app sh (cons (length ms) nil)) (List.flat_map (fun i => List.map (fun m => List.nth i (if mode_of files f m is Some x then x else nil) 0) ms) (List.seq 0 (Base_List.prod sh))))) //.
rewrite List.seq_length /ref_freq_file; congr (Some (Nd _ _)).
rewrite !List.flat_map_concat_map map_seq_ord; congr (List.concat _); apply: List.map_ext => i.
rewrite map_seq_ord; apply: List.map_ext => m.
have Hm : (val m < n_modes_save c)%N := ltn_ord m.
rewrite (Hyes _ Hm) // /ref_mode_file nth_List -[List.map _ _]/(map _ _) (nth_map i) ?size_enum_ord // nth_ord_enum.
by congr (ref_mode _ _ _ _ _ _ _); apply: val_inj.
Qed.
End Ref.

(* ---- C166 ---- *)
(* A fit of netCDF files that writes one file per mode, on any number of processes, and a fit of the same record in memory on any other number: one process
   without communicator computes the same coefficients, the same stored modes and the same stored mean from either folder (weights.npy as
   C165 says), for every selection of frequencies, every tolerance and any data. *)
Theorem C166_serial_coefficients_from_mode_files : forall (C : numClosedFieldType) eig argsort (A : Type) (cast : A -> C) isreal s ds xs nv user np
    real fs names size nreaders ver nchunks nblks orders order2 c eigs arrays eigs' files weights mean,
  valid_arrays s ds xs nv user np ->
  @valid_files C s xs nv fs names user size nreaders ver nchunks nblks orders order2 ->
  List.map (List.map cast) (record ds) = nc_record 0 (Base_List.prod xs) fs names ->
  real = List.forallb isreal (List.hd nil (record ds)) ->
  configure s (length (record ds)) real = Ok c ->
  fit_array eig argsort cast isreal s ds (length xs) nv user np = Ok (eigs, arrays) ->
  fit_files eig argsort s xs nv real fs names user size nreaders ver nchunks nblks orders order2 = Ok (eigs', files) ->
  store_files s xs nv real fs names user size nreaders ver nchunks nblks orders = Ok (weights, mean) ->
  forall svd (tol : C) (B : Type) (cast' : B -> C) T_lb T_ub freq_idx data,
  coef_array svd tol cast' (folder_of_files s c xs nv weights files) T_lb T_ub freq_idx data None
  = coef_array svd tol cast' (folder_of_fit s c xs nv user arrays) T_lb T_ub freq_idx data None.
Proof.
move=> C eig argsort A cast isreal s ds xs nv user np real fs names size nreaders ver nchunks nblks orders order2 c eigs arrays eigs' files weights mean.
move=> Hv Hv' E Er Hc Ha Hf Hst svd tol B cast' T_lb T_ub freq_idx data.
have [c1 [H [Hc1 Ea]]] := C121_fit_arrays_is_spod eig argsort cast isreal Hv.
have [c2 [H' [files' [Hc2 Ef Hfiles]]]] := C122_fit_files_is_spod eig argsort real Hv'.
have El : length (nc_record 0 (Base_List.prod xs) fs names) = length (record ds) by rewrite -E List.map_length.
rewrite -Er Hc in Hc1; case: Hc1 => Ec; subst c1.
rewrite El Hc in Hc2; case: Hc2 => Ec; subst c2.
rewrite (eq_irrelevance H' H) in Hfiles.
rewrite (C165_stored_netcdf real Hv') in Hst; case: Hst => Ew _.
rewrite Ha in Ea; case: Ea => _ Earr; rewrite Hf in Ef; case: Ef => _ Efil.
have HK : (0 < n_modes_save c)%N.
  case: Hv' => nb [_ [_ [[Hov Hm _] Hnb]]].
  have [_ [H2 _]] := @starts_eq _ (s_ndft s) (s_novlp s) nb (elimT ssrnat.ltP Hov) Hnb.
  move: Hc; rewrite -El /configure Hnb /= => -[<-] /=.
  by case: ifP => // _; apply/ssrnat.ltP; lia.
rewrite /folder_of_files /folder_of_fit -Ew.
rewrite -[LHS]/(coef_array svd tol cast' (with_weights (Folder (length xs) nv (get_freq_axis (isrealx c) (s_full s) (s_ndft s) (s_dt s)) (n_freq c) (n_modes_save c)
  (Nd (List.app xs [:: nv]) (weights_of 1 user xs nv)) (stacked 0 files (List.app xs [:: nv]))) (Nd (List.app xs [:: nv]) (weights_of 1 user xs nv))) T_lb T_ub freq_idx data None).
apply: (@coef_array_ext C svd tol B cast' (Folder (length xs) nv (get_freq_axis (isrealx c) (s_full s) (s_ndft s) (s_dt s)) (n_freq c) (n_modes_save c)
  (Nd (List.app xs [:: nv]) (weights_of 1 user xs nv)) (fun _ => None)) (stacked 0 files (List.app xs [:: nv])) (fun f => List.nth_error arrays f)) => f.
rewrite Efil (stacked_ref (H := H) HK Hfiles) Earr E.
by rewrite (@nth_error_seq _ (fun f => ref_freq_file eig argsort _ _ _ H f)).
Qed.
Print Assumptions C166_serial_coefficients_from_mode_files.
(* On several processes the same holds if the longest axis of a snapshot is the first one and the number of processes divides the length of the first axis of
   the grid (see C165 for what happens otherwise). *)
Theorem C166_parallel_coefficients_from_mode_files : forall (C : numClosedFieldType) eig argsort (A : Type) (cast : A -> C) isreal s ds xs nv user np
    real fs names size nreaders ver nchunks nblks orders order2 c eigs arrays eigs' files weights mean,
  valid_arrays s ds xs nv user np ->
  @valid_files C s xs nv fs names user size nreaders ver nchunks nblks orders order2 ->
  List.map (List.map cast) (record ds) = nc_record 0 (Base_List.prod xs) fs names ->
  real = List.forallb isreal (List.hd nil (record ds)) ->
  configure s (length (record ds)) real = Ok c ->
  fit_array eig argsort cast isreal s ds (length xs) nv user np = Ok (eigs, arrays) ->
  fit_files eig argsort s xs nv real fs names user size nreaders ver nchunks nblks orders order2 = Ok (eigs', files) ->
  store_files s xs nv real fs names user size nreaders ver nchunks nblks orders = Ok (weights, mean) ->
  forall svd (tol : C) (B : Type) (cast' : B -> C) T_lb T_ub freq_idx data np2,
  argmax (List.tl (Model_Parallel.shape data)) = Ok 0%N -> (0 < np2)%N -> (0 < length xs)%N -> (np2 %| List.hd 0%N xs)%N ->
  coef_array svd tol cast' (folder_of_files s c xs nv weights files) T_lb T_ub freq_idx data (Some np2)
  = coef_array svd tol cast' (folder_of_fit s c xs nv user arrays) T_lb T_ub freq_idx data (Some np2).
Proof.
move=> C eig argsort A cast isreal s ds xs nv user np real fs names size nreaders ver nchunks nblks orders order2 c eigs arrays eigs' files weights mean.
move=> Hv Hv' E Er Hc Ha Hf Hst svd tol B cast' T_lb T_ub freq_idx data np2 Hax Hnp2 Hxs Hdiv.
have [c1 [H [Hc1 Ea]]] := C121_fit_arrays_is_spod eig argsort cast isreal Hv.
have [c2 [H' [files' [Hc2 Ef Hfiles]]]] := C122_fit_files_is_spod eig argsort real Hv'.
have El : length (nc_record 0 (Base_List.prod xs) fs names) = length (record ds) by rewrite -E List.map_length.
rewrite -Er Hc in Hc1; case: Hc1 => Ec; subst c1.
rewrite El Hc in Hc2; case: Hc2 => Ec; subst c2.
rewrite (eq_irrelevance H' H) in Hfiles.
rewrite (C165_stored_netcdf real Hv') in Hst; case: Hst => Ew _.
rewrite Ha in Ea; case: Ea => _ Earr; rewrite Hf in Ef; case: Ef => _ Efil.
have HK : (0 < n_modes_save c)%N.
  case: Hv' => nb [_ [_ [[Hov Hm _] Hnb]]].
  have [_ [H2 _]] := @starts_eq _ (s_ndft s) (s_novlp s) nb (elimT ssrnat.ltP Hov) Hnb.
  move: Hc; rewrite -El /configure Hnb /= => -[<-] /=.
  by case: ifP => // _; apply/ssrnat.ltP; lia.
rewrite /folder_of_files /folder_of_fit -Ew.
set ff := Folder _ _ _ _ _ _ _; set fa := Folder _ _ _ _ _ _ _.
have -> : ff = with_weights ff (Nd [:: Base_List.prod xs; nv] (weights_of 1 user xs nv)) by [].
have Es : xs = List.hd 0%N xs :: List.tl xs by case: (xs) Hxs.
have Ev := @C165_parallel_coefficients_from_a_table_even C svd tol B cast' ff T_lb T_ub freq_idx data (List.hd 0%N xs) (List.tl xs) nv (weights_of 1 user xs nv) np2 Hax Hnp2 Hdiv.
rewrite -Es in Ev; rewrite Ev.
apply: (@coef_array_ext C svd tol B cast' (Folder (length xs) nv (get_freq_axis (isrealx c) (s_full s) (s_ndft s) (s_dt s)) (n_freq c) (n_modes_save c)
  (Nd (List.app xs [:: nv]) (weights_of 1 user xs nv)) (fun _ => None)) (stacked 0 files (List.app xs [:: nv])) (fun f => List.nth_error arrays f)) => f.
rewrite Efil (stacked_ref (H := H) HK Hfiles) Earr E.
by rewrite (@nth_error_seq _ (fun f => ref_freq_file eig argsort _ _ _ H f)).
Qed.
Print Assumptions C166_parallel_coefficients_from_mode_files.

(* the hypotheses are met by the record of C121 and C122: both fits of it succeed, on none, one or two processes and on two *)
Section Nonvacuous.
Variable C : numClosedFieldType.
Example C166_nonvacuous eig argsort np : np \in [:: None; Some 1%N; Some 2%N] ->
  let s := ex_settings C in let orders := fun _ _ : nat => [:: 1; 0]%N in
  valid_arrays s (ex_ds C) [:: 4%N] 1 NoWeights np /\
  @valid_files C s [:: 4%N] 1 (ex_fs C) [:: 0%N; 1%N] NoWeights 2 None 3 2 2 orders orders /\
  List.map (List.map (fun x : C => x)) (record (ex_ds C)) = nc_record 0 (Base_List.prod [:: 4%N]) (ex_fs C) [:: 0%N; 1%N] /\
  true = List.forallb (fun _ : C => true) (List.hd nil (record (ex_ds C))) /\
  exists c eigs arrays eigs' files weights mean,
  [/\ configure s (length (record (ex_ds C))) true = Ok c,
      fit_array eig argsort (fun x : C => x) (fun _ => true) s (ex_ds C) 1 1 NoWeights np = Ok (eigs, arrays),
      fit_files eig argsort s [:: 4%N] 1 true (ex_fs C) [:: 0%N; 1%N] NoWeights 2 None 3 2 2 orders orders = Ok (eigs', files)
    & store_files s [:: 4%N] 1 true (ex_fs C) [:: 0%N; 1%N] NoWeights 2 None 3 2 2 orders = Ok (weights, mean)].
Proof.
move=> Hnp s orders; split; first exact: C121_nonvacuous.
split; first exact: C122_nonvacuous.
split; first by [].
split; first by [].
have [c [H [Hc E]]] := C121_fit_arrays_is_spod eig argsort (fun x : C => x) (fun _ => true) (C121_nonvacuous C Hnp).
have [c' [H' [files [Hc' E' _]]]] := C122_fit_files_is_spod eig argsort true (C122_nonvacuous C).
exists c; do 2!eexists; eexists; exists files; do 2!eexists; split.
- by rewrite -Hc.
- exact: E.
- exact: E'.
- exact: (C165_stored_netcdf true (C122_nonvacuous C)).
Qed.
End Nonvacuous.
