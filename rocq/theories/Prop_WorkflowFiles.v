(* Property theorem C166 (2): fit of netCDF files, coefficients from its mode files, reconstruction. *)
From Coq Require Import QArith.
From Verif Require Import Base_List Model_Parallel Model_Reader1 Model_Reader2 Model_Select Model_Base Model_Standard Model_Pipeline Spec_Array Spec_Reader Spec_Reader2
  Model_RecFile Spec_RecFile Proof_Parallel Proof_Npy2 Proof_Reader1 Proof_Reader1b Proof_Pipeline Proof_RecFile Prop_RecFile Prop_Sizes.
From Coq Require Import Sorting.Permutation.
From mathcomp Require Import all_ssreflect all_algebra.
From Verif Require Import Model_Spod Spec_Spod Spec_Coeffs Proof_Spod Model_SpodPar Proof_SpodPar Proof_Spectral Proof_StreamAlg Proof_Optimal Proof_Optimal2 Model_Coeffs Proof_StreamNum3 Proof_Svd Proof_Coeffs Prop_Coeffs Prop_Roundtrip
  Model_PipelineNum Proof_PipelineNum Proof_PipelineFit Prop_Pipeline Model_PipelineCoef Proof_PipelineCoef Prop_PipelineCoef Prop_Workflow Model_StoreFiles Prop_StoreFiles Model_PipelineFiles Prop_PipelineFiles2.
Set Implicit Arguments.
Unset Strict Implicit.
Unset Printing Implicit Defensive.
Import Order.TTheory GRing.Theory Num.Theory.
Local Open Scope ring_scope.

(* who can compute coefficients of data from the table of weights of a netCDF fit: one process without communicator, and any number of processes that
   divides the length of the first axis of the grid if that axis is the longest of a snapshot *)
Definition usable_by (A : Type) (xs : list nat) (data : nd A) (np : option nat) : Prop :=
  match np with
  | None => True
  | Some size => [/\ argmax (List.tl (Model_Parallel.shape data)) = Ok 0%N, (0 < size)%N, (0 < length xs)%N & (size %| List.hd 0%N xs)%N]
  end.
(* Three calls: a fit of netCDF files on any number of processes (one file per mode), the coefficients of the same record held in memory from the folder
   the fit left, by one process without communicator or by several where the weights can be used (C165), a reconstruction of any non-empty selection of times on `size` processes.  Same assumptions as
   C161: the snapshots that lie in a block come back unchanged. *)
Theorem C166_record_returns : forall (C : numClosedFieldType) eig argsort (svd : forall p, 'M[C]_p -> 'M[C]_p * 'rV[C]_p * 'M[C]_p) (tol : C)
    (A : Type) (cast : A -> C) isreal s (data : nd A) xs nv user
    real fs names usize nreaders ver nchunks nblks orders order2 c eigs files weights mean,
  valid_arrays s [:: data] xs nv user None ->
  @valid_files C s xs nv fs names user usize nreaders ver nchunks nblks orders order2 ->
  List.map (List.map cast) (Spec_Reader.record [:: data]) = nc_record 0 (Base_List.prod xs) fs names ->
  real = List.forallb isreal (List.hd nil (Spec_Reader.record [:: data])) ->
  configure s (length (Spec_Reader.record [:: data])) real = Ok c ->
  fit_files eig argsort s xs nv real fs names user usize nreaders ver nchunks nblks orders order2 = Ok (eigs, files) ->
  store_files s xs nv real fs names user usize nreaders ver nchunks nblks orders = Ok (weights, mean) ->
  [/\ s_mean s = Longtime, s_norm s = false, n_freq c = s_ndft s, (0 < s_modes s)%N & (s_ndft s).-primitive_root (s_omega s)] ->
  (forall k, (k < s_ndft s)%N -> s_window s k != 0) -> \sum_(k < s_ndft s) s_window s k != 0 ->
  (forall x, List.In x (weights_of 1 user xs nv) -> 0 < x) ->
  eig_ok (eig (n_blocks c)) -> eig_basis (eig (n_blocks c)) -> argsort_ok (argsort (n_blocks c)) -> svd3_ok (@svd (n_freq c * n_modes_save c)%N) ->
  let lam f k := List.nth k (List.nth f eigs nil) 0 in
  (forall f k, (f < n_freq c)%N -> (k < n_modes_save c)%N -> 0 < lam f k) ->
  (forall f k, (f < n_freq c)%N -> (n_modes_save c <= k)%N -> lam f k = 0) ->
  let fo := folder_of_files s c xs nv weights files in let sh := List.app xs [:: nv] in let p := (n_freq c * n_modes_save c)%N in
  exists cs ms mu ax,
    (forall np2, usable_by xs data np2 -> coef_array svd tol cast fo None None None data np2 = Ok (cs, ms, mu, ax)) /\
    (well_conditioned tol (svd p (mode_gram (w_of fo (Base_List.prod sh)) (matrix_of (Base_List.prod sh) p (flat ms)))).1.2 ->
     forall tsel ts, selected_times (List.hd 0%N (Model_Parallel.shape data)) tsel = Ok ts -> ts <> nil ->
     exists Q,
     [/\ local_rec 0 +%R *%R ms cs mu ax tsel None = Ok Q, Model_Parallel.shape Q = length ts :: sh,
         (forall k i idx, List.nth_error ts k = Some i -> covered c i -> valid sh idx -> entry Q (k :: idx) = Some (sample cast data i (Spec_Array.ravel sh idx))) &
         forall (B : Type) (enc : C -> list B) hdr es size, (forall x, length (enc x) = es) -> (0 < size)%N ->
         exists locs, List.Forall2 (fun r q => local_rec 0 +%R *%R ms cs mu ax tsel (Some (size, r)) = Ok q) (List.seq 0 size) locs /\
         forall order, Permutation order (npy_save_writes enc hdr es (S ax) locs) ->
         forall before pos, npy_save_file order before pos = List.nth_error (np_save enc hdr Q) pos]).
Proof.
move=> C eig argsort svd tol A cast isreal s data xs nv user real fs names usize nreaders ver nchunks nblks orders order2 c eigs files weights mean.
move=> Hv Hv' E Er Hcfg Hfit Hst Hs Hwin Hsum HW Heig Hbasis Hsort Hsvd lam Hpos Hzero fo sh p.
have [eigs0 [arrays [files0 [Ea Ef _ _]]]] := C123_files_and_arrays_agree eig argsort Hv Hv' E Er.
rewrite Hfit in Ef; case: Ef => Ee Efi; subst eigs0 files0.
have Hcfg' := Hcfg; rewrite Er in Hcfg'.
have Ew : weights = Nd [:: Base_List.prod xs; nv] (weights_of 1 user xs nv).
  by move: Hst; rewrite (C165_stored_netcdf real Hv') => -[<- _].
have [cs [ms [mu [ax [Hcoef Hrec]]]]] := @C161_record_returns C eig argsort svd tol A cast isreal s data xs nv user None c eigs arrays Hv Hcfg' Ea Hs Hwin Hsum HW Heig Hbasis Hsort Hsvd Hpos Hzero.
exists cs, ms, mu, ax; split.
  move=> [np2|] Hu; rewrite /fo; last by rewrite (C166_serial_coefficients_from_mode_files Hv Hv' E Er Hcfg Ea Hfit Hst); exact: (Hcoef None).
  case: Hu => H1 H2 H3 H4; rewrite (C166_parallel_coefficients_from_mode_files Hv Hv' E Er Hcfg Ea Hfit Hst svd tol cast None None None H1 H2 H3 H4); exact: (Hcoef (Some np2)).
by move: Hrec; rewrite /fo Ew.
Qed.
Print Assumptions C166_record_returns.

(* the hypotheses are met by the record of C161, here from two files of five and three snapshots *)
Section Nonvacuous.
Variable C : numClosedFieldType.
Definition wf_files (k : nat) : ncfile C := if k == 0%N then NcFile (List.map Z.of_nat [:: 0; 1; 2; 3; 4]%N) [:: [:: [:: 1; 1]; [:: 0; 0]; [:: 0; 0]; [:: 0; 0]; [:: -1; 0]]]
  else NcFile (List.map Z.of_nat [:: 5; 6; 7]%N) [:: [:: [:: 0; -1]; [:: 0; 0]; [:: 0; 0]]].
Definition wf_orders (_ _ : nat) : list nat := [:: 0]%N.
Definition wf_valid ver : Prop := valid_files (wf_s C) [:: 2%N] 1 wf_files [:: 0%N; 1%N] NoWeights 1 None ver 2 2 wf_orders wf_orders.
Lemma wf_valid4 : wf_valid 4.
Proof.
exists (Z.of_nat 2); split; [|split; [|split]] => //; split=> //.
- by repeat constructor => /=; intuition.
- move=> k [<-|[<-|//]]; split.
  + split=> // v [<-|//]; split=> // row; do 5?[case=> [<-|//]] => //.
  + by do 5?[constructor; first by move=> /=; intuition]; constructor.
  + split=> // v [<-|//]; split=> // row; do 3?[case=> [<-|//]] => //.
  + by do 3?[constructor; first by move=> /=; intuition]; constructor.
- by move=> m Hm; left.
- by move=> -[|r].
Qed.
Example C166_record_nonvacuous : exists eig argsort (svd : forall p, 'M[C]_p -> 'M[C]_p * 'rV[C]_p * 'M[C]_p) eigs files weights mean,
  let s := wf_s C in let c := wf_c C in let isreal := fun _ : C => false in let fo := folder_of_files s c [:: 2%N] 1 weights files in
  [/\ valid_arrays s [:: wf_d C] [:: 2%N] 1 NoWeights None, wf_valid 4,
      List.map (List.map (fun x : C => x)) (Spec_Reader.record [:: wf_d C]) = nc_record 0 (Base_List.prod [:: 2%N]) wf_files [:: 0%N; 1%N],
      false = List.forallb isreal (List.hd nil (Spec_Reader.record [:: wf_d C])) &
      configure s (length (Spec_Reader.record [:: wf_d C])) false = Ok c] /\
  [/\ fit_files eig argsort s [:: 2%N] 1 false wf_files [:: 0%N; 1%N] NoWeights 1 None 4 2 2 wf_orders wf_orders = Ok (eigs, files),
      store_files s [:: 2%N] 1 false wf_files [:: 0%N; 1%N] NoWeights 1 None 4 2 2 wf_orders = Ok (weights, mean) &
      [/\ s_mean s = Longtime, s_norm s = false, n_freq c = s_ndft s, (0 < s_modes s)%N & (s_ndft s).-primitive_root (s_omega s)]] /\
  [/\ forall k, (k < s_ndft s)%N -> s_window s k != 0, \sum_(k < s_ndft s) s_window s k != 0 &
      forall x, List.In x (weights_of (1 : C) NoWeights [:: 2%N] 1) -> 0 < x] /\
  [/\ eig_ok (eig (n_blocks c)), eig_basis (eig (n_blocks c)), argsort_ok (argsort (n_blocks c)) & svd3_ok (@svd (n_freq c * n_modes_save c)%N)] /\
  [/\ forall f k, (f < n_freq c)%N -> (k < n_modes_save c)%N -> 0 < List.nth k (List.nth f eigs nil) 0,
      forall f k, (f < n_freq c)%N -> (n_modes_save c <= k)%N -> List.nth k (List.nth f eigs nil) 0 = 0,
      forall ms, well_conditioned 0 (svd 8%N (mode_gram (w_of fo 2) (matrix_of 2 8 ms))).1.2 & forall i, (i < 8)%N -> covered c i].
Proof.
have [eig [argsort [svd [eigs [arrays [[Hv Hcfg Hfit Hs] [Hw [He [Hp Hz Hc Hcov]]]]]]]]] := C161_nonvacuous C.
have Hv0 := Hv None (or_introl erefl).
have E : List.map (List.map (fun x : C => x)) (Spec_Reader.record [:: wf_d C]) = nc_record 0 (Base_List.prod [:: 2%N]) wf_files [:: 0%N; 1%N] by [].
have [eigs0 [arrays0 [files [Ea Ef _ _]]]] := @C123_files_and_arrays_agree C eig argsort C (fun x => x) (fun _ => false) _ _ _ _ _ None false _ _ _ _ _ _ _ _ _ Hv0 wf_valid4 E erefl.
rewrite (Hfit None (or_introl erefl)) in Ea; case: Ea => Ee _; subst eigs0.
exists eig, argsort, svd, eigs, files; do 2!eexists.
split; first by split=> //; exact: wf_valid4.
split; first by split=> //; exact: (C165_stored_netcdf false wf_valid4).
by [].
Qed.
Example C166_usable_nonvacuous : usable_by [:: 2%N] (wf_d C) None /\ usable_by [:: 2%N] (wf_d C) (Some 1%N) /\ usable_by [:: 2%N] (wf_d C) (Some 2%N).
Proof. by []. Qed.
End Nonvacuous.
