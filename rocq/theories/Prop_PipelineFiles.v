(* Property theorems C124 for netCDF files: what a user can rely on in the mode files of a whole fit. *)
From Coq Require Import QArith.
From Verif Require Import Base_List Model_Parallel Model_Reader1 Model_Reader2 Model_Base Model_Standard Model_Pipeline Spec_Array Spec_Reader Spec_Reader2
  Proof_Parallel Proof_Npy2 Proof_Reader1 Proof_Reader1b Proof_Reader2b Proof_Standard1 Proof_Pipeline Prop_Standard1.
From Coq Require Import Sorting.Permutation.
From mathcomp Require Import all_ssreflect all_algebra.
From Verif Require Import Model_Spod Spec_Spod Proof_Spod Model_SpodPar Proof_SpodPar Proof_Spod2 Proof_Spectral Prop_Spod Model_PipelineNum Proof_PipelineNum Proof_PipelineFit Prop_Pipeline.
Set Implicit Arguments.
Unset Strict Implicit.
Unset Printing Implicit Defensive.
Import Order.TTheory GRing.Theory Num.Theory.
Local Open Scope ring_scope.

(* A fit of netCDF files on any number of processes writes one file per frequency and kept mode; the eigenvalues of a frequency are non-negative and
   descend, and the files of one frequency hold modes of unit weighted norm, orthogonal to each other wherever the eigenvalues are positive and distinct. *)
Theorem C124_saved_mode_files : forall (C : numClosedFieldType) eig argsort s xs nv real fs names user size nreaders ver nchunks nblks orders order2 eigs files,
  @valid_files C s xs nv fs names user size nreaders ver nchunks nblks orders order2 -> (forall nb, eig_ok (eig nb)) -> (forall nb, argsort_ok (argsort nb)) ->
  (forall x, List.In x (weights_of 1 user xs nv) -> 0 <= x) ->
  fit_files eig argsort s xs nv real fs names user size nreaders ver nchunks nblks orders order2 = Ok (eigs, files) ->
  exists K,
    (forall f m, (exists x, List.In (f, m, x) files) <-> (f < length eigs)%N /\ (m < K)%N) /\
    (forall f m x y, List.In (f, m, x) files -> List.In (f, m, y) files -> x = y) /\
    (forall f m x, List.In (f, m, x) files -> length x = (Base_List.prod xs * nv)%N) /\
    forall f, (f < length eigs)%N ->
    let lam k := List.nth k (List.nth f eigs nil) 0 in
    [/\ (K <= length (List.nth f eigs nil))%N,
        forall k, 0 <= lam k,
        forall i j, (i <= j)%N -> lam j <= lam i &
        forall j k x y, List.In (f, j, x) files -> List.In (f, k, y) files -> 0 < lam j -> 0 < lam k -> j = k \/ lam j != lam k ->
          \sum_(i < Base_List.prod xs * nv) (List.nth i x 0)^* * List.nth i y 0 * List.nth i (weights_of 1 user xs nv) 0 = (j == k)%:R].
Proof.
move=> C eig argsort s xs nv real fs names user size nreaders ver nchunks nblks orders order2 eigs files Hv Heig Hsort Hw.
have [c [H [files' [Hc /= -> Hfiles]]]] := C122_fit_files_is_spod eig argsort real Hv.
set W := weights_of 1 user xs nv in Hw Hfiles *; set sh := List.app xs (cons nv nil) in Hfiles *; set rec := nc_record 0 (Base_List.prod xs) fs names in Hc Hfiles *.
have Hnb : (0 < n_blocks c)%N.
  case: Hv => nb [_ [_ [[Hov _ _] Hnb]]].
  have [_ [H2 _]] := @starts_eq _ (s_ndft s) (s_novlp s) nb (elimT ssrnat.ltP Hov) Hnb.
  by move: Hc; rewrite /configure Hnb /= => -[<-] /=; apply/ssrnat.ltP; lia.
have Esh : Base_List.prod sh = (Base_List.prod xs * nv)%N by rewrite /sh prod_app /= PeanoNat.Nat.mul_1_r.
move=> -[<- <-]; rewrite /ref_eigs !List.map_length !List.seq_length; exists (n_modes_save c).
split; [|split; [|split]].
- move=> f m; split; first by move=> [x /Hfiles [Hf [Hm _]]].
  by move=> [Hf Hm]; exists (ref_mode_file eig argsort rec W sh H f (Ordinal Hm)); apply/Hfiles; split=> //; exists Hm.
- move=> f m x y /Hfiles [Hf [Hm ->]] /Hfiles [_ [Hm' ->]].
  by rewrite (eq_irrelevance Hm' Hm).
- by move=> f m x /Hfiles [Hf [Hm ->]]; rewrite /ref_mode_file List.map_length -[length _]/(seq.size _) size_enum_ord.
move=> f Hf.
rewrite !nth_map_seq //=.
pose w : 'cV[C]_(Base_List.prod sh) := \col_i List.nth i W 0.
pose X (t : nat) (i : 'I_(Base_List.prod sh)) : C := List.nth i (List.nth t rec nil) 0.
have HW i : 0 <= List.nth i W 0.
  by case: (PeanoNat.Nat.lt_ge_cases i (length W)) => Hi; [apply: Hw; apply: List.nth_In|rewrite List.nth_overflow].
have Hw0 i : 0 <= w i 0 by rewrite mxE; apply: HW.
have Hp := @serial_partition (Base_List.prod sh).
have Elen : length (List.map (fun k => serial_eigs (@eig _) (@argsort _) X w f 0 k) (enum 'I_(n_blocks c))) = n_blocks c.
  by rewrite List.map_length -[length _]/(seq.size _) size_enum_ord.
set E := List.map _ (enum 'I_(n_blocks c)).
have Enth (k : 'I_(n_blocks c)) : List.nth k E 0 = serial_eigs (@eig _) (@argsort _) X w f 0 k.
  by rewrite /E nth_List -[List.map _ _]/(map _ _) (nth_map k) ?size_enum_ord // nth_ord_enum.
have Eover k : (n_blocks c <= k)%N -> List.nth k E 0 = 0 by move=> Hk; rewrite List.nth_overflow // Elen; apply/ssrnat.leP.
have [sigma [_ _ Hdesc _]] := @C37_sorted_and_paired C 1 c (@eig _) (@argsort _) _ _ _ X w f Hp Hw0 (@Heig _) (@Hsort _).
have Hge k : 0 <= List.nth k E 0.
  case: (ltnP k (n_blocks c)) => Hk; last by rewrite Eover.
  rewrite -[k]/(val (Ordinal Hk)) Enth.
  have [H0 HE] := @C34_reported_eigenvalues C 1 c (@eig _) (@argsort _) _ _ _ X w f (Ordinal Hk) Hp Hw0 (@Heig _).
  by rewrite /serial_eigs HE mulr_ge0 // ltW // one_sided_gt0.
split=> //.
- by rewrite Elen.
- move=> i j Hij; case: (ltnP j (n_blocks c)) => Hj; last by rewrite (Eover j).
  have Hi := leq_ltn_trans Hij Hj.
  by rewrite -[j]/(val (Ordinal Hj)) -[i]/(val (Ordinal Hi)) !Enth; apply: Hdesc.
move=> j k x y /Hfiles [_ [Hj ->]] /Hfiles [_ [Hk ->]] Hlj Hlk Hne.
pose lam i := run_L (@eig _) (@argsort _) (size := 1) (fun _ (i : 'I_(Base_List.prod sh)) => i) X w f 0 (widen_ord H i).
have Elam (i : 'I_(n_modes_save c)) : List.nth i E 0 = one_sided c f * lam i.
  rewrite -[val i]/(val (widen_ord H i)) Enth.
  by have [_ HE] := @C34_reported_eigenvalues C 1 c (@eig _) (@argsort _) _ _ _ X w f (widen_ord H i) Hp Hw0 (@Heig _).
have H1 := one_sided_gt0 c f.
move: Hlj Hlk Hne; rewrite -[j]/(val (Ordinal Hj)) -[k]/(val (Ordinal Hk)) !Elam => Hlj Hlk Hne.
rewrite pmulr_rgt0 // in Hlj; rewrite pmulr_rgt0 // in Hlk.
have Hne' : Ordinal Hj = Ordinal Hk \/ lam (Ordinal Hj) != lam (Ordinal Hk).
  by case: Hne => [Ejk|Hd]; [left; apply: val_inj|right; apply: contraNneq Hd => ->].
have -> : (val (Ordinal Hj) == val (Ordinal Hk)) = (Ordinal Hj == Ordinal Hk) by [].
rewrite -(@C35_modes_orthonormal C c (@eig _) (@argsort _) _ X w f H (Ordinal Hj) (Ordinal Hk) Hnb Hw0 (@Heig _) Hlj Hlk Hne').
rewrite -Esh; apply: eq_bigr => i _; congr (_ * _); last by rewrite /w mxE.
have Ev (m : 'I_(n_modes_save c)) : List.nth i (ref_mode_file eig argsort rec W sh H f m) 0 = serial_modes (@eig _) (@argsort _) X w ord0 f H i m.
  by rewrite /ref_mode_file nth_List -[List.map _ _]/(map _ _) (nth_map i) ?size_enum_ord // nth_ord_enum.
by rewrite !Ev.
Qed.
Print Assumptions C124_saved_mode_files.
(* the hypotheses: the run of C122_nonvacuous has default weights, which are ones *)
Example C124_files_nonvacuous (C : numClosedFieldType) eig argsort :
  (exists eigs files, fit_files eig argsort (ex_settings C) [:: 4%N] 1 true (ex_fs C) [:: 0%N; 1%N] NoWeights 2 None 3 2 2 (fun _ _ => [:: 1; 0]%N) (fun _ _ => [:: 1; 0]%N)
     = Ok (eigs, files)) /\
  (forall x, List.In x (weights_of (1 : C) NoWeights [:: 4%N] 1) -> 0 <= x).
Proof.
split; first by have [c [H [files [_ -> _]]]] := C122_fit_files_is_spod eig argsort true (C122_nonvacuous C); do 2!eexists.
by move=> x /=; do 4?[case=> [<-|]; first exact: ler01].
Qed.
