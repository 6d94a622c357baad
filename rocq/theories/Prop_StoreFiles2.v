(* Property theorems C165 (2): several processes that can use the table of weights may use it wrongly. *)
From Coq Require Import QArith.
From Verif Require Import Base_List Model_Parallel Model_Reader1 Model_Reader2 Model_Select Model_Base Model_Standard Model_Pipeline Spec_Array Spec_Reader Spec_Reader2
  Proof_Parallel Proof_Npy2 Proof_Reader1 Proof_Reader1b Proof_Reader2b Proof_Pipeline Prop_Sizes Proof_StoreFiles.
From Coq Require Import Lia.
From mathcomp Require Import all_ssreflect all_algebra.
From Verif Require Import Model_Spod Spec_Spod Spec_Coeffs Proof_Spod Model_SpodPar Proof_SpodPar Model_Coeffs Proof_StreamNum3 Proof_Svd Proof_Coeffs Prop_Coeffs Model_PipelineNum Proof_PipelineNum Prop_Pipeline
  Model_PipelineCoef Proof_PipelineCoef Prop_PipelineCoef Model_StoreFiles Prop_StoreFiles.
Set Implicit Arguments.
Unset Strict Implicit.
Unset Printing Implicit Defensive.
Import Order.TTheory GRing.Theory Num.Theory.
Local Open Scope ring_scope.

Section Wrong.
Variable C : numClosedFieldType.
(* two snapshots on a grid of 1 x 2 points with two variables; one frequency with one mode *)
Definition wr_data : nd C := Nd [:: 2; 1; 2; 2]%N [:: 1; 0; 0; 0; -1; 0; 0; 0].
Definition wr_own (w : list C) : folder C := Folder 2 2 [:: inject_Z 0; inject_Z 1] 2 1 (Nd [:: 1; 2; 2]%N w) (fun f => if f is 1%N then Some (Nd [:: 1; 2; 2; 1]%N [:: 1; 1; 0; 0]) else None).
(* the weights are 1 for the first variable and 4 for the second *)
Definition wr_w : list C := [:: 1; 4%:R; 1; 4%:R].
Definition wr_table : folder C := with_weights (wr_own wr_w) (Nd [:: 2; 2]%N wr_w).

(* what processes that cut the table by its columns work with *)
Lemma wr_parallel svd (tol : C) : coef_array svd tol id wr_table (Some (inject_Z 1)) (Some (inject_Z 1)) None wr_data (Some 2%N)
  = coef_array svd tol id (wr_own [:: 1; 1; 4%:R; 4%:R]) (Some (inject_Z 1)) (Some (inject_Z 1)) None wr_data (Some 2%N).
Proof. by []. Qed.
Lemma wr_coef_data w : length w = 4%N -> coef_data (wr_own w) wr_data 2 [:: 1; 2; 2]%N [:: 1; 2; 2]%N.
Proof. by move=> Hw; split; split=> //; left. Qed.
Lemma wr_coef_modes w : coef_modes (wr_own w) (coef_s) [:: 1; 2; 2]%N 1.
Proof. by split=> // f /= [<-|//]; eexists; split; [reflexivity|..]. Qed.

(* what C160 says about such a call: the first coefficient solves the normal equation *)
Lemma wr_normal svd w np cs ms mu ax : svd3_ok (@svd 1%N) -> length w = 4%N -> (forall x, List.In x w -> 0 <= x) -> coef_procs np ->
  coef_array svd 0 id (wr_own w) (Some (inject_Z 1)) (Some (inject_Z 1)) None wr_data np = Ok (cs, ms, mu, ax) ->
  (1 - List.nth 0 (flat cs) 0) * List.nth 0 w 0 = List.nth 0 (flat cs) 0 * List.nth 1 w 0.
Proof.
move=> Hsvd Hlw Hw Hnp E.
have Hsel : select_freqs (rf_freq (wr_own w)) (rf_nfreq (wr_own w)) (Some (inject_Z 1)) (Some (inject_Z 1)) None = Ok coef_s by vm_compute.
have Hd := wr_coef_data Hlw; have Hm := wr_coef_modes w.
have [cs0 [ms0 [mu0 [ax0 [_ Hrun _ [Hms _] Hmu]]]]] := C160_contents_of_the_files svd 0 id Hd Hsel Hm.
have := Hrun np Hnp; rewrite E => -[Ecs Ems Emu _].
have Hwc : well_conditioned 0 (svd 1%N (mode_gram (w_of (wr_own w) 4) (matrix_of 4 1 (flat ms)))).1.2.
  move=> i m _; have [_ _ H0 _ _] := Hsvd (mode_gram (w_of (wr_own w) 4) (matrix_of 4 1 (flat ms))).
  have := H0 i; rewrite mul0r le_eqVlt => /orP [/eqP <-|]; [by left|by right].
have [/(_ 0%N 0%N isT isT) HO _] := @C160_best_approximation C svd 0 C id (wr_own w) wr_data 2 _ _ 1 _ _ _ _ np cs ms mu ax Hd Hsel Hm Hnp E Hw Hsvd Hwc.
have Eq : \sum_(i < 4) (List.nth i [:: 1; 1; 0; 0] 0)^* * (List.nth i [:: 1; 0; 0; 0] 0 - List.nth i [:: 1; 1; 0; 0] 0 * List.nth 0 (flat cs) 0) * List.nth i w 0 = 0 :> C.
  rewrite -[RHS]HO; apply: eq_bigr => i _; rewrite big_ord_recl big_ord0 addr0 Emu Ems [flat _]/= [flat {| Model_Parallel.shape := _; flat := mu0 |}]/= Hmu //.
  have Hi : (i < Base_List.prod [:: 1; 2; 2])%N by exact: ltn_ord.
  have -> : List.nth (i * (1 * 1) + 0) ms0 0 = List.nth i [:: 1; 1; 0; 0] 0.
    by have := Hms 0%N 1%N _ i 0%N erefl erefl Hi isT; rewrite /= !muln1 ?addn0 => ->.
  rewrite !big_ord_recl big_ord0.
  have -> : sample id wr_data 0 i = List.nth i [:: 1; 0; 0; 0] 0 by [].
  have -> : sample id wr_data (val (lift ord0 (ord0 : 'I_1))) i = - List.nth i [:: 1; 0; 0; 0] 0 by case: i {Hi} => [[|[|[|[|i]]]] Hi] //=; rewrite oppr0.
  by rewrite addr0 subrr mul0r subr0.
move: Eq; rewrite !big_ord_recl !big_ord0 /= !rmorph1 !conjC0 !mul0r !addr0 !mul1r add0r mulNr => /eqP.
by rewrite subr_eq0 => /eqP.
Qed.

(* A record with positive weights, whose folder holds the table of weights that a fit of netCDF files leaves (C165): computing the coefficients succeeds
   on one process and on two, but coeffs.npy is not the same.  The two processes use the weights of one variable for all entries of one point. *)
Theorem C165_parallel_coefficients_wrong_weights_refuted : forall (svd : forall p, 'M[C]_p -> 'M[C]_p * 'rV[C]_p * 'M[C]_p), svd3_ok (@svd 1%N) ->
  exists (fo : folder C) (w : list C) (data : nd C) T cs1 ms1 mu1 ax1 cs2 ms2 mu2 ax2,
  [/\ forall x, List.In x w -> 0 < x, length w = 4%N,
      forall np, coef_procs np -> exists r, coef_array svd 0 id (with_weights fo (Nd [:: 1; 2; 2]%N w)) T T None data np = Ok r /\
        coef_array svd 0 id (with_weights fo (Nd [:: 1; 2; 2]%N w)) T T None data None = Ok r,
      coef_array svd 0 id (with_weights fo (Nd [:: 2; 2]%N w)) T T None data None = Ok (cs1, ms1, mu1, ax1) &
      coef_array svd 0 id (with_weights fo (Nd [:: 2; 2]%N w)) T T None data (Some 2%N) = Ok (cs2, ms2, mu2, ax2)] /\ cs1 <> cs2.
Proof.
move=> svd Hsvd; exists (wr_own wr_w), wr_w, wr_data, (Some (inject_Z 1)).
have Hsel w : select_freqs (rf_freq (wr_own w)) (rf_nfreq (wr_own w)) (Some (inject_Z 1)) (Some (inject_Z 1)) None = Ok coef_s by vm_compute.
have [ca [ma [ua [aa [_ Ha _ _ _]]]]] := C160_contents_of_the_files svd 0 id (@wr_coef_data wr_w erefl) (Hsel _) (wr_coef_modes _).
have [cb [mb [ub [ab [_ Hb _ _ _]]]]] := C160_contents_of_the_files svd 0 id (@wr_coef_data [:: 1; 1; 4%:R; 4%:R] erefl) (Hsel _) (wr_coef_modes _).
have Ea := Ha None I; have Eb := Hb (Some 2%N) isT.
have P1 : 0 < (1 : C) := ltr01. have P4 : 0 < (4%:R : C) by rewrite ltr0n.
have Na := wr_normal Hsvd (erefl : length wr_w = 4%N) _ (I : coef_procs None) Ea.
have Nb := wr_normal Hsvd (erefl : length [:: 1; 1; 4%:R; 4%:R] = 4%N) _ (isT : coef_procs (Some 2%N)) Eb.
do 8!eexists; split.
  split; [by move=> x /= [<-|[<-|[<-|[<-|//]]]]|by []| | |].
  - by move=> np Hnp; eexists; split; [exact: (Ha np Hnp)|exact: Ea].
  - exact: Ea.
  - by rewrite (wr_parallel svd 0); exact: Eb.
move=> Ec.
move: Na Nb; rewrite -Ec /=; set x := List.nth 0 _ 0 => Na Nb.
have {}Na : (1 - x) * 1 = x * 4%:R by apply: Na => y /= [<-|[<-|[<-|[<-|//]]]]; exact: ltW.
have {}Nb : (1 - x) * 1 = x * 1 by apply: Nb => y /= [<-|[<-|[<-|[<-|//]]]]; exact: ltW.
have Ex : x = 0.
  apply/eqP; have : x * (4%:R - 1) == 0 by rewrite mulrBr -Na -Nb subrr.
  by rewrite mulf_eq0 => /orP [//|]; rewrite -(natrB _ (isT : (1 <= 4)%N)) pnatr_eq0.
by move: Nb; rewrite Ex subr0 mul0r mulr1 => /eqP; rewrite oner_eq0.
Qed.
End Wrong.
Print Assumptions C165_parallel_coefficients_wrong_weights_refuted.
(* such a routine exists *)
Example C165_wrong_weights_nonvacuous (C : numClosedFieldType) : exists svd : 'M[C]_1 -> 'M[C]_1 * 'rV[C]_1 * 'M[C]_1, svd3_ok svd.
Proof. exact: svd3_routine_exists. Qed.
