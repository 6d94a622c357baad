(* Run-level facts: the sorted eigenvalues are determined by the matrix alone; consequences. *)
From mathcomp Require Import all_ssreflect all_algebra all_fingroup.
From Verif Require Import Base_CRing Model_Spod Spec_Spod Spec_Stream Proof_Spod Proof_Spectral Proof_StreamAlg Proof_Svd Proof_Dft Proof_Spod2 Proof_Optimal.
Set Implicit Arguments.
Unset Strict Implicit.
Unset Printing Implicit Defensive.
Import GRing.Theory Num.Theory Order.TTheory.
Local Open Scope ring_scope.

Section Run.
Variable C : numClosedFieldType.
Variables (size : nat) (c : config C).
Variable eig : 'M[C]_(n_blocks c) -> 'rV[C]_(n_blocks c) * 'M[C]_(n_blocks c).
Variable argsort : 'rV[C]_(n_blocks c) -> 'I_(n_blocks c) -> 'I_(n_blocks c).
Variables (n : nat) (nloc : 'I_size -> nat) (own : forall r : 'I_size, 'I_(nloc r) -> 'I_n).
Hypothesis Hown : partition_of own.
Variable X : nat -> 'I_n -> C.
Variable w : 'cV[C]_n.
Hypothesis Hw : forall i, 0 <= w i 0.
Hypothesis Heig : eig_ok eig.
Hypothesis Hinv : eig_basis eig.
Hypothesis Hsort : argsort_ok argsort.

Lemma run_V_unit f : run_V eig argsort own X w f \in unitmx.
Proof.
have [Hinj _] := sorted_ok X Hw Heig Hsort f.
rewrite /run_V (reduced_serial c Hown); set V := (eig _).2.
have -> : sort_V argsort (eig (serial_M c X w f)).1 V = col_perm (perm Hinj) V.
  by apply/matrixP => i j; rewrite !mxE permE.
rewrite col_permE unitmx_mul unitmx_perm andbT; apply: Hinv; rewrite serial_gram; exact: gram_herm.
Qed.
Lemma run_diag f : gram (q_hat c X f) w *m run_V eig argsort own X w f
  = run_V eig argsort own X w f *m diag_mx (run_L eig argsort own X w f).
Proof. by have := eigen_diag (run_eigenpairs argsort Hown X Hw Heig f); rewrite serial_gram. Qed.
Lemma run_desc f : desc (run_L eig argsort own X w f).
Proof. by move=> i j Hij; exact: run_L_sorted. Qed.
(* whatever diagonalises the matrix, in descending order, is what the run reports *)
Lemma run_L_unique f V d : V \in unitmx -> gram (q_hat c X f) w *m V = V *m diag_mx d -> desc d ->
  run_L eig argsort own X w f = d.
Proof.
move=> HV EV Hd; apply: desc_unique (run_desc f) Hd _.
exact: eig_perm (run_V_unit f) (run_diag f) HV EV.
Qed.
End Run.

Section Weighted.
Variable C : numClosedFieldType.
(* multiplication by the square roots of the weights turns weighted inner products into plain ones *)
Definition sw n m (w : 'cV[C]_n) (A : 'M[C]_(n, m)) : 'M[C]_(n, m) := \matrix_(i, j) (sqrtC (w i 0) * A i j).
Lemma sw_wip n m p (w : 'cV[C]_n) (A : 'M[C]_(n, m)) (B : 'M[C]_(n, p)) j k : (forall i, 0 <= w i 0) ->
  (adj (sw w A) *m sw w B) j k = wip w A B j k.
Proof.
move=> Hw; rewrite mxE; apply: eq_bigr => i _; rewrite !mxE rmorphM.
have -> : (sqrtC (w i 0))^* = sqrtC (w i 0) by apply/CrealP/ger0_real; rewrite sqrtC_ge0.
by rewrite mulrACA -expr2 sqrtCK mulrC.
Qed.
Lemma sw_gram n nb (w : 'cV[C]_n) (Q : 'M[C]_(n, nb)) : (forall i, 0 <= w i 0) ->
  gram Q w = nb%:R^-1 *: (adj (sw w Q) *m sw w Q).
Proof.
move=> Hw; apply/matrixP => a b; rewrite gramE [RHS]mxE sw_wip //.
Qed.
End Weighted.
