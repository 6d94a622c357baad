(* Specification for the POD theorems, independent of the model. *)
From mathcomp Require Import all_ssreflect all_algebra.
From Verif Require Import Spec_Spod.
Set Implicit Arguments.
Unset Strict Implicit.
Unset Printing Implicit Defensive.
Import GRing.Theory Num.Theory.
Local Open Scope ring_scope.
Section Spec.
Variable C : numClosedFieldType.
Definition real_mx m n (M : 'M[C]_(m, n)) : Prop := forall i j, M i j \is Num.real.
(* an answer of scipy.linalg.eig for a real symmetric matrix: real unit eigenvectors that form a basis, in any order *)
Definition eig_answer n (M : 'M[C]_n) (L : 'rV[C]_n) (V : 'M[C]_n) : Prop :=
  [/\ eigenpairs M L V, V \in unitmx & real_mx V].
Definition real_eig_ok n (eig : 'M[C]_n -> 'rV[C]_n * 'M[C]_n) : Prop :=
  forall M, hermitian M -> real_mx M -> eig_answer M (eig M).1 (eig M).2.
(* the k leading answers are for different eigenvalues, or are orthonormal *)
Definition leading_ok n k (L : 'rV[C]_n) (V : 'M[C]_n) : Prop :=
  (forall i j : 'I_n, (i < k)%N -> (j < k)%N -> L 0 i = L 0 j -> i = j) \/
  (forall i j : 'I_n, (i < k)%N -> (j < k)%N -> \sum_l (V l i)^* * V l j = (i == j)%:R).
End Spec.
