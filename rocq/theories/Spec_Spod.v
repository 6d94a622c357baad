(* Specification for the SPOD theorems, independent of the model. *)
From mathcomp Require Import all_ssreflect all_algebra.
Set Implicit Arguments.
Unset Strict Implicit.
Unset Printing Implicit Defensive.
Import GRing.Theory Num.Theory.
Local Open Scope ring_scope.

Section Spec.
Variable C : numClosedFieldType.
(* weighted inner product of columns j of A and k of B: sum of conj(A_ij) B_ik w_i *)
Definition wip m n p (w : 'cV[C]_m) (A : 'M[C]_(m, n)) (B : 'M[C]_(m, p)) (j : 'I_n) (k : 'I_p) : C :=
  \sum_i (A i j)^* * B i k * w i 0.
Definition hermitian n (M : 'M[C]_n) : Prop := forall i j, M i j = (M j i)^*.
Definition psd n (M : 'M[C]_n) : Prop := forall u : 'I_n -> C, 0 <= \sum_i \sum_j (u i)^* * M i j * u j.
(* what scipy/numpy's general eigensolver promises: columns of V are eigenvectors of unit 2-norm *)
Definition eigenpairs n (M : 'M[C]_n) (L : 'rV[C]_n) (V : 'M[C]_n) : Prop :=
  (forall k, M *m col k V = L 0 k *: col k V) /\ (forall k, \sum_i `|V i k| ^+ 2 = 1).
Definition eig_ok n (eig : 'M[C]_n -> 'rV[C]_n * 'M[C]_n) : Prop :=
  forall M, hermitian M -> eigenpairs M (eig M).1 (eig M).2.
(* ... and for Hermitian matrices (always diagonalisable) a basis of them *)
Definition eig_basis n (eig : 'M[C]_n -> 'rV[C]_n * 'M[C]_n) : Prop :=
  forall M, hermitian M -> (eig M).2 \in unitmx.
(* np.argsort on real values: a permutation that puts them in ascending order; any order among ties *)
Definition argsort_ok n (argsort : 'rV[C]_n -> 'I_n -> 'I_n) : Prop :=
  forall L : 'rV[C]_n, (forall k, L 0 k \is Num.real) ->
    injective (argsort L) /\ forall i j : 'I_n, (i <= j)%N -> L 0 (argsort L i) <= L 0 (argsort L j).
(* every entry of a snapshot of n entries is held by exactly one rank, in exactly one place *)
Definition partition_of size n (nloc : 'I_size -> nat) (own : forall r : 'I_size, 'I_(nloc r) -> 'I_n) : Prop :=
  bijective (fun p : {r : 'I_size & 'I_(nloc r)} => own (tag p) (tagged p)).
End Spec.
