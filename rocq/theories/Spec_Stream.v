(* Specification for the streaming theorems, independent of the model. *)
From mathcomp Require Import all_ssreflect all_algebra.
Set Implicit Arguments.
Unset Strict Implicit.
Unset Printing Implicit Defensive.
Import GRing.Theory Num.Theory.
Local Open Scope ring_scope.
Section Spec.
Variable C : numClosedFieldType.
(* entry-wise: columns of U are orthonormal *)
Definition orthonormal_cols m n (U : 'M[C]_(m, n)) : Prop :=
  forall i j, \sum_l (U l i)^* * U l j = (i == j)%:R.
(* what numpy's svd promises for a square matrix: K = U diag(s) V^H with U and V unitary,
   singular values non-negative and in descending order *)
Definition svd_ok n (svd : 'M[C]_n -> 'M[C]_n * 'rV[C]_n) : Prop :=
  forall K, let U := (svd K).1 in let s := (svd K).2 in
  [/\ orthonormal_cols U, (forall i, 0 <= s 0 i), (forall i j : 'I_n, (i <= j)%N -> s 0 j <= s 0 i)
    & exists V : 'M[C]_n, orthonormal_cols V /\ forall a b, K a b = \sum_l U a l * s 0 l * (V b l)^*].
(* the covariance sum_l s_l^2 u_l u_l^H represented by a basis with its singular values *)
Definition represented m n (U : 'M[C]_(m, n)) (s : 'rV[C]_n) (x y : 'I_m) : C :=
  \sum_l s 0 l ^+ 2 * U x l * (U y l)^*.
End Spec.
