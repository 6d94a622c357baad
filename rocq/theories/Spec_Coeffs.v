(* Specification for coefficients and reconstructions, independent of the model. *)
From mathcomp Require Import all_ssreflect all_algebra.
Set Implicit Arguments.
Unset Strict Implicit.
Unset Printing Implicit Defensive.
Import GRing.Theory Num.Theory.
Local Open Scope ring_scope.
Section Spec.
Variable C : numClosedFieldType.
(* numpy.linalg.svd of a square matrix: M = u diag(l) v, u and v unitary, l non-negative and descending *)
Definition svd3_ok p (svd : 'M[C]_p -> 'M[C]_p * 'rV[C]_p * 'M[C]_p) : Prop :=
  forall M, let u := (svd M).1.1 in let l := (svd M).1.2 in let v := (svd M).2 in
  [/\ (forall i j, \sum_k (u k i)^* * u k j = (i == j)%:R),
      (forall i j, \sum_k v i k * (v j k)^* = (i == j)%:R),
      (forall i, 0 <= l 0 i), (forall i j : 'I_p, (i <= j)%N -> l 0 j <= l 0 i)
    & forall a b, M a b = \sum_k u a k * l 0 k * v k b].
Definition largest p (l : 'rV[C]_p) (m : C) : Prop := (exists i, l 0 i = m) /\ forall i, l 0 i <= m.
(* time mean of entry x of a record of nt snapshots *)
Definition time_mean nt n (data : 'M[C]_(nt, n)) (x : 'I_n) : C := (\sum_t data t x) / nt%:R.
Definition fluctuation nt n (data : 'M[C]_(nt, n)) (t : 'I_nt) (x : 'I_n) : C := data t x - time_mean data x.
(* weighted squared distance at time t between the fluctuation and the combination of modes with coefficients a *)
Definition misfit nt n p (w : 'cV[C]_n) (Phi : 'M[C]_(n, p)) (data : 'M[C]_(nt, n)) (t : 'I_nt) (a : 'I_p -> C) : C :=
  \sum_x w x 0 * `|fluctuation data t x - \sum_j Phi x j * a j| ^+ 2.
Definition in_span nt n p (Phi : 'M[C]_(n, p)) (data : 'M[C]_(nt, n)) : Prop :=
  exists a : 'I_nt -> 'I_p -> C, forall t x, fluctuation data t x = \sum_j Phi x j * a t j.
End Spec.
