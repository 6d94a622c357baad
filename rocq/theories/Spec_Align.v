(* Specification for C153: lengths of fields. *)
From mathcomp Require Import all_ssreflect all_algebra.
Set Implicit Arguments.
Unset Strict Implicit.
Unset Printing Implicit Defensive.
Import GRing.Theory Num.Theory.
Local Open Scope ring_scope.

(* the length of a field in the weighted inner product *)
Definition wlen (C : numClosedFieldType) n (w : 'cV[C]_n) (u : 'I_n -> C) : C := sqrtC (\sum_i w i 0 * `|u i| ^+ 2).
