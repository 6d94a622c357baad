(* Specification for the theorems about missing values, independent of the model. A record with missing values:
   X t i is None where the value of entry i at time t is missing. *)
From mathcomp Require Import all_ssreflect all_algebra.
From Verif Require Import Spec_StreamTime Model_Spod.
Set Implicit Arguments.
Unset Strict Implicit.
Unset Printing Implicit Defensive.
Import GRing.Theory Num.Theory.
Local Open Scope ring_scope.
Section Spec.
Variable C : numClosedFieldType.
(* Xc is X with the missing values filled in somehow *)
Definition completes (T : Type) (X : nat -> T -> option C) (Xc : nat -> T -> C) : Prop := forall t i v, X t i = Some v -> Xc t i = v.
(* snapshot t belongs to one of the blocks of a batch fit *)
Definition in_a_block (c : config C) (t : nat) : Prop :=
  exists b, (b < n_blocks c /\ b * (n_dft c - n_overlap c) <= t < b * (n_dft c - n_overlap c) + n_dft c)%N.
(* a layout accepted by fit: the last block ends inside the record *)
Definition layout_ok (c : config C) : Prop :=
  [/\ (0 < n_blocks c)%N, (0 < n_freq c)%N, (1 < n_dft c)%N,
      ((n_blocks c).-1 * (n_dft c - n_overlap c) + n_dft c <= nt c)%N & 0 < eps4 c].
(* a block of the stream is complete when snapshot number t (counted from 0) has arrived *)
Definition completes_a_block (c : config C) (t : nat) : Prop :=
  exists j, t.+1 = (stream_start (n_dft c) (n_dft c - n_overlap c) j + n_dft c)%N.
End Spec.
