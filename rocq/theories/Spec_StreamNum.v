(* Specification for the numerical streaming theorems, independent of the model's update rules. *)
From mathcomp Require Import all_ssreflect all_algebra.
From Verif Require Import Spec_StreamTime.
From Verif Require Import Model_Spod.
Set Implicit Arguments.
Unset Strict Implicit.
Unset Printing Implicit Defensive.
Import GRing.Theory Num.Theory.
Local Open Scope ring_scope.
Section Spec.
Variable C : numClosedFieldType.
Variable c : config C.
(* x: the time series of one entry. Windowed transform, at frequency f, of the n_dft snapshots from s on,
   minus the mean of all snapshots received when the block is complete; scaled by the gain of the window
   over n_dft; doubled at interior frequencies of real data. *)
Definition stream_transform (x : nat -> C) (s f : nat) : C :=
  let mean := (\sum_(u < s + n_dft c) x u) / (s + n_dft c)%:R in
  let doubled := if isrealx c && (0 < f)%N && (f < n_freq c - 1)%N then 2 else 1 in
  doubled * (win_weight c / (n_dft c)%:R
             * \sum_(l < n_dft c) (x (s + l)%N - mean) * window c l * omega c ^+ (f * l)).
(* transform of block j of the stream *)
Definition stream_block (x : nat -> C) (j f : nat) : C :=
  stream_transform x (stream_start (n_dft c) (n_dft c - n_overlap c) j) f.
(* weight of block j after N blocks *)
Definition block_weight (N j : nat) : C := j.+2%:R / (j.+3%:R * N.+2%:R).
(* the weighted cross-spectral matrix after N blocks, at entries x and y of the snapshots X *)
Definition stream_csd n (X : nat -> 'cV[C]_n) (N f : nat) (x y : 'I_n) : C :=
  \sum_(j < N) block_weight N j * stream_block (fun u => X u x 0) j f * (stream_block (fun u => X u y 0) j f)^*.
(* the pieces held by the ranks are the rows of P *)
Definition assembles size n k (nloc : 'I_size -> nat) (own : forall r : 'I_size, 'I_(nloc r) -> 'I_n)
    (piece : forall r : 'I_size, option 'M[C]_(nloc r, k)) (P : 'M[C]_(n, k)) : Prop :=
  forall r, exists M, piece r = Some M /\ forall i j, M i j = P (own r i) j.
End Spec.
