(* Specification of the streaming schedule, independent of the model. *)
From Coq Require Import Arith.
(* number of overlapping windows: n_dft/hop rounded up *)
Definition windows_open (n_dft hop : nat) : nat := (n_dft + hop - 1) / hop.
(* first snapshot of the k-th block of the stream: one extra snapshot is lost in every round *)
Definition stream_start (n_dft hop k : nat) : nat := k * hop + k / windows_open n_dft hop.
(* exactly K blocks fit in the first N snapshots *)
Definition blocks_done (n_dft hop N K : nat) : Prop :=
  N < stream_start n_dft hop K + n_dft /\ forall k, k < K -> stream_start n_dft hop k + n_dft <= N.
