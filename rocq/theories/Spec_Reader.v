(* What a reader should deliver.  Independent of the reader model. *)
From Verif Require Import Base_List Model_Parallel Spec_Array.

(* snapshot t of a dataset of shape nt :: sp is the C-ordered list of its prod sp entries *)
Definition snapshots {A} (a : nd A) : list (list A) :=
  match shape a with
  | [] => []
  | nt :: sp => map (fun t => window (t * prod sp) (prod sp) (flat a)) (seq 0 nt)
  end.

(* the record: all snapshots of all datasets in order *)
Definition record {A} (ds : list (nd A)) : list (list A) := concat (map snapshots ds).

(* the piece of a snapshot of shape sp that a process owns when axis ax is distributed *)
Definition local_piece {A} (sp : list nat) (ax : nat) (c : comm) (row : list A) : list A :=
  match c with
  | None => row
  | Some (size, rank) =>
      let '(n, s) := blockdist (nth ax sp 0) size rank in
      flat (slice_axis ax s n (Nd sp row))
  end.

(* datasets over the same grid *)
Definition same_grid {A} (sp : list nat) (ds : list (nd A)) : Prop :=
  forall d, In d ds -> wf d /\ tl (shape d) = sp /\ shape d <> [].
