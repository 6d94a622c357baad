(* The link between Model_Spod and the distribution of the data (parallel.py:132-151, distribute along one
   axis) and the mode files (standard.py:238-249, npy_save along the same axis). *)
From mathcomp Require Import all_ssreflect all_algebra.
From Verif Require Import Base_List Model_Parallel Model_Spod.
Set Implicit Arguments.
Unset Strict Implicit.
Unset Printing Implicit Defensive.

(* positions, in the flattened snapshot of shape sh (= xshape + variable axis), of the entries of rank r when axis
   ax is distributed over size ranks *)
Definition owned (sh : list nat) (ax size r : nat) : list nat :=
  let ns := blockdist (List.nth ax sh 0%N) size r in
  flat (slice_axis ax ns.2 ns.1 (Nd sh (List.seq 0 (Base_List.prod sh)))).
(* a two-dimensional array in C order *)
Definition ravel (T : Type) m k (A : 'M[T]_(m, k)) : list T :=
  List.flat_map (fun i => List.map (fun j => A i j) (enum 'I_k)) (enum 'I_m).
(* standard.py:242-249: phi gets the shape [*xshape, nv, n_modes_save] with the local length on axis ax *)
Definition mode_piece (T : Type) (sh : list nat) (ax size r : nat) m k (phi : 'M[T]_(m, k)) : nd T :=
  Nd (upd_nth ax (blockdist (List.nth ax sh 0%N) size r).1 sh ++ (cons k nil)) (ravel phi).
