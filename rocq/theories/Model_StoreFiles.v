(* weights.npy and ltm_modes.npy: /repo/pyspod/spod/base.py:662-684 (_store_and_save), with what base.py:391-512 (_initialize) computed for them
   (_weights 437-495, _lt_mean 574-617), on one or several processes.  Exact arithmetic.
   Simplifications: an exception is reported for the first process; the casts of _set_dtype do not change the values (see C133). *)
From Coq Require Import QArith.
From Verif Require Import Base_List Model_Parallel Model_Reader1 Model_Reader2 Model_Base Model_Standard Model_Pipeline Spec_Array.
From mathcomp Require Import all_ssreflect all_algebra.
From Verif Require Import Model_Spod Model_SpodPar Model_PipelineNum.
Set Implicit Arguments.
Unset Strict Implicit.
Unset Printing Implicit Defensive.
Import GRing.Theory Num.Theory.
Local Open Scope ring_scope.

Section Store.
Variable C : numClosedFieldType.
(* base.py:576, 589-617: the long-time mean of one process, whatever the type of mean; m = number of its entries *)
Definition lt_mean_list (nt nblocks m : nat) (d : held C) : list C :=
  let mu : 'rV[C]_m := mean_of 0 +%R (fun v n => n%:R^-1 *: v) (to_row m) nt nblocks d in List.map (fun i => mu 0 i) (enum 'I_m).
(* 680-681 with the shape of 676-677 (flattened reader; assigning a shape of another size raises) *)
Definition shape_flat (n nv : nat) (v : list C) : res (nd C) :=
  if Nat.eqb (n * nv)%N (length v) then Ok (Nd (cons n (cons nv nil)) v) else Err ValueError.
(* 680-681 with the shape of 679 (-1 on the distributed axis when there is a communicator) *)
Definition shape_array (xs : list nat) (nv ax : nat) (cm : comm) (v : list C) : res (nd C) :=
  do s' <- save_shape (List.app xs (cons nv nil)) ax cm (length v); Ok (Nd s' v).
(* 683-684 with utils/parallel.py:202-250 (npy_save): the pieces of all processes along one axis *)
Definition saved (np : option nat) (ax : nat) (ps : list (nd C)) : nd C :=
  match np with None => List.hd (Nd nil nil) ps | Some _ => concat_axis ax ps end.

(* in-memory data: the contents of weights.npy and ltm_modes.npy *)
Definition store_array (A : Type) (cast : A -> C) (isreal : A -> bool) (s : settings C) (ds : list (nd A)) (xdim nv : nat) (user : weights_arg C) (np : option nat)
  : res (nd C * nd C) :=
  do rd <- reader1_init isreal ds xdim nv (List.hd None (comms np));
  do c <- configure s (rd_nt rd) (rd_is_real rd);
  do ps <- all_ok (List.map (fun cm =>
      do rd_d <- load_array cast 0 isreal ds xdim nv cm;
      do wl <- rank_weights 1 user (rd_xshape rd_d.1) nv false (rd_max_axis rd_d.1) cm rd_d.2;
      do m <- entries rd_d.2;
      do w <- shape_array (rd_xshape rd_d.1) nv (rd_max_axis rd_d.1) cm wl;
      do l <- shape_array (rd_xshape rd_d.1) nv (rd_max_axis rd_d.1) cm (lt_mean_list (nt c) (n_blocks c) m rd_d.2);
      Ok (w, l)) (comms np));
  Ok (saved np (rd_max_axis rd) (List.map fst ps), saved np (rd_max_axis rd) (List.map snd ps)).
(* netCDF files (flattened reader, max_axis 0) *)
Definition store_files (s : settings C) (xs : list nat) (nv : nat) (real : bool) (fs : nat -> ncfile C) (names : list nat) (user : weights_arg C)
    (size : nat) (nreaders : option nat) (mpi_version nchunks nblks : nat) (orders : nat -> nat -> list nat) : res (nd C * nd C) :=
  do c <- configure s (total_steps fs names) real;
  do ps <- all_ok (List.map (fun r =>
      do st <- get_data2 0 size (nreaders_of nreaders size) (Base_List.prod xs) nv mpi_version nchunks nblks fs names r (orders r);
      do wl <- rank_weights 1 user xs nv true 0 (Some (size, r)) (Chunks st);
      do m <- entries (Chunks st);
      let n := (blockdist (Base_List.prod xs) size r).1 in
      do w <- shape_flat n nv wl;
      do l <- shape_flat n nv (lt_mean_list (nt c) (n_blocks c) m (Chunks st));
      Ok (w, l)) (List.seq 0 size));
  Ok (saved (Some size) 0 (List.map fst ps), saved (Some size) 0 (List.map snd ps)).
End Store.
