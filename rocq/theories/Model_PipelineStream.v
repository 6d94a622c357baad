(* The whole streaming fit of in-memory data on one or several processes: /repo/pyspod/spod/streaming.py:24-256 (fit) and
   base.py:391-512 (_initialize with streaming=True), from the data given by the caller to the eigenvalues and mode arrays.
   Exact arithmetic; la.svd (194) is a parameter, given for every size.  Every process works with what its own reader delivers and with
   its own weights; the processes meet only in the two allreduce (170, 177) and when a mode file is put together (239).
   Simplification: an exception is reported for the first process. *)
From Coq Require Import QArith.
From Verif Require Import Base_List Model_Parallel Model_Reader1 Model_Reader2 Model_Base Model_Standard Model_Pipeline Model_Streaming Model_StreamShape Spec_Array.
From mathcomp Require Import all_ssreflect all_algebra.
From Verif Require Import Model_Spod Model_SpodPar Model_StreamNum Model_PipelineNum.
Set Implicit Arguments.
Unset Strict Implicit.
Unset Printing Implicit Defensive.
Import GRing.Theory Num.Theory.
Local Open Scope ring_scope.

Section Fit.
Variable C : numClosedFieldType.
Variable svd : forall k, 'M[C]_(k + 1) -> 'M[C]_(k + 1) * 'rV[C]_(k + 1).
(* what one process knows: flat_dim (60), the snapshots its reader delivered until the stream ran dry (100-107), its flattened weights *)
Record slocal := SLocal { sl_m : nat; sl_rows : list (list C); sl_w : list C }.
Definition sl_none := SLocal 0 nil nil.

Section All.
Variable c : config C.
Variable ls : list slocal.
Notation size := (length ls).
Definition sl_at (r : 'I_size) : slocal := List.nth r ls sl_none.
Definition sl_n (r : 'I_size) : nat := sl_m (sl_at r).
(* the entries of all processes, one process after the other; entry i of process r has the position tagnat.Rank i *)
Notation total := (\sum_(r < size) sl_n r)%N.
Definition st_own (r : 'I_size) (i : 'I_(sl_n r)) : 'I_total := @tagnat.Rank size sl_n r i.
Definition st_w : 'cV[C]_total := \col_x List.nth (tagnat.sig2 x) (sl_w (sl_at (tagnat.sig1 x))) 0.
Definition st_X (t : nat) : 'cV[C]_total := \col_x List.nth (tagnat.sig2 x) (List.nth t (sl_rows (sl_at (tagnat.sig1 x))) nil) 0.
(* the collectives keep the processes in step; the number of snapshots is that of process 0 *)
Definition st_N : nat := length (sl_rows (List.hd sl_none ls)).
Fixpoint all_opt (T : Type) (l : list (option T)) : option (list T) :=
  match l with nil => Some nil | o :: l' => match o, all_opt l' with Some x, Some r => Some (x :: r) | _, _ => None end end.
(* 252, base.py:674-680: the eigenvalues of process 0; None when they are not numbers *)
Definition st_eigs (f : nat) : option (list C) :=
  if insub 0%N is Some r then omap (fun e : 'rV[C]_(n_modes_save c) => List.map (fun k => e 0 k) (enum 'I_(n_modes_save c)))
                                (stream_eigs (c := c) st_own st_w (@svd _) st_X st_N r f)
  else None.
(* 225-240: the array of one frequency; without communicator phif has its full shape *)
Definition st_file (par : bool) (sh : list nat) (ax f : nat) : option (nd C) :=
  omap (fun ps => if par then concat_axis ax ps else List.hd (Nd nil nil) ps)
    (all_opt (List.map (fun r : 'I_size => omap (fun phi => if par then mode_piece sh ax size r phi else Nd (List.app sh (cons (n_modes_save c) nil)) (ravel phi))
                                   (stream_modes (c := c) st_own st_w (@svd _) st_X st_N r f)) (enum 'I_size))).
End All.

(* the number of completed transforms of a stream of N snapshots (96-132) *)
Definition completed_blocks (n_dft n_overlap N : nat) : nat :=
  block_i (run n_dft n_overlap tt (fun _ _ _ => tt) (fun _ _ _ => tt) (fun _ _ _ _ => tt) tt tt (fun _ : nat => tt) N).
(* base.py:397-402, 452-453, 461-495, streaming.py:58-66, 96-207: one process *)
Definition stream_rank (A : Type) (cast : A -> C) (isreal : A -> bool) (c : config C) (ds : list (nd A)) (xdim nv : nat) (user : weights_arg C) (cm : comm) : res slocal :=
  do rd <- reader1_init isreal ds xdim nv cm;
  do d <- get_data cast 0 rd (Some 0%N);
  match d with
  | Some (row :: nil) =>
      do wl <- rank_weights 1 user (rd_xshape rd) nv false (rd_max_axis rd) cm (Array (cons row nil));
      let rows := stream_from cast 0 rd 0 (S (rd_nt rd)) in
      do _ <- fit_shapes (length row) (n_modes_save c) (completed_blocks (n_dft c) (n_overlap c) (length rows));
      Ok (SLocal (length row) rows wl)
  | _ => Err AssertionError                                                                               (* 59 *)
  end.
Definition both (X Y : Type) (a : option X) (b : option Y) : option (X * Y) := match a, b with Some x, Some y => Some (x, y) | _, _ => None end.
(* None: some basis vector was divided by a zero norm (181); then NaN is saved or the next svd raises (see C86) *)
Definition fit_stream_array (A : Type) (cast : A -> C) (isreal : A -> bool) (s : settings C) (ds : list (nd A)) (xdim nv : nat) (user : weights_arg C) (np : option nat)
  : res (option (list (list C) * list (nd C))) :=
  do rd <- reader1_init isreal ds xdim nv (List.hd None (comms np));
  do c <- configure s (rd_nt rd) (rd_is_real rd);
  do ls <- all_ok (List.map (stream_rank cast isreal c ds xdim nv user) (comms np));
  let sh := List.app (rd_xshape rd) (cons nv nil) in
  Ok (both (all_opt (List.map (st_eigs c ls) (List.seq 0 (n_freq c))))
           (all_opt (List.map (st_file c ls (if np is Some _ then true else false) sh (rd_max_axis rd)) (List.seq 0 (n_freq c))))).
End Fit.
