(* The whole POD fit on one or several processes: /repo/pyspod/pod/standard.py:30-75 (fit) and base.py:209-300 (_initialize), from the
   datasets given by the caller to the eigenvalues and the array in modes.npy.  Exact arithmetic; scipy.linalg.eig (52) is a parameter, given for every size.
   Every process works with what it cut out of the datasets and with its own weights; the processes meet only in the allreduce (51) and when the mode
   file is put together (69).  Without normalisation of the weights (base.py:272-279), n_modes_save an integer (see C61 for the default).
   Simplification: an exception is reported for the first process; checks may be made in another order than in the code. *)
From Verif Require Import Base_List Model_Parallel Model_Reader1 Model_Base Model_Standard Model_Reader2 Model_Pipeline Model_PodShape Spec_Array Spec_Reader.
From mathcomp Require Import all_ssreflect all_algebra.
From Verif Require Import Model_Spod Model_SpodPar Model_Pod.
Set Implicit Arguments.
Unset Strict Implicit.
Unset Printing Implicit Defensive.
Import GRing.Theory Num.Theory.
Local Open Scope ring_scope.

Section Fit.
Variable C : numClosedFieldType.
Variable eig : forall n, 'M[C]_n -> 'rV[C]_n * 'M[C]_n.
(* what one process knows: the entries of a snapshot it holds, its part of the record, its flattened weights *)
Record plocal := PLocal { pl_m : nat; pl_rows : list (list C); pl_w : list C }.
Definition pl_none := PLocal 0 nil nil.

Section All.
Variables (longtime : bool) (nt k : nat).
Variable ls : list plocal.
Notation size := (length ls).
Definition pl_at (r : 'I_size) : plocal := List.nth r ls pl_none.
Definition pl_n (r : 'I_size) : nat := pl_m (pl_at r).
(* the entries of all processes, one process after the other; entry i of process r has the position tagnat.Rank i *)
Notation total := (\sum_(r < size) pl_n r)%N.
Definition pl_own (r : 'I_size) (i : 'I_(pl_n r)) : 'I_total := @tagnat.Rank size pl_n r i.
Definition pl_wv : 'cV[C]_total := \col_x List.nth (tagnat.sig2 x) (pl_w (pl_at (tagnat.sig1 x))) 0.
Definition pl_data : 'M[C]_(nt, total) := \matrix_(t, x) List.nth (tagnat.sig2 x) (List.nth t (pl_rows (pl_at (tagnat.sig1 x))) nil) 0.
(* standard.py:52, 71 *)
Definition pl_eigs : list C := List.map (fun j => pod_w pl_own pl_wv pl_data longtime (@eig nt) 0 j) (enum 'I_nt).
(* 58, 61: the columns kept of one process, in C order: at most nt of them; None: not a number *)
Definition pl_phi (r : 'I_size) : list (option C) :=
  List.flat_map (fun i => List.firstn k (List.map (fun j => pod_phi pl_own pl_wv pl_data longtime (@eig nt) i j) (enum 'I_nt))) (enum 'I_(pl_n r)).
(* 63-65: phi_r.shape = [*xshape, nv, n_modes_save]; with a communicator -1 on the distributed axis: numpy works the length out *)
Definition set_shape (T : Type) (par : bool) (xs : list nat) (nv ax : nat) (l : list T) : res (nd T) :=
  if par then
    let rest := Base_List.prod (List.app (upd_nth ax 1%N xs) (cons nv (cons k nil))) in
    if Nat.eqb rest 0 then Err ValueError
    else if Nat.eqb (Nat.modulo (length l) rest) 0
         then Ok (Nd (List.app (upd_nth ax (Nat.div (length l) rest) xs) (cons nv (cons k nil))) l) else Err ValueError
  else let sh := List.app xs (cons nv (cons k nil)) in
    if Nat.eqb (length l) (Base_List.prod sh) then Ok (Nd sh l) else Err ValueError.
(* 66-69: modes.npy *)
Definition pl_file (par : bool) (xs : list nat) (nv ax : nat) : res (nd (option C)) :=
  do ps <- all_ok (List.map (fun r : 'I_size => set_shape par xs nv ax (pl_phi r)) (enum 'I_size));
  Ok (if par then concat_axis ax ps else List.hd (Nd nil nil) ps).
End All.

(* base.py:244-252: every dataset is distributed by itself; the last one fixes max_axis *)
Fixpoint gather_local (A : Type) (cast : A -> C) (cm : comm) (ds : list (nd A)) : res (list (list C) * nat) :=
  match ds with
  | nil => Ok (nil, 0%N)
  | d :: ds' =>
      do x <- distribute_data d cm;
      do y <- gather_local cast cm ds';
      let '(d', ax, _) := x in
      Ok (List.app (List.map (List.map cast) (snapshots d')) (fst y), if ds' is nil then ax else snd y)
  end.
(* base.py:216-262, 281-291: one process; x_tmp (217-220) needs a first snapshot *)
Definition pod_rank (A : Type) (cast : A -> C) (ds : list (nd A)) (xdim nv : nat) (user : weights_arg C) (cm : comm) : res (plocal * (list nat * nat * nat)) :=
  match ds with
  | nil => Err IndexError
  | first :: _ =>
      if Nat.eqb (List.hd 0%N (Model_Parallel.shape first)) 0 then Err IndexError else
      do xs <- pod_xshape nv xdim (Model_Parallel.shape first);
      do nt <- pod_check xs (List.map (@Model_Parallel.shape A) ds);
      do w <- define_weights 1 user xs nv;
      do x <- gather_local cast cm ds;
      let '(rows, ax) := x in
      let m := length (List.hd nil rows) in
      do wl <- local_weights w ax cm m;
      Ok (PLocal m rows wl, (xs, nt, ax))
  end.
(* np = number of processes, None without communicator *)
Definition pod_fit_array (A : Type) (cast : A -> C) (longtime : bool) (ds : list (nd A)) (xdim nv : nat) (user : weights_arg C) (k : nat) (np : option nat)
  : res (list C * nd (option C)) :=
  do ls <- all_ok (List.map (pod_rank cast ds xdim nv user) (comms np));
  let '(xs, nt, ax) := snd (List.hd (pl_none, (nil, 0%N, 0%N)) ls) in
  let par := if np is Some _ then true else false in
  do f <- pl_file longtime nt k (List.map fst ls) par xs nv ax;
  Ok (pl_eigs longtime nt (List.map fst ls), f).
End Fit.
