(* The whole computation of POD coefficients on one or several processes: /repo/pyspod/pod/utils.py:17-129 (compute_coeffs_op), from the data given by the
   caller and the arrays of a results folder to the contents of coeffs.npy, modes_r.npy and ltm.npy.  Exact arithmetic.
   Every process works with what it cut out of the data, the weights and the mode file; the processes meet only in the allreduce (85) and when the files are put
   together (113-114).  Simplifications: an exception is reported for the first process; checks may be made in another order than in the code;
   eigs.npz (42) is opened but not used by the code and is left out. *)
From Coq Require Import QArith.
From Verif Require Import Base_List Model_Parallel Model_Reader1 Model_Reader2 Model_Select Model_Base Model_Standard Model_Pipeline Spec_Array Spec_Reader.
From mathcomp Require Import all_ssreflect all_algebra.
From Verif Require Import Model_Spod Model_SpodPar Model_Coeffs Model_Pod Model_PipelineCoef.
Set Implicit Arguments.
Unset Strict Implicit.
Unset Printing Implicit Defensive.
Import GRing.Theory Num.Theory.
Local Open Scope ring_scope.

(* what compute_coeffs_op reads from a results folder: n_space_dims and n_variables of params_modes.yaml (47-48), weights.npy (40), modes.npy (41) *)
Record pod_folder (C : Type) := PodFolder { pf_xdim : nat; pf_nv : nat; pf_weights : nd C; pf_modes : nd C }.

Section Coef.
Variable C : numClosedFieldType.
(* 49: n_modes_save = phir.shape[-1] *)
Definition pf_nm (fo : pod_folder C) : nat := List.last (Model_Parallel.shape (pf_modes fo)) 0%N.
(* 57-74: one process *)
Definition pod_coef_rank (A : Type) (cast : A -> C) (fo : pod_folder C) (data : nd A) (cm : comm) : res (clocal C * nat) :=
  let nt := List.hd 0%N (Model_Parallel.shape data) in
  do x <- distribute_data data cm;
  let '(d, ax, _) := x in
  do w <- distribute_dimension (pf_weights fo) ax cm;
  do a <- distribute_dimension (pf_modes fo) ax cm;
  (* 64: data[0,...] *)
  if Nat.eqb nt 0 then Err IndexError else
  let xsize := Base_List.prod (List.tl (Model_Parallel.shape d)) in
  (* 64: reshape of the modes *)
  if negb (Nat.eqb (length (flat a)) (Nat.mul xsize (pf_nm fo))) then Err ValueError else
  (* 68-70 *)
  let sh := if (Nat.eqb (pf_nv fo) 1) && negb (Nat.eqb (length (Model_Parallel.shape d)) (pf_xdim fo + 2)%N)
            then List.app (List.tl (Model_Parallel.shape d)) (cons 1%N nil) else List.tl (Model_Parallel.shape d) in
  (* 74: reshape of the weights *)
  if negb (Nat.eqb (length (flat w)) xsize) then Err ValueError else
  Ok (CLocal sh xsize (List.map (fun t => List.map cast (Base_List.window (t * xsize)%N xsize (flat d))) (List.seq 0 nt)) (flat w) (columns 0 xsize (pf_nm fo) (flat a)), ax).
(* 84-85, 99-100: coeffs.npy *)
Definition pl_coeffs (nt p : nat) (ls : list (clocal C)) : nd C :=
  Nd (cons p (cons nt nil)) (ravel (pod_coeffs (@cl_own C ls) (cl_Phi p ls) (cl_data nt ls))).
(* np = number of processes, None without communicator; the contents of coeffs.npy, modes_r.npy (105-113), ltm.npy (114) and max_axis (121) *)
Definition pod_coef_array (A : Type) (cast : A -> C) (fo : pod_folder C) (data : nd A) (np : option nat) : res (nd C * nd C * nd C * nat) :=
  do ls <- all_ok (List.map (pod_coef_rank cast fo data) (comms np));
  let nt := List.hd 0%N (Model_Parallel.shape data) in
  let p := pf_nm fo in
  let par := if np is Some _ then true else false in
  let l := List.map fst ls in
  let ax := snd (List.hd (cl_none C, 0%N) ls) in
  Ok (pl_coeffs nt p l, cl_file par ax (List.map (cl_modes p (ls := l)) (enum 'I_(length l))), cl_file par ax (List.map (cl_ltm nt (ls := l)) (enum 'I_(length l))), ax).
End Coef.
