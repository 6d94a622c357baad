(* The whole computation of coefficients by convolution on one or several processes: /repo/pyspod/spod/utils.py:223-420 (compute_coeffs_conv), from the data given
   by the caller and the arrays of a results folder to the contents of coeffs.npy, modes_r.npy and ltm.npy.  Exact arithmetic.
   There is no communication between the processes: every process computes with what it cut out of the data, the weights and the mode files; they meet only
   when modes_r.npy and ltm.npy are put together (410-411), and coeffs.npy is the array of process 0 (417).
   Parameters: n_dft of params_modes.yaml, the Hamming window (261-263), omega with np.fft.fft(x)[f] = sum_k x[k] omega^(f k), and `junk`, the contents of
   np.empty (322) for frequencies that are not filled in, by process and frequency.
   Simplifications: as in Model_PipelineCoef; a record without snapshots (nan mean, no pass of the loop) is reported as ValueError; mode files by frequency are
   the function rf_modes; phir is kept by columns, column f*n_modes+m being phir[f,:,m]. *)
From Coq Require Import QArith.
From Verif Require Import Base_List Model_Parallel Model_Reader1 Model_Reader2 Model_Select Model_ConvShape Model_Pipeline Spec_Array Spec_Reader.
From mathcomp Require Import all_ssreflect all_algebra.
From Verif Require Import Model_Spod Model_SpodPar Model_Coeffs Model_PipelineCoef.
Set Implicit Arguments.
Unset Strict Implicit.
Unset Printing Implicit Defensive.
Import GRing.Theory Num.Theory.
Local Open Scope ring_scope.

Section Conv.
Variable C : numClosedFieldType.
Variables (n_dft : nat) (win : nat -> C) (omega : C).
Variable junk : comm -> nat -> list C.

Section All.
Variables (nt nf nm : nat) (ls : list (clocal C)).
Notation size := (length ls).
(* phir[f, x, m] (322, 323-327) *)
Definition vl_phi (f : nat) (x : 'I_(\sum_(r < size) cl_n r)%N) (m : 'I_nm) : C :=
  List.nth (tagnat.sig2 x) (List.nth (f * nm + m)%N (cl_phi (cl_at (tagnat.sig1 x))) nil) 0.
(* 351: row i of Q_blk[freq_idx,:]; a single row is broadcast over all rows (394) *)
Definition row_freq (freqs : list nat) (i : nat) : nat := List.nth (if Nat.eqb (length freqs) 1 then 0%N else i) freqs 0%N.
(* 348-394: coeffs[i, t, m] on process r: rows of Q_blk meet the modes by position *)
Definition vl_coeff (freqs : list nat) (r : 'I_size) (i t : nat) (m : 'I_nm) : C :=
  conv_local (@cl_own C ls) (cl_wv ls) (fun _ => @vl_phi i) (cl_data nt ls) n_dft win omega r (row_freq freqs i) t m.
(* 415-417: coeffs.npy, saved by the first process *)
Definition vl_coeffs (freqs : list nat) : nd C :=
  Nd (cons nf (cons nt (cons nm nil)))
     (List.hd nil (List.map (fun r => List.flat_map (fun i => List.flat_map (fun t => List.map (fun m => vl_coeff freqs r i t m) (enum 'I_nm)) (List.seq 0 nt)) (List.seq 0 nf)) (enum 'I_size))).
(* 403, 408, 410: the pieces of modes_r.npy: the memory of phir under another shape *)
Definition vl_modes (n_freq : nat) (r : 'I_size) : nd C :=
  Nd (List.app (cl_shape (cl_at r)) (cons nf (cons nm nil)))
     (conv_phir (fun f x m => List.nth x (List.nth (f * nm + m)%N (cl_phi (cl_at r)) nil) 0) n_freq (cl_n r) nm).
End All.

(* 323-327: one frequency; phir[i_freq] of a frequency beyond the last one raises *)
Definition conv_load (fo : folder C) (ax xsize : nat) (cm : comm) (f : nat) : res (list (list C)) :=
  do c <- load_modes fo ax xsize cm f; if Nat.ltb f (rf_nfreq fo) then Ok c else Err IndexError.
(* 253-327 and the shapes met later: one process *)
Definition conv_rank (A : Type) (cast : A -> C) (fo : folder C) (s : fsel) (data : nd A) (cm : comm) : res (clocal C * nat) :=
  do x <- distribute_data data cm;
  let '(d, ax, _) := x in
  do w <- distribute_dimension (rf_weights fo) ax cm;
  (* 302-306 *)
  let sh := if (Nat.eqb (rf_nv fo) 1) && negb (Nat.eqb (length (Model_Parallel.shape d)) (rf_xdim fo + 2)%N)
            then List.app (List.tl (Model_Parallel.shape d)) (cons 1%N nil) else List.tl (Model_Parallel.shape d) in
  let xsize := length (flat w) in
  let nt := List.hd 0%N (Model_Parallel.shape data) in
  (* 309 *)
  if Nat.eqb nt 0 || negb (Nat.eqb (length (flat d)) (Nat.mul nt xsize)) then Err ValueError else
  do _ <- all_ok (List.map (conv_load fo ax xsize cm) (freq_list s));
  (* 351, 382-394, 408 *)
  do _ <- all_ok (List.map (fun f => if Nat.ltb f n_dft then Ok tt else Err IndexError) (freq_list s));
  do _ <- conv_shapes (rf_nfreq fo) (Z.to_nat (n_freq_r s)) (length (freq_list s)) xsize (rf_nm fo) sh;
  let row f := if List.existsb (Nat.eqb f) (freq_list s)
               then match load_modes fo ax xsize cm f with Ok c => c | Err _ => nil end else columns 0 xsize (rf_nm fo) (junk cm f) in
  Ok (CLocal sh xsize (List.map (fun t => List.map cast (Base_List.window (t * xsize)%N xsize (flat d))) (List.seq 0 nt)) (flat w)
        (List.flat_map row (List.seq 0 (rf_nfreq fo))), ax).
(* np = number of processes, None without communicator; the contents of coeffs.npy, modes_r.npy, ltm.npy and max_axis (saved for the reconstruction) *)
Definition conv_array (A : Type) (cast : A -> C) (fo : folder C) (T_lb T_ub : option Q) (freq_idx : option (list nat)) (data : nd A) (np : option nat)
  : res (nd C * nd C * nd C * nat) :=
  do s <- select_freqs (rf_freq fo) (rf_nfreq fo) T_lb T_ub freq_idx;
  let nt := List.hd 0%N (Model_Parallel.shape data) in
  do _ <- alloc_coeffs s (rf_nm fo) nt;
  do ls <- all_ok (List.map (conv_rank cast fo s data) (comms np));
  let nf := Z.to_nat (n_freq_r s) in
  let par := if np is Some _ then true else false in
  let l := List.map fst ls in
  let ax := snd (List.hd (cl_none C, 0%N) ls) in
  Ok (@vl_coeffs nt nf (rf_nm fo) l (freq_list s),
      cl_file par ax (List.map (@vl_modes nf (rf_nm fo) l (rf_nfreq fo)) (enum 'I_(length l))),
      cl_file par ax (List.map (cl_ltm nt (ls := l)) (enum 'I_(length l))), ax).
End Conv.
