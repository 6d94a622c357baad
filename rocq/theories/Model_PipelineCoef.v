(* The whole computation of coefficients by oblique projection on one or several processes: /repo/pyspod/spod/utils.py:108-215 (compute_coeffs_op),
   576-608 (_oblique_projection), 703-723 (_get_modes), from the data given by the caller and the arrays of a results folder to the contents of
   coeffs.npy, modes_r.npy and ltm.npy.  Exact arithmetic; np.linalg.svd (589) is a parameter, given for every size.
   Every process works with what it cut out of the data, the weights and the mode files; the processes meet only in the two allreduce (585-586) and when the
   files are put together (184-185).  Simplifications: an exception is reported for the first process; checks may be made in another order than in the code;
   the selection of the mode file by frequency (postproc.get_modes_at_freq) is the function rf_modes. *)
From Coq Require Import QArith.
From Verif Require Import Base_List Model_Parallel Model_Reader1 Model_Reader2 Model_Select Model_Pipeline Spec_Array Spec_Reader.
From mathcomp Require Import all_ssreflect all_algebra.
From Verif Require Import Model_Spod Model_SpodPar Model_Coeffs.
Set Implicit Arguments.
Unset Strict Implicit.
Unset Printing Implicit Defensive.
Import GRing.Theory Num.Theory.
Local Open Scope ring_scope.

(* what compute_coeffs_op reads from a results folder: params_modes.yaml, eigs_freq.npz, weights.npy (676-700, 111-116) and the mode files by frequency index *)
Record folder (C : Type) := Folder { rf_xdim : nat; rf_nv : nat; rf_freq : list Q; rf_nfreq : nat; rf_nm : nat; rf_weights : nd C; rf_modes : nat -> option (nd C) }.
(* the columns of a C-ordered array with m rows of k entries *)
Definition columns (T : Type) (zero : T) (m k : nat) (l : list T) : list (list T) :=
  List.map (fun j => List.map (fun i => List.nth (i * k + j)%N l zero) (List.seq 0 m)) (List.seq 0 k).

Section Coef.
Variable C : numClosedFieldType.
Variable svd : forall p, 'M[C]_p -> 'M[C]_p * 'rV[C]_p * 'M[C]_p.
Variable tol : C.
(* what one process knows: the shape of a snapshot (147), the number of entries it holds, its part of the record, of the weights and of the modes (by columns) *)
Record clocal := CLocal { cl_shape : list nat; cl_m : nat; cl_rows : list (list C); cl_w : list C; cl_phi : list (list C) }.
Definition cl_none := CLocal nil 0 nil nil nil.

Section All.
Variables (nt p : nat).
Variable ls : list clocal.
Notation size := (length ls).
Definition cl_at (r : 'I_size) : clocal := List.nth r ls cl_none.
Definition cl_n (r : 'I_size) : nat := cl_m (cl_at r).
(* the entries of all processes, one process after the other *)
Notation total := (\sum_(r < size) cl_n r)%N.
Definition cl_own (r : 'I_size) (i : 'I_(cl_n r)) : 'I_total := @tagnat.Rank size cl_n r i.
Definition cl_wv : 'cV[C]_total := \col_x List.nth (tagnat.sig2 x) (cl_w (cl_at (tagnat.sig1 x))) 0.
Definition cl_data : 'M[C]_(nt, total) := \matrix_(t, x) List.nth (tagnat.sig2 x) (List.nth t (cl_rows (cl_at (tagnat.sig1 x))) nil) 0.
Definition cl_Phi : 'M[C]_(total, p) := \matrix_(x, j) List.nth (tagnat.sig2 x) (List.nth j (cl_phi (cl_at (tagnat.sig1 x))) nil) 0.
(* 172-173, 190-191: coeffs.npy *)
Definition cl_coeffs : nd C := Nd (cons p (cons nt nil)) (ravel (coeffs cl_own cl_wv cl_Phi cl_data (@svd p) tol)).
(* 178-184: the pieces of modes_r.npy *)
Definition cl_modes (r : 'I_size) : nd C := Nd (List.app (cl_shape (cl_at r)) (cons p nil)) (ravel (phir cl_own cl_Phi r)).
(* 157, 183, 185: the pieces of ltm.npy *)
Definition cl_ltm (r : 'I_size) : nd C := Nd (cl_shape (cl_at r)) (List.map (fun i => lt_mean cl_own cl_data r 0 i) (enum 'I_(cl_n r))).
Definition cl_file (T : Type) (par : bool) (ax : nat) (ps : list (nd T)) : nd T := if par then concat_axis ax ps else List.hd (Nd nil nil) ps.
End All.

(* 711-716: the modes of one frequency as a process sees them; a frequency without file leaves `m` unbound *)
Definition load_modes (fo : folder C) (ax xsize : nat) (cm : comm) (f : nat) : res (list (list C)) :=
  match rf_modes fo f with
  | None => Err UnboundLocalError
  | Some a => do a' <- distribute_dimension a ax cm;
              if Nat.eqb (length (flat a')) (Nat.mul xsize (rf_nm fo)) then Ok (columns 0 xsize (rf_nm fo) (flat a')) else Err ValueError
  end.
(* 140-164: one process *)
Definition coef_rank (A : Type) (cast : A -> C) (fo : folder C) (s : fsel) (data : nd A) (cm : comm) : res (clocal * nat) :=
  do x <- distribute_data data cm;
  let '(d, ax, _) := x in
  do w <- distribute_dimension (rf_weights fo) ax cm;
  (* 144-147 *)
  let sh := if (Nat.eqb (rf_nv fo) 1) && negb (Nat.eqb (length (Model_Parallel.shape d)) (rf_xdim fo + 2)%N)
            then List.app (List.tl (Model_Parallel.shape d)) (cons 1%N nil) else List.tl (Model_Parallel.shape d) in
  let xsize := length (flat w) in
  (* 150: reshape to [nt, xsize] *)
  if negb (Nat.eqb (length (flat d)) (Nat.mul (List.hd 0%N (Model_Parallel.shape data)) xsize)) then Err ValueError else
  do _ <- all_ok (List.map (load_modes fo ax xsize cm) (freq_list s));
  do phi <- get_modes (List.repeat (0 : C) xsize) (fun f => match load_modes fo ax xsize cm f with Ok c => Some c | Err _ => None end) (n_freq_r s) (freq_list s) (rf_nm fo);
  Ok (CLocal sh xsize (List.map (fun t => List.map cast (Base_List.window (t * xsize)%N xsize (flat d))) (List.seq 0 (List.hd 0%N (Model_Parallel.shape data)))) (flat w) phi, ax).
(* np = number of processes, None without communicator; the contents of coeffs.npy, modes_r.npy, ltm.npy and max_axis (206) *)
Definition coef_array (A : Type) (cast : A -> C) (fo : folder C) (T_lb T_ub : option Q) (freq_idx : option (list nat)) (data : nd A) (np : option nat)
  : res (nd C * nd C * nd C * nat) :=
  do s <- select_freqs (rf_freq fo) (rf_nfreq fo) T_lb T_ub freq_idx;
  let nt := List.hd 0%N (Model_Parallel.shape data) in
  do _ <- alloc_coeffs s (rf_nm fo) nt;
  do ls <- all_ok (List.map (coef_rank cast fo s data) (comms np));
  let p := Nat.mul (Z.to_nat (n_freq_r s)) (rf_nm fo) in
  let par := if np is Some _ then true else false in
  let l := List.map fst ls in
  let ax := snd (List.hd (cl_none, 0%N) ls) in
  Ok (cl_coeffs nt p l, cl_file par ax (List.map (cl_modes p (ls := l)) (enum 'I_(length l))), cl_file par ax (List.map (cl_ltm nt (ls := l)) (enum 'I_(length l))), ax).
End Coef.
