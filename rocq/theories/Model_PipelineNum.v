(* The whole batch fit on one or several processes: /repo/pyspod/spod/standard.py:30-153 (fit), 157-187 (_compute_blocks), 190-365
   (_compute_standard_spod), base.py:391-512 (_initialize), from the data given by the caller to the eigenvalues and mode files.
   Exact arithmetic; eig (la.eig, 207) and argsort (217) are parameters, given for every size.
   In contrast to Model_Spod, every process works with what its reader delivered and with its own weights, as arrays. *)
From Coq Require Import QArith.
From Verif Require Import Base_List Model_Parallel Model_Reader1 Model_Reader2 Model_Base Model_Standard Model_Pipeline Spec_Array.
From mathcomp Require Import all_ssreflect all_algebra.
From Verif Require Import Model_Spod Model_SpodPar.
Set Implicit Arguments.
Unset Strict Implicit.
Unset Printing Implicit Defensive.
Import GRing.Theory Num.Theory.
Local Open Scope ring_scope.

Section Fit.
Variable C : numClosedFieldType.
(* base.py:50-123: what the constructor fixed *)
Record settings := Settings {
  s_ndft : nat; s_novlp : nat; s_modes : nat; s_mean : mean_kind; s_norm : bool; s_full : bool; s_dt : Q;
  s_eps4 : C; s_window : nat -> C; s_omega : C; s_level : C; s_gamma : nat -> C -> C }.
(* base.py:430-435, 465-466, 499-512, 620-631 *)
Definition configure (s : settings) (nt : nat) (real : bool) : res (config C) :=
  do nb <- check_feasible (Z.of_nat nt) (Z.of_nat (s_ndft s)) (Z.of_nat (s_novlp s));
  let nb := Z.to_nat nb in
  Ok (Config nt (s_ndft s) (s_novlp s) nb (length (get_freq_axis real (s_full s) (s_ndft s) (s_dt s))) (if (nb < s_modes s)%N then nb else s_modes s)
      (s_mean s) (s_norm s) (s_eps4 s) (s_window s) real (s_omega s) (s_level s) (s_gamma s)).

(* ---- one process ---- *)
Section Rank.
Variables (c : config C) (m : nat).
Definition to_row (l : list C) : 'rV[C]_m := \row_i List.nth i l 0.
(* base.py:574-586 *)
Definition t_mean_of (d : held C) : 'rV[C]_m :=
  match mean_type c with
  | Longtime => mean_of 0 +%R (fun v n => n%:R^-1 *: v) to_row (nt c) (n_blocks c) d
  | _ => 0
  end.
(* np.mean(q, axis=0) *)
Definition avg (q : list 'rV[C]_m) : 'rV[C]_m := (length q)%:R^-1 *: \sum_(row <- q) row.
(* standard.py:166-187: blk has n_dft rows *)
Definition block_fft (mu : 'rV[C]_m) (blk : list 'rV[C]_m) (f : nat) : 'rV[C]_m :=
  let q := List.map (fun row => row - mu) blk in                                                          (* 166 *)
  let q := match mean_type c with Blockwise => let b := avg q in List.map (fun row => row - b) q | _ => q end in  (* 170-171 *)
  let q := if normalize_data c then                                                                       (* 174-179 *)
             let b := avg q in
             let v := \row_i ((\sum_(row <- q) (row 0 i - b 0 i) ^+ 2) / ((n_dft c)%:R - 1)) in
             let d := \row_i (if v 0 i < eps4 c then 1 else v 0 i) in
             List.map (fun row : 'rV[C]_m => \row_i (row 0 i / d 0 i)) q
           else q in
  let q := List.map (fun k => window c k *: List.nth k q 0) (List.seq 0 (n_dft c)) in                     (* 181 *)
  (win_weight c / (n_dft c)%:R) *: \sum_(k < n_dft c) (omega c ^+ (f * k) *: List.nth k q 0).             (* 184-187 *)
End Rank.
(* what a process has computed: the number of its entries, Q_hats: the realizations of every frequency (114-118, 409-423), its weights *)
Record local (nb : nat) := Local { l_m : nat; l_Qs : list 'M[C]_(l_m, nb); l_w : 'cV[C]_l_m }.
Definition l_Q nb (l : local nb) (f : nat) : 'M[C]_(l_m l, nb) := List.nth f (l_Qs l) 0.
Definition rank_local (c : config C) (d : held C) (wl : list C) : res (local (n_blocks c)) :=
  do m <- entries d;
  do blks <- blocks_of (n_dft c) (starts (nt c) (n_dft c) (n_overlap c) (n_blocks c)) d;
  do _ <- spod_matrix_shape m (n_blocks c);
  let mu := t_mean_of c m d in
  Ok (@Local (n_blocks c) m
        (List.map (fun f => \matrix_(i, b) block_fft c mu (List.map (to_row m) (List.nth b blks nil)) f 0 i) (List.seq 0 (n_freq c)))
        (\col_i List.nth i wl 0)).

(* ---- all processes ---- *)
Variable eig : forall nb, 'M[C]_nb -> 'rV[C]_nb * 'M[C]_nb.
Variable argsort : forall nb, 'rV[C]_nb -> 'I_nb -> 'I_nb.
Section All.
Variable c : config C.
Variable ls : list (local (n_blocks c)).
(* 197-203 *)
Definition fit_M (f : nat) : 'M[C]_(n_blocks c) := \sum_(l <- ls) gram (l_Q l f) (l_w l).
(* 207-222 *)
Definition fit_L (f : nat) := let LV := eig (fit_M f) in sort_L (@argsort _) LV.1.
Definition fit_V (f : nat) := let LV := eig (fit_M f) in sort_V (@argsort _) LV.1 LV.2.
(* 355-359 *)
Definition fit_eigs (f : nat) : list C := let e := eigs_of c f (fit_L f) in List.map (fun k => e 0 k) (enum 'I_(n_blocks c)).
(* 234, 273: phi of one process *)
Definition fit_phi (f : nat) (l : local (n_blocks c)) : 'M[C]_(l_m l, n_blocks c) := all_modes (l_Q l f) (fit_L f) (fit_V f).
(* 235: the columns kept *)
Definition kept (f : nat) (l : local (n_blocks c)) : list (list C) :=
  List.map (fun i => List.firstn (n_modes_save c) (List.map (fun k => fit_phi f l i k) (enum 'I_(n_blocks c)))) (enum 'I_(l_m l)).
(* 238-249: the file of one frequency *)
Definition freq_file_of (np : option nat) (sh : list nat) (ax : nat) (f : nat) : nd C :=
  match np with
  | None => Nd (List.app sh (cons (n_modes_save c) nil)) (List.concat (List.concat (List.map (kept f) ls)))
  | Some size => concat_axis ax (List.map (fun rl =>
      Nd (List.app (upd_nth ax (blockdist (List.nth ax sh 0%N) size rl.1).1 sh) (cons (n_modes_save c) nil)) (List.concat (kept f rl.2)))
      (List.combine (List.seq 0 size) ls))
  end.
(* 276-280: phi_dict[f][m] of rank r *)
Definition mode_column (r f m : nat) : list C :=
  match List.nth_error ls r with Some l => List.map (fun row => List.nth m row 0) (kept f l) | None => nil end.
(* 289-353: all files of the per-mode scheme, with their (frequency, mode); order pass rank = arrival order of the messages *)
Definition mode_files (order : nat -> nat -> list nat) : list (nat * nat * list C) :=
  let size := length ls in
  List.flat_map (fun pass => List.flat_map (fun rank =>
      match pass_file 0 size (n_freq c) (n_modes_save c) mode_column pass rank (order pass rank) with Some x => cons x nil | None => nil end)
    (List.seq 0 size)) (List.seq 0 (n_passes size (n_freq c) (n_modes_save c))).
End All.
Definition locals (c : config C) (ranks : list (res (held C * list C))) : res (list (local (n_blocks c))) :=
  all_ok (List.map (fun x => do dw <- x; rank_local c dw.1 dw.2) ranks).

(* in-memory data, one file per frequency; np = number of processes *)
Definition fit_array (A : Type) (cast : A -> C) (isreal : A -> bool) (s : settings) (ds : list (nd A)) (xdim nv : nat) (user : weights_arg C) (np : option nat)
  : res (list (list C) * list (nd C)) :=
  do rd <- reader1_init isreal ds xdim nv (List.hd None (comms np));
  do c <- configure s (rd_nt rd) (rd_is_real rd);
  do ls <- locals c (List.map (fun cm =>
      do rd_d <- load_array cast 0 isreal ds xdim nv cm;
      do wl <- rank_weights 1 user (rd_xshape rd_d.1) nv false (rd_max_axis rd_d.1) cm rd_d.2;
      Ok (rd_d.2, wl)) (comms np));
  Ok (List.map (fit_eigs ls) (List.seq 0 (n_freq c)),
      List.map (freq_file_of ls np (List.app (rd_xshape rd) (cons nv nil)) (rd_max_axis rd)) (List.seq 0 (n_freq c))).
(* netCDF files with spatial shape xs, one file per mode; real = all files hold floating-point numbers (reader.py:206-207) *)
Definition fit_files (s : settings) (xs : list nat) (nv : nat) (real : bool) (fs : nat -> ncfile C) (names : list nat) (user : weights_arg C)
    (size : nat) (nreaders : option nat) (mpi_version nchunks nblks : nat) (orders : nat -> nat -> list nat) (order2 : nat -> nat -> list nat)
  : res (list (list C) * list (nat * nat * list C)) :=
  do c <- configure s (total_steps fs names) real;
  do ls <- locals c (List.map (fun r =>
      do st <- get_data2 0 size (nreaders_of nreaders size) (Base_List.prod xs) nv mpi_version nchunks nblks fs names r (orders r);
      do wl <- rank_weights 1 user xs nv true 0 (Some (size, r)) (Chunks st);
      Ok (Chunks st, wl)) (List.seq 0 size));
  Ok (List.map (fit_eigs ls) (List.seq 0 (n_freq c)), mode_files ls order2).
End Fit.
