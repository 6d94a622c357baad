(* Model of the numerical part of the batch algorithm, /repo/pyspod/spod/standard.py:157-365, in exact
   arithmetic over an arbitrary algebraically closed numeric field C (mathcomp's numClosedFieldType: the
   complex numbers, the algebraic numbers, ...).
   The space-variable entries of a snapshot are indexed by 'I_n. A communicator is a family of
   index maps: rank r holds nloc r entries, its k-th one is entry (own r k) of the whole snapshot.
   eig (la.eig, 207) and argsort (217) are parameters. *)
From mathcomp Require Import all_ssreflect all_algebra.
Set Implicit Arguments.
Unset Strict Implicit.
Unset Printing Implicit Defensive.
Import GRing.Theory Num.Theory.
Local Open Scope ring_scope.

(* base.py:574-586 *)
Inductive mean_kind := Longtime | Blockwise | Zero.

Record config (C : numClosedFieldType) := Config {
  nt : nat;                 (* number of snapshots *)
  n_dft : nat;
  n_overlap : nat;
  n_blocks : nat;
  n_freq : nat;
  n_modes_save : nat;
  mean_type : mean_kind;
  normalize_data : bool;
  eps4 : C;                 (* 4 * np.finfo(float).eps, standard.py:177 *)
  window : nat -> C;
  isrealx : bool;
  omega : C;                (* exp(-2 i pi / n_dft); a primitive n_dft-th root of unity *)
  c_level : C;              (* confidence level *)
  gammaincinv : nat -> C -> C   (* scipy.special.gammaincinv *)
}.

Section Model.
Variable C : numClosedFieldType.

(* base.py:503: 1 / np.mean(window) *)
Definition win_weight (c : config C) : C := ((\sum_(k < n_dft c) window c k) / (n_dft c)%:R)^-1.

(* ---------- one time series x (one space-variable entry) ---------- *)
(* base.py:589-617: the mean over all snapshots (see C22/C23 for the block-by-block summation) *)
Definition t_mean (c : config C) (x : nat -> C) : C :=
  match mean_type c with
  | Longtime => (\sum_(t < nt c) x t) / (nt c)%:R
  | Blockwise | Zero => 0
  end.
(* standard.py:160-161 *)
Definition block_offset (c : config C) (b : nat) : nat :=
  (minn (b * (n_dft c - n_overlap c) + n_dft c) (nt c) - n_dft c)%N.
(* 163-170 *)
Definition block_centred (c : config C) (x : nat -> C) (b : nat) : nat -> C :=
  let q := fun k => x (block_offset c b + k)%N - t_mean c x in
  match mean_type c with
  | Blockwise => let mu := (\sum_(j < n_dft c) q j) / (n_dft c)%:R in fun k => q k - mu
  | _ => q
  end.
(* 173-179: note that the block is divided by its variance, not by its standard deviation *)
Definition block_var (c : config C) (q : nat -> C) : C :=
  let mu := (\sum_(j < n_dft c) q j) / (n_dft c)%:R in
  (\sum_(j < n_dft c) (q j - mu) ^+ 2) / ((n_dft c)%:R - 1).
Definition block_normalized (c : config C) (q : nat -> C) : nat -> C :=
  if normalize_data c then
    let v := block_var c q in
    let d := if v < eps4 c then 1 else v in
    fun k => q k / d
  else q.
(* 181 *)
Definition block_windowed (c : config C) (x : nat -> C) (b : nat) : nat -> C :=
  fun k => block_normalized c (block_centred c x b) k * window c k.
(* np.fft.fft / np.fft.rfft of a sequence of n samples *)
Definition dft (w : C) (n : nat) (q : nat -> C) (f : nat) : C := \sum_(k < n) q k * w ^+ (f * k).
(* 184-187 *)
Definition block_hat (c : config C) (x : nat -> C) (b f : nat) : C :=
  win_weight c / (n_dft c)%:R * dft (omega c) (n_dft c) (block_windowed c x b) f.

(* ---------- one rank: m local entries, record X t i ---------- *)
(* 107-118, 409-423: Q_hats[f], one column per block *)
Definition q_hat m (c : config C) (X : nat -> 'I_m -> C) (f : nat) : 'M[C]_(m, n_blocks c) :=
  \matrix_(i, b) block_hat c (fun t => X t i) b f.
(* conjugate transpose *)
Definition adj m n (A : 'M[C]_(m, n)) : 'M[C]_(n, m) := \matrix_(i, j) (A j i)^*.
(* Q * weights with weights of shape (m,1) *)
Definition wmul m n (w : 'cV[C]_m) (A : 'M[C]_(m, n)) : 'M[C]_(m, n) := \matrix_(i, j) (A i j * w i 0).
(* 199-200 *)
Definition gram m nb (Q : 'M[C]_(m, nb)) (w : 'cV[C]_m) : 'M[C]_nb :=
  (nb%:R)^-1 *: (adj Q *m wmul w Q).

(* 214-222: idx = np.argsort(Lf)[::-1], applied to eigenvalues and eigenvector columns *)
Definition order nb (argsort : 'rV[C]_nb -> 'I_nb -> 'I_nb) (L : 'rV[C]_nb) (k : 'I_nb) : 'I_nb :=
  argsort L (rev_ord k).
Definition sort_L nb argsort (L : 'rV[C]_nb) : 'rV[C]_nb := \row_k L 0 (order argsort L k).
Definition sort_V nb argsort (L : 'rV[C]_nb) (V : 'M[C]_nb) : 'M[C]_nb := \matrix_(i, k) V i (order argsort L k).
(* 227-228, 234: np.matmul(Q, V * L_diag_inv). 1/0 is inf in numpy and 0 here: statements about a mode
   assume its eigenvalue is positive *)
Definition all_modes m nb (Q : 'M[C]_(m, nb)) (L : 'rV[C]_nb) (V : 'M[C]_nb) : 'M[C]_(m, nb) :=
  Q *m \matrix_(i, k) (V i k * (sqrtC nb%:R * sqrtC (L 0 k))^-1).
(* 235: phi[..., 0:n_modes_save] (base.py:499-500 limits n_modes_save to n_blocks) *)
Definition kept_modes m nb k (H : (k <= nb)%N) (phi : 'M[C]_(m, nb)) : 'M[C]_(m, k) := colsub (widen_ord H) phi.
(* 355-359: L[1:-1] *= 2 for real data; abs *)
Definition one_sided (c : config C) (f : nat) : C :=
  if isrealx c && (0 < f)%N && (f < (n_freq c).-1)%N then 2 else 1.
Definition eigs_of (c : config C) nb (f : nat) (L : 'rV[C]_nb) : 'rV[C]_nb := \row_k `| one_sided c f * L 0 k |.
(* base.py:511-512 *)
Definition xi2_upper (c : config C) : C := 2 * gammaincinv c (n_blocks c) (1 - c_level c).
Definition xi2_lower (c : config C) : C := 2 * gammaincinv c (n_blocks c) (c_level c).
(* 361-364 and base.py:681-688 (_store_and_save): [...,0] is saved as eigs_c_u, [...,1] as eigs_c_l *)
Definition eigs_c_u (c : config C) nb (eigs : 'rV[C]_nb) : 'rV[C]_nb := \row_k (eigs 0 k * (2 * (n_blocks c)%:R / xi2_lower c)).
Definition eigs_c_l (c : config C) nb (eigs : 'rV[C]_nb) : 'rV[C]_nb := \row_k (eigs 0 k * (2 * (n_blocks c)%:R / xi2_upper c)).

(* ---------- the whole run on a communicator ---------- *)
Section Run.
Variable size : nat.
Variable c : config C.
Variable eig : 'M[C]_(n_blocks c) -> 'rV[C]_(n_blocks c) * 'M[C]_(n_blocks c).
Variable argsort : 'rV[C]_(n_blocks c) -> 'I_(n_blocks c) -> 'I_(n_blocks c).
Variable n : nat.
Variable nloc : 'I_size -> nat.
Variable own : forall r : 'I_size, 'I_(nloc r) -> 'I_n.
Variable X : nat -> 'I_n -> C.           (* the record *)
Variable w : 'cV[C]_n.                    (* the weights *)
(* what rank r holds *)
Definition local_X (r : 'I_size) : nat -> 'I_(nloc r) -> C := fun t i => X t (own i).
Definition local_w (r : 'I_size) : 'cV[C]_(nloc r) := \col_i w (own i) 0.
(* 199-203: local products, then allreduce *)
Definition reduced_M (f : nat) : 'M[C]_(n_blocks c) :=
  \sum_(r < size) gram (q_hat c (@local_X r) f) (local_w r).
(* 207-222 *)
Definition run_L (f : nat) := let LV := eig (reduced_M f) in sort_L argsort LV.1.
Definition run_V (f : nat) := let LV := eig (reduced_M f) in sort_V argsort LV.1 LV.2.
(* 234-235: the modes on rank r *)
Definition run_modes (r : 'I_size) (f : nat) (H : (n_modes_save c <= n_blocks c)%N) : 'M[C]_(nloc r, n_modes_save c) :=
  kept_modes H (all_modes (q_hat c (@local_X r) f) (run_L f) (run_V f)).
Definition run_eigs (f : nat) : 'rV[C]_(n_blocks c) := eigs_of c f (run_L f).
End Run.
(* serial run: one rank that holds everything *)
Definition serial_M c n := @reduced_M 1 c n (fun _ => n) (fun _ i => i).
Definition serial_eigs c eig argsort n := @run_eigs 1 c eig argsort n (fun _ => n) (fun _ i => i).
Definition serial_modes c eig argsort n := @run_modes 1 c eig argsort n (fun _ => n) (fun _ i => i).
End Model.
