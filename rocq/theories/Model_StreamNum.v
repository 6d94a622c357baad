(* Numerical instance of the streaming algorithm, /repo/pyspod/spod/streaming.py:41-252, in exact
   arithmetic over a numClosedFieldType, on a communicator of `size` ranks (index maps as in
   Model_Spod.v). la.svd (194) is a parameter. A basis that contains NaN (division by a zero norm,
   181) is None; the next svd of it raises, so None is absorbing. *)
From Verif Require Import Model_Streaming.
From mathcomp Require Import all_ssreflect all_algebra.
From Verif Require Import Model_Spod.
Set Implicit Arguments.
Unset Strict Implicit.
Unset Printing Implicit Defensive.
Import GRing.Theory Num.Theory.
Local Open Scope ring_scope.

Section Num.
Variable C : numClosedFieldType.
Variable c : config C.
Variable size : nat.
Variable n : nat.
Variable nloc : 'I_size -> nat.
Variable own : forall r : 'I_size, 'I_(nloc r) -> 'I_n.
Variable w : 'cV[C]_n.
Notation k := (n_modes_save c).
Variable svd : 'M[C]_(k + 1) -> 'M[C]_(k + 1) * 'rV[C]_(k + 1).   (* left vectors, singular values *)

(* 76-85: np.fft.fft(np.identity(n_dft)), columns 1..n_freq-2 doubled for real data *)
Definition dft_entry (row f : nat) : C :=
  (if isrealx c && (0 < f)%N && (f < n_freq c - 1)%N then 2 else 1) * omega c ^+ (row * f).
(* what one rank reads: its entries of the snapshot *)
Definition rsnap := forall r : 'I_size, 'cV[C]_(nloc r).
Definition rsum := forall r : 'I_size, nat -> 'cV[C]_(nloc r).       (* frequency -> vector *)
Definition rbasis := forall r : 'I_size, nat -> option ('M[C]_(nloc r, k) * 'rV[C]_k).
(* 116-119 *)
Definition contrib (a : rsum) (row : nat) (x : rsnap) : rsum :=
  fun r f => a r f + (window c row * dft_entry row f) *: x r.
(* 110 *)
Definition mean_step (ti : nat) (m : rsnap) (x : rsnap) : rsnap :=
  fun r => (ti.+1%:R)^-1 *: (ti%:R *: m r + x r).
(* 136-141, 41, 160: mean subtracted, scaled, weighted *)
Definition sqrt_w (r : 'I_size) (i : 'I_(nloc r)) : C := sqrtC (w (own i) 0).
Definition x_centred (h : rsum) (m : rsnap) (r : 'I_size) (f : nat) : 'cV[C]_(nloc r) :=
  (win_weight c / (n_dft c)%:R) *: (h r f - \sum_(row < n_dft c) (window c row * dft_entry row f) *: m r).
Definition x_weighted (h : rsum) (m : rsnap) (r : 'I_size) (f : nat) : 'cV[C]_(nloc r) :=
  \col_i (x_centred h m r f i 0 * sqrt_w i).
(* 185-191: K *)
Definition K_mx (b : nat) (S : 'rV[C]_k) (Ux : 'cV[C]_k) (abs_up : C) : 'M[C]_(k + 1) :=
  sqrtC (b.+1%:R / (b.+2%:R ^+ 2)) *:
    col_mx (row_mx (sqrtC b.+2%:R *: diag_mx S) Ux) (row_mx 0 (abs_up%:M : 'M_1)).
Fixpoint all_some (T : 'I_size -> Type) (l : seq 'I_size) (g : forall r, option (T r)) : bool :=
  match l with [::] => true | r :: l' => (if g r is Some _ then true else false) && all_some l' g end.
(* 159-207 for one frequency *)
Section Update.
Variables (b : nat) (x : rsnap) (U : forall r, 'M[C]_(nloc r, k)) (S : forall r : 'I_size, 'rV[C]_k).
Definition Ux : 'cV[C]_k := \sum_(r < size) adj (U r) *m x r.                  (* 169-170 *)
Definition u_p (r : 'I_size) : 'cV[C]_(nloc r) := x r - U r *m Ux.              (* 173 *)
Definition abs_up : C := sqrtC ((\sum_(r < size) adj (u_p r) *m u_p r) 0 0).    (* 176-178 *)
Definition u_new (r : 'I_size) : 'cV[C]_(nloc r) := \col_i (u_p r i 0 / abs_up). (* 181 *)
Definition U_full (r : 'I_size) : 'M[C]_(nloc r, k + 1) := row_mx (U r) (u_new r) *m (svd (K_mx b (S r) Ux abs_up)).1.
Definition S_full (r : 'I_size) : 'rV[C]_(k + 1) := (svd (K_mx b (S r) Ux abs_up)).2.
Definition update (r : 'I_size) : option ('M[C]_(nloc r, k) * 'rV[C]_k) :=
  if abs_up == 0 then None else Some (lsubmx (U_full r), lsubmx (S_full r)).
End Update.
Definition basis_step (b : nat) (h : rsum) (m : rsnap) (B : rbasis) : rbasis :=
  fun r f =>
  if all_some (enum 'I_size) (fun q => B q f) then
    update b (fun q => x_weighted h m q f)
      (fun q => if B q f is Some us then us.1 else 0) (fun q => if B q f is Some us then us.2 else 0) r
  else None.
(* 68-73: zero basis, zero singular values *)
Definition basis0 : rbasis := fun r f => Some (0, 0).
Definition mean0 : rsnap := fun r => 0.
Definition sum0 : rsum := fun r f => 0.

(* the whole fit over the first N snapshots of a stream of snapshots of n entries *)
Definition local_stream (X : nat -> 'cV[C]_n) (t : nat) : rsnap := fun r => \col_i X t (own i) 0.
Definition stream_state (X : nat -> 'cV[C]_n) (N : nat) :=
  run (n_dft c) (n_overlap c) sum0 contrib mean_step basis_step mean0 basis0 (local_stream X) N.
(* 225: phi = u_hat / sqrt_w *)
Definition stream_modes (X : nat -> 'cV[C]_n) (N : nat) (r : 'I_size) (f : nat) : option ('M[C]_(nloc r, k)) :=
  if Model_Streaming.basis (stream_state X N) r f is Some us
  then Some (\matrix_(i, j) (us.1 i j / sqrt_w i)) else None.
(* 252: what is saved as eigenvalues *)
Definition stream_eigs (X : nat -> 'cV[C]_n) (N : nat) (r : 'I_size) (f : nat) : option ('rV[C]_k) :=
  if Model_Streaming.basis (stream_state X N) r f is Some us then Some us.2 else None.
(* one rank holding everything *)
End Num.
Definition serial_stream_modes C c n w svd X N := @stream_modes C c 1 n (fun _ => n) (fun _ i => i) w svd X N ord0.
Definition serial_stream_eigs C c n w svd X N := @stream_eigs C c 1 n (fun _ => n) (fun _ i => i) w svd X N ord0.
