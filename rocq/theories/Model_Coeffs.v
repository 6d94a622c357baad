(* Coefficients by oblique projection and by convolution, reconstruction, orthogonality check:
   /repo/pyspod/spod/utils.py. Exact arithmetic over a numClosedFieldType; `size` ranks with index maps
   `own` (as in Model_Spod.v); allreduce = sum over ranks. Phi: the gathered modes (C55), p columns. *)
From Verif Require Import Base_List Model_Select.
From mathcomp Require Import all_ssreflect all_algebra.
From Verif Require Import Model_Spod.
Set Implicit Arguments.
Unset Strict Implicit.
Unset Printing Implicit Defensive.
Import GRing.Theory Num.Theory.
Local Open Scope ring_scope.

Section Coeffs.
Variable C : numClosedFieldType.
Variables (size n nt p : nat).
Variable nloc : 'I_size -> nat.
Variable own : forall r : 'I_size, 'I_(nloc r) -> 'I_n.
Variable w : 'cV[C]_n.                  (* weights *)
Variable Phi : 'M[C]_(n, p).
Variable data : 'M[C]_(nt, n).
(* what a rank holds after the distribution and the reshapes, 141-157 *)
Definition phir (r : 'I_size) : 'M[C]_(nloc r, p) := \matrix_(i, j) Phi (own i) j.
Definition wloc (r : 'I_size) : 'cV[C]_(nloc r) := \col_i w (own i) 0.
Definition dloc (r : 'I_size) : 'M[C]_(nt, nloc r) := \matrix_(t, i) data t (own i).
(* 158 *)
Definition lt_mean (r : 'I_size) : 'rV[C]_(nloc r) := \row_i ((\sum_t dloc r t i) / nt%:R).
Definition dcent (r : 'I_size) : 'M[C]_(nt, nloc r) := \matrix_(t, i) (dloc r t i - lt_mean r 0 i).
(* weights * A: row i times w_i *)
Definition wmul q (r : 'I_size) (A : 'M[C]_(nloc r, q)) : 'M[C]_(nloc r, q) := \matrix_(i, j) (wloc r i 0 * A i j).
(* 582-586 *)
Definition M_red : 'M[C]_p := \sum_(r < size) adj (phir r) *m wmul (phir r).
Definition Q_red : 'M[C]_(p, nt) := \sum_(r < size) adj (phir r) *m wmul (dcent r)^T.
(* 588-597; np.linalg.pinv(M, tol) (604) is the same function: singular values not above
   tol times the largest are dropped *)
Variable svd : 'M[C]_p -> 'M[C]_p * 'rV[C]_p * 'M[C]_p.
Variable tol : C.
Definition l_max (l : 'rV[C]_p) : C := \big[Num.max/0]_(i < p) l 0 i.
Definition l_inv (l : 'rV[C]_p) : 'rV[C]_p := \row_i (if tol * l_max l < l 0 i then (l 0 i)^-1 else 0).
Definition m_inv (M : 'M[C]_p) : 'M[C]_p :=
  let u := (svd M).1.1 in let l := (svd M).1.2 in let v := (svd M).2 in
  adj v *m diag_mx (l_inv l) *m adj u.
(* 598 / 605 *)
Definition coeffs : 'M[C]_(p, nt) := m_inv M_red *m Q_red.
(* 541-551 _compute_rec_op, at every time; the selection of times is Model_Select.selected_times *)
Definition rec_op (r : 'I_size) : 'M[C]_(nloc r, nt) :=
  \matrix_(i, t) ((phir r *m coeffs) i t + lt_mean r 0 i).
(* 62-68 check_orthogonality: the reduced inner product of two columns *)
Definition ortho_value (j k : 'I_p) : C :=
  \sum_(r < size) (adj (col j (phir r)) *m wmul (col k (phir r))) 0 0.
End Coeffs.
Definition serial_coeffs C n nt p w Phi data svd tol := @coeffs C 1 n nt p (fun _ => n) (fun _ i => i) w Phi data svd tol.
Definition serial_rec C n nt p w Phi data svd tol := @rec_op C 1 n nt p (fun _ => n) (fun _ i => i) w Phi data svd tol ord0.

(* ---- convolution, 223-395 ---- *)
Section Conv.
Variable C : numClosedFieldType.
Variables (size n nt nm : nat).
Variable nloc : 'I_size -> nat.
Variable own : forall r : 'I_size, 'I_(nloc r) -> 'I_n.
Variable w : 'cV[C]_n.
Variable phi : nat -> 'I_n -> 'I_nm -> C.   (* frequency, entry, mode *)
Variable data : 'M[C]_(nt, n).
Variable n_dft : nat.
Variable win : nat -> C.                    (* the Hamming window, 261-263 *)
Variable omega : C.
(* 330-331: zero snapshots on both sides; h = ceil(n_dft/2) *)
Definition h_pad : nat := Z.to_nat (half_up n_dft).
Definition pad (r : 'I_size) (q : nat) (i : 'I_(nloc r)) : C :=
  if insub (q - h_pad)%N is Some t then if (h_pad <= q)%N then dcent own data r t i else 0 else 0.
(* 349-350: fft over the window, at one frequency *)
Definition q_blk (r : 'I_size) (f i0 : nat) (i : 'I_(nloc r)) : C :=
  \sum_(k < n_dft) pad (i0 + k) i * win k * omega ^+ (f * k).
(* 332, 354-365 *)
Definition corr (i0 : nat) : C :=
  if corr_range nt n_dft i0 is Some _
  then sqrtC ((\sum_(k < n_dft) win k) / \sum_(k < n_dft | in_sum nt n_dft i0 k) win k)
  else 1.
(* 382-394: no reduction over ranks *)
Definition conv_local (r : 'I_size) (f i0 : nat) (m : 'I_nm) : C :=
  corr i0 * \sum_(i < nloc r) q_blk f i0 i * w (own i) 0 * (phi f (own i) m)^*.
End Conv.
(* 417: rank 0 saves its array *)
Definition conv_saved C size n nt nm (nloc : 'I_size.+1 -> nat) own w phi data n_dft win omega :=
  @conv_local C size.+1 n nt nm nloc own w phi data n_dft win omega ord0.
Definition conv_serial C n nt nm w phi data n_dft win omega :=
  @conv_local C 1 n nt nm (fun _ => n) (fun _ i => i) w phi data n_dft win omega ord0.
