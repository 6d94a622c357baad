(* POD: /repo/pyspod/pod/base.py, standard.py, utils.py. Exact arithmetic over a numClosedFieldType;
   ranks and index maps as in Model_Spod.v. scipy.linalg.eig is a parameter. *)
From mathcomp Require Import all_ssreflect all_algebra.
From Verif Require Import Model_Spod.
Set Implicit Arguments.
Unset Strict Implicit.
Unset Printing Implicit Defensive.
Import GRing.Theory Num.Theory.
Local Open Scope ring_scope.
Section Pod.
Variable C : numClosedFieldType.
Variables (size n nt : nat).
Variable nloc : 'I_size -> nat.
Variable own : forall r : 'I_size, 'I_(nloc r) -> 'I_n.
Variable w : 'cV[C]_n.
Variable data : 'M[C]_(nt, n).
(* base.py 244-252: the record is copied into a buffer of real numbers (numpy drops the imaginary part) *)
Definition buf (r : 'I_size) (t : nat) (i : 'I_(nloc r)) : C :=
  if insub t is Some t' then 'Re (data t' (own i)) else 0.
(* base.py 351-370: two halves of nt // 2 snapshots, and the remaining one if nt is odd *)
Definition long_t_mean (r : 'I_size) (i : 'I_(nloc r)) : C :=
  let h := nt./2 in let rs := odd nt in
  ((\sum_(0 <= t < h) buf t i + \sum_(h <= t < h + h) buf t i)
   + (if rs then \sum_(nt - rs <= t < nt) buf t i else 0)) / nt%:R.
(* base.py 338-348; longtime = false: mean_type 'zero' *)
Variable longtime : bool.
Definition t_mean_pod (r : 'I_size) (i : 'I_(nloc r)) : C := if longtime then long_t_mean i else 0.
(* standard.py 45-47 *)
Definition d_mat (r : 'I_size) : 'M[C]_(nloc r, nt) := \matrix_(i, t) (buf t i - t_mean_pod i).
(* 50-51; allreduce: sum over ranks *)
Definition pod_Q : 'M[C]_nt := \sum_(r < size) adj (d_mat r) *m wmul (\col_i w (own i) 0) (d_mat r).
(* 52 *)
Variable eig : 'M[C]_nt -> 'rV[C]_nt * 'M[C]_nt.
Definition pod_w := (eig pod_Q).1.
Definition pod_v := (eig pod_Q).2.
(* 58: None: not a finite number (division by sqrt(0)) *)
Definition pod_phi (r : 'I_size) (i : 'I_(nloc r)) (j : 'I_nt) : option C :=
  if pod_w 0 j == 0 then None else Some ('Re ((d_mat r *m pod_v) i j) / sqrtC (pod_w 0 j)).
End Pod.
(* 61: phi[:,0:k] for k <= nt: what rank r contributes to modes.npy *)
Definition pod_saved (C : numClosedFieldType) size n nt nloc own w data longtime eig k (H : (k <= nt)%N) r i (j : 'I_k) : option C :=
  @pod_phi C size n nt nloc own w data longtime eig r i (widen_ord H j).

(* utils.py: coefficients and reconstruction from the modes in the file (k columns) *)
Section PodCoeffs.
Variable C : numClosedFieldType.
Variables (size n nt k : nat).
Variable nloc : 'I_size -> nat.
Variable own : forall r : 'I_size, 'I_(nloc r) -> 'I_n.
Variable Phi : 'M[C]_(n, k).
Variable data : 'M[C]_(nt, n).
(* 80: np.mean(data, axis=0) *)
Definition lt_mean_pod (r : 'I_size) (i : 'I_(nloc r)) : C := (\sum_t data t (own i)) / nt%:R.
(* 85-86: transposed, not conjugated; the weights read in 73 are not used *)
Definition pod_coeffs : 'M[C]_(k, nt) :=
  \sum_(r < size) (\matrix_(i, j) Phi (own (r := r) i) j)^T *m (\matrix_(t, i) (data t (own (r := r) i) - lt_mean_pod i))^T.
(* 193-199 *)
Definition pod_rec (r : 'I_size) (i : 'I_(nloc r)) (t : 'I_nt) : C :=
  \sum_j Phi (own i) j * pod_coeffs j t + lt_mean_pod i.
End PodCoeffs.
Definition serial_pod_saved (C : numClosedFieldType) n nt w data longtime eig k (H : (k <= nt)%N) (i : 'I_n) (j : 'I_k) : option C :=
  @pod_saved C 1 n nt (fun _ => n) (fun _ i => i) w data longtime eig k H ord0 i j.
Definition serial_pod_rec (C : numClosedFieldType) n nt k Phi data (i : 'I_n) t := @pod_rec C 1 n nt k (fun _ => n) (fun _ i => i) Phi data ord0 i t.
