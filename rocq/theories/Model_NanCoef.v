(* NaN in the coefficients, reconstructions and the POD fit: /repo/pyspod/spod/utils.py:80-215, 223-395, 541-551, 576-608,
   /repo/pyspod/pod/standard.py:44-63, /repo/pyspod/pod/utils.py:78-86, 193-199. Arithmetic with NaN as in Model_Nan.v; the clean
   arithmetic is that of Model_Coeffs.v and Model_Pod.v. *)
From Verif Require Import Base_List Model_Select.
From mathcomp Require Import all_ssreflect all_algebra.
From Verif Require Import Model_Spod Model_Coeffs Model_Nan.
Set Implicit Arguments.
Unset Strict Implicit.
Unset Printing Implicit Defensive.
Import GRing.Theory Num.Theory.
Local Open Scope ring_scope.

Section Op.
Variable C : numClosedFieldType.
Variables (size n nt p : nat).
Variable nloc : 'I_size -> nat.
Variable own : forall r : 'I_size, 'I_(nloc r) -> 'I_n.
Variable w : 'cV[C]_n.                            (* weights *)
Variable Phi : 'I_n -> 'I_p -> option C.          (* the gathered modes *)
Variable data : 'I_nt -> 'I_n -> option C.
Variable svd : 'M[C]_p -> 'M[C]_p * 'rV[C]_p * 'M[C]_p.
Variable tol : C.
(* utils.py:158 *)
Definition c_mean (i : 'I_n) : option C := ndiv (nsum (enum 'I_nt) (fun t => data t i)) (Some nt%:R).
Definition c_cent (t : 'I_nt) (i : 'I_n) : option C := nsub (data t i) (c_mean i).
(* 582-586 *)
Definition c_M (j k : 'I_p) : option C :=
  nsum (enum 'I_size) (fun r => nsum (enum 'I_(nloc r)) (fun i => nmul (nconj (Phi (own i) j)) (nmul (Some (w (own i) 0)) (Phi (own i) k)))).
Definition c_Q (j : 'I_p) (t : 'I_nt) : option C :=
  nsum (enum 'I_size) (fun r => nsum (enum 'I_(nloc r)) (fun i => nmul (nconj (Phi (own i) j)) (nmul (Some (w (own i) 0)) (c_cent t (own i))))).
(* 588-605: np.linalg.svd and np.linalg.pinv raise LinAlgError on a matrix with NaN *)
Definition c_inv : fit_result 'M[C]_p :=
  if [forall j, [forall k, isSome (c_M j k)]] then Returned (m_inv svd tol (\matrix_(j, k) odflt 0 (c_M j k))) else LinAlgError.
Definition c_coeffs : fit_result ('I_p -> 'I_nt -> option C) :=
  match c_inv with
  | LinAlgError => LinAlgError
  | Returned A => Returned (fun j t => nsum (enum 'I_p) (fun k => nmul (Some (A j k)) (c_Q k t)))
  end.
(* 541-551: from the saved modes, coefficients and mean; at every time and entry *)
Definition c_rec (a : 'I_p -> 'I_nt -> option C) (i : 'I_n) (t : 'I_nt) : option C :=
  nadd (nsum (enum 'I_p) (fun j => nmul (Phi i j) (a j t))) (c_mean i).
End Op.

Section Conv.
Variable C : numClosedFieldType.
Variables (n nt nm : nat).
Variable w : 'cV[C]_n.
Variable phi : nat -> 'I_n -> 'I_nm -> C.         (* frequency, entry, mode *)
Variable data : 'I_nt -> 'I_n -> option C.
Variables (n_dft : nat) (win : nat -> C) (omega : C).
(* 330-331, 349-350 *)
Definition c_pad (q : nat) (i : 'I_n) : option C :=
  if insub (q - h_pad n_dft)%N is Some t then if (h_pad n_dft <= q)%N then c_cent data t i else Some 0 else Some 0.
Definition c_blk (f i0 : nat) (i : 'I_n) : option C :=
  nsum (iota 0 n_dft) (fun k => nmul (nmul (c_pad (i0 + k) i) (Some (win k))) (Some (omega ^+ (f * k)))).
(* 382-394, one process *)
Definition c_conv (f i0 : nat) (m : 'I_nm) : option C :=
  nmul (Some (corr nt n_dft win i0)) (nsum (enum 'I_n) (fun i => nmul (nmul (c_blk f i0 i) (Some (w i 0))) (Some (phi f i m)^*))).
End Conv.

(* scipy.linalg.eig(check_finite=True) raises ValueError *)
Inductive scipy_result (T : Type) : Type := ValueError | Done of T.
Arguments ValueError {T}.
Section Pod.
Variable C : numClosedFieldType.
Variables (size n nt : nat).
Variable nloc : 'I_size -> nat.
Variable own : forall r : 'I_size, 'I_(nloc r) -> 'I_n.
Variable w : 'cV[C]_n.
Variable data : 'I_nt -> 'I_n -> option C.
Variable longtime : bool.
Variable eig : 'M[C]_nt -> 'rV[C]_nt * 'M[C]_nt.
(* pod/base.py:244-252 *)
Definition p_buf (t : nat) (i : 'I_n) : option C := if insub t is Some t' then omap (fun x => 'Re x) (data t' i) else Some 0.
(* pod/base.py:351-370 *)
Definition p_mean (i : 'I_n) : option C :=
  if longtime then
    let h := nt./2 in
    ndiv (nadd (nadd (nsum (iota 0 h) (fun t => p_buf t i)) (nsum (iota h h) (fun t => p_buf t i)))
               (if odd nt then nsum (iota (nt - 1) 1) (fun t => p_buf t i) else Some 0)) (Some nt%:R)
  else Some 0.
(* pod/standard.py:45-51 *)
Definition p_d (i : 'I_n) (t : 'I_nt) : option C := nsub (p_buf t i) (p_mean i).
Definition p_Q (t s : 'I_nt) : option C :=
  nsum (enum 'I_size) (fun r => nsum (enum 'I_(nloc r)) (fun i => nmul (nconj (p_d (own i) t)) (nmul (p_d (own i) s) (Some (w (own i) 0))))).
(* 52-58 *)
Definition pod_fit : scipy_result ('rV[C]_nt * ('I_n -> 'I_nt -> option C)) :=
  if [forall t, [forall s, isSome (p_Q t s)]] then
    let ev := eig (\matrix_(t, s) odflt 0 (p_Q t s)) in
    Done (ev.1, fun i j => ndiv (omap (fun x => 'Re x) (nsum (enum 'I_nt) (fun t => nmul (p_d i t) (Some (ev.2 t j))))) (Some (sqrtC (ev.1 0 j))))
  else ValueError.
(* pod/utils.py:79-86, 193-199: nothing is checked *)
Variable k : nat.
Variable Phi : 'I_n -> 'I_k -> option C.
Definition p_coeffs (j : 'I_k) (t : 'I_nt) : option C :=
  nsum (enum 'I_size) (fun r => nsum (enum 'I_(nloc r)) (fun i => nmul (Phi (own i) j) (c_cent data t (own i)))).
Definition p_rec (i : 'I_n) (t : 'I_nt) : option C :=
  nadd (nsum (enum 'I_k) (fun j => nmul (Phi i j) (p_coeffs j t))) (c_mean data i).
End Pod.
