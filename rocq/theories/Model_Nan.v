(* Missing values (NaN) in the batch and streaming fits: /repo/pyspod/spod/standard.py:157-365,
   /repo/pyspod/spod/base.py:574-617 and /repo/pyspod/spod/streaming.py:41-252, with every number either a value
   of C or NaN (None). NaN is absorbing for + - * / and the conjugate; a comparison with NaN is false.
   np.linalg.eig (207) refuses a stack of matrices that is not finite (_assert_finite) and np.linalg.svd
   (streaming.py:194) does not converge on one: both raise LinAlgError. The clean arithmetic is that of
   Model_Spod.v and Model_StreamNum.v; infinities (overflow) are not modelled. *)
From Verif Require Import Model_Streaming.
From mathcomp Require Import all_ssreflect all_algebra.
From Verif Require Import Model_Spod Model_StreamNum.
Set Implicit Arguments.
Unset Strict Implicit.
Unset Printing Implicit Defensive.
Import GRing.Theory Num.Theory.
Local Open Scope ring_scope.

(* what a fit does: it raises, or it returns something *)
Inductive fit_result (T : Type) : Type := LinAlgError | Returned of T.
Arguments LinAlgError {T}.

Section Arith.
Variable C : numClosedFieldType.
Definition lift2 (op : C -> C -> C) (a b : option C) : option C :=
  if a is Some x then if b is Some y then Some (op x y) else None else None.
Definition nadd := lift2 +%R.
Definition nsub := lift2 (fun x y => x - y).
Definition nmul := lift2 *%R.
(* x/0 is NaN or infinite *)
Definition ndiv (a b : option C) : option C :=
  if a is Some x then if b is Some y then if y == 0 then None else Some (x / y) else None else None.
Definition nconj (a : option C) : option C := omap (fun x => x^* ) a.
(* np.sum, @, allreduce *)
Definition nsum (I : Type) (r : seq I) (F : I -> option C) : option C := foldr (fun i a => nadd (F i) a) (Some 0) r.
End Arith.

Section Batch.
Variable C : numClosedFieldType.
Variable c : config C.
(* ---- one time series, standard.py:157-187; as Model_Spod.v ---- *)
(* base.py:577-580, 589-614 *)
Definition n_t_mean (x : nat -> option C) : option C :=
  match mean_type c with
  | Longtime => ndiv (nsum (iota 0 (nt c)) x) (Some (nt c)%:R)
  | Blockwise | Zero => Some 0
  end.
(* standard.py:163-171 *)
Definition n_mean_block (q : nat -> option C) : option C := ndiv (nsum (iota 0 (n_dft c)) q) (Some (n_dft c)%:R).
Definition n_centred (x : nat -> option C) (b : nat) : nat -> option C :=
  let q := fun k => nsub (x (block_offset c b + k)%N) (n_t_mean x) in
  match mean_type c with
  | Blockwise => fun k => nsub (q k) (n_mean_block q)
  | _ => q
  end.
(* 173-179: Q_var[Q_var < eps] = 1 leaves NaN alone *)
Definition n_var (q : nat -> option C) : option C :=
  ndiv (nsum (iota 0 (n_dft c)) (fun j => let d := nsub (q j) (n_mean_block q) in nmul d d)) (Some ((n_dft c)%:R - 1)).
Definition n_normalized (q : nat -> option C) : nat -> option C :=
  if normalize_data c then
    let d := if n_var q is Some v then if v < eps4 c then Some 1 else Some v else None in
    fun k => ndiv (q k) d
  else q.
(* 181-187; the window is finite *)
Definition n_windowed (x : nat -> option C) (b : nat) : nat -> option C :=
  fun k => nmul (n_normalized (n_centred x b) k) (Some (window c k)).
Definition n_hat (x : nat -> option C) (b f : nat) : option C :=
  nmul (Some (win_weight c / (n_dft c)%:R))
       (nsum (iota 0 (n_dft c)) (fun k => nmul (n_windowed x b k) (Some (omega c ^+ (f * k))))).

(* ---- the fit on a communicator ---- *)
Variable eig : 'M[C]_(n_blocks c) -> 'rV[C]_(n_blocks c) * 'M[C]_(n_blocks c).
Variable argsort : 'rV[C]_(n_blocks c) -> 'I_(n_blocks c) -> 'I_(n_blocks c).
Variables (size n : nat) (nloc : 'I_size -> nat) (own : forall r : 'I_size, 'I_(nloc r) -> 'I_n).
Variable X : nat -> 'I_n -> option C.        (* the record *)
Variable w : 'I_n -> option C.                (* the weights *)
(* 107-118: Q_hats[f] on rank r *)
Definition n_q (r : 'I_size) (f : nat) (i : 'I_(nloc r)) (b : nat) : option C := n_hat (fun t => X t (own i)) b f.
(* 199-203 *)
Definition n_local_M (r : 'I_size) (f b b' : nat) : option C :=
  ndiv (nsum (enum 'I_(nloc r)) (fun i => nmul (nconj (n_q f i b)) (nmul (n_q f i b') (w (own i))))) (Some (n_blocks c)%:R).
Definition n_M (f b b' : nat) : option C := nsum (enum 'I_size) (fun r => n_local_M r f b b').
(* 207: la.eig of the stacked matrices of all frequencies: _assert_finite *)
Definition finite_M : bool :=
  [forall f : 'I_(n_freq c), [forall b : 'I_(n_blocks c), [forall b' : 'I_(n_blocks c), isSome (n_M f b b')]]].
Definition value_M (f : nat) : 'M[C]_(n_blocks c) := \matrix_(b, b') odflt 0 (n_M f b b').
(* 207-222 *)
Definition n_L (f : nat) := sort_L argsort (eig (value_M f)).1.
Definition n_V (f : nat) := sort_V argsort (eig (value_M f)).1 (eig (value_M f)).2.
(* 227-235, 264-300: the modes on rank r *)
Definition n_modes (r : 'I_size) (f : nat) (i : 'I_(nloc r)) (k : 'I_(n_blocks c)) : option C :=
  nsum (enum 'I_(n_blocks c)) (fun b => nmul (n_q f i b) (Some (n_V f b k * (sqrtC (n_blocks c)%:R * sqrtC (n_L f 0 k))^-1))).
(* what is saved: eigenvalues of every frequency, kept modes of every rank and frequency *)
Record batch_result := BatchResult {
  b_eigs : nat -> 'rV[C]_(n_blocks c);
  b_modes : forall r : 'I_size, nat -> 'I_(nloc r) -> 'I_(n_blocks c) -> option C
}.
Definition fit_batch : fit_result batch_result :=
  if finite_M then Returned (BatchResult (fun f => eigs_of c f (n_L f)) n_modes) else LinAlgError.
End Batch.

Section Streaming.
Variable C : numClosedFieldType.
Variable c : config C.
Variables (size n : nat) (nloc : 'I_size -> nat) (own : forall r : 'I_size, 'I_(nloc r) -> 'I_n).
Variable w : 'cV[C]_n.
Notation k := (n_modes_save c).
Variable svd : 'M[C]_(k + 1) -> 'M[C]_(k + 1) * 'rV[C]_(k + 1).
Definition nsnap := forall r : 'I_size, 'I_(nloc r) -> option C.
Definition nsums := forall r : 'I_size, nat -> 'I_(nloc r) -> option C.
(* u_hat may hold NaN, the singular values of a finite matrix are finite *)
Definition nbasis := forall r : 'I_size, nat -> ('I_(nloc r) -> 'I_k -> option C) * 'rV[C]_k.
(* streaming.py:116-119 *)
Definition n_contrib (a : nsums) (row : nat) (x : nsnap) : nsums :=
  fun r f i => nadd (a r f i) (nmul (Some (window c row * dft_entry c row f)) (x r i)).
(* 110 *)
Definition n_mean_step (ti : nat) (m x : nsnap) : nsnap :=
  fun r i => ndiv (nadd (nmul (Some ti%:R) (m r i)) (x r i)) (Some ti.+1%:R).
(* 136-141, 160 *)
Definition n_centred_s (h : nsums) (m : nsnap) (r : 'I_size) (f : nat) (i : 'I_(nloc r)) : option C :=
  nmul (Some (win_weight c / (n_dft c)%:R))
       (nsub (h r f i) (nsum (iota 0 (n_dft c)) (fun row => nmul (Some (window c row * dft_entry c row f)) (m r i)))).
Definition n_weighted (h : nsums) (m : nsnap) (f : nat) : nsnap :=
  fun r i => nmul (n_centred_s h m f i) (Some (sqrt_w own w i)).
(* 165-207 for one frequency *)
Section Update.
Variables (b : nat) (x : nsnap) (U : forall r, 'I_(nloc r) -> 'I_k -> option C) (S : forall r : 'I_size, 'rV[C]_k).
Definition n_Ux (j : 'I_k) : option C :=
  nsum (enum 'I_size) (fun r => nsum (enum 'I_(nloc r)) (fun i => nmul (nconj (U i j)) (@x r i))).          (* 169-170 *)
Definition n_up (r : 'I_size) (i : 'I_(nloc r)) : option C :=
  nsub (@x r i) (nsum (enum 'I_k) (fun j => nmul (U i j) (n_Ux j))).                                        (* 173 *)
Definition n_abs : option C :=
  omap sqrtC (nsum (enum 'I_size) (fun r => nsum (enum 'I_(nloc r)) (fun i => nmul (nconj (n_up i)) (n_up i)))). (* 176-178 *)
Definition n_new (r : 'I_size) (i : 'I_(nloc r)) : option C := ndiv (n_up i) n_abs.                          (* 181 *)
(* 185-194: the matrix handed to la.svd is finite *)
Definition finite_K : bool := [forall j : 'I_k, isSome (n_Ux j)] && isSome n_abs.
Definition value_K (r : 'I_size) : 'M[C]_(k + 1) := K_mx b (S r) (\col_j odflt 0 (n_Ux j)) (odflt 0 n_abs).
(* 200-207 *)
Definition n_U (r : 'I_size) (i : 'I_(nloc r)) (j : 'I_k) : option C :=
  nsum (enum 'I_(k + 1)) (fun l => nmul (match split l with inl l' => U i l' | inr _ => n_new i end) (Some ((svd (value_K r)).1 l (lshift 1 j)))).
Definition n_S (r : 'I_size) : 'rV[C]_k := lsubmx (svd (value_K r)).2.
End Update.
(* 132-210: the loop over the frequencies; an exception at one of them ends the fit on every rank (Ux and abs_up are reduced) *)
Definition n_basis_step (b : nat) (h : nsums) (m : nsnap) (B : fit_result nbasis) : fit_result nbasis :=
  match B with
  | LinAlgError => LinAlgError
  | Returned B =>
    if [forall f : 'I_(n_freq c), finite_K (n_weighted h m f) (fun r => (B r f).1)]
    then Returned (fun r f => (n_U b (n_weighted h m f) (fun q => (B q f).1) (fun q => (B q f).2) (r := r),
                               n_S b (n_weighted h m f) (fun q => (B q f).1) (fun q => (B q f).2) r))
    else LinAlgError
  end.
(* 68-73 *)
Definition n_basis0 : fit_result nbasis := Returned (fun r f => (fun _ _ => Some 0, 0)).
Definition n_mean0 : nsnap := fun r i => Some 0.
Definition n_sum0 : nsums := fun r f i => Some 0.
(* the whole fit over the first N snapshots *)
Definition n_stream (X : nat -> 'I_n -> option C) (N : nat) : fit_result nbasis :=
  Model_Streaming.basis (run (n_dft c) (n_overlap c) n_sum0 n_contrib n_mean_step n_basis_step n_mean0 n_basis0
    (fun t r i => X t (own i)) N).
(* 225, 252: u_hat * (1 / sqrt_w) and the singular values *)
Record stream_result := StreamResult {
  s_modes : forall r : 'I_size, nat -> 'I_(nloc r) -> 'I_k -> option C;
  s_eigs : forall r : 'I_size, nat -> 'rV[C]_k
}.
Definition fit_stream (X : nat -> 'I_n -> option C) (N : nat) : fit_result stream_result :=
  match n_stream X N with
  | LinAlgError => LinAlgError
  | Returned B => Returned (StreamResult (fun r f i j => ndiv ((B r f).1 i j) (Some (sqrt_w own w i))) (fun r f => (B r f).2))
  end.
End Streaming.

(* ---- normalize_weights: /repo/pyspod/utils/weights.py:100-146 and /repo/pyspod/utils/parallel.py:27-46; var_of i: the variable of entry i ---- *)
Section Normalise.
Variable C : numClosedFieldType.
Variable c : config C.
Variables (n : nat) (var_of : 'I_n -> nat) (X : nat -> 'I_n -> option C) (w : 'I_n -> option C).
(* serial, 138: np.nanvar ignores NaN; NaN if nothing is left *)
Definition present (v : nat) : seq C :=
  pmap id [seq X t i | t <- iota 0 (nt c), i <- [seq i <- enum 'I_n | var_of i == v]].
Definition nanvar (v : nat) : option C :=
  let s := present v in
  if s is [::] then None else
  let m := (\sum_(x <- s) x) / (seq.size s)%:R in Some ((\sum_(x <- s) (x - m) ^+ 2) / (seq.size s)%:R).
Definition serial_weights (i : 'I_n) : option C := ndiv (w i) (nanvar (var_of i)).
(* parallel, 122: pvar of the local data, reduced with op_stat in an arbitrary bracketing and order of the ranks *)
Variables (size : nat) (nloc : 'I_size -> nat) (own : forall r : 'I_size, 'I_(nloc r) -> 'I_n).
Definition local_values (v : nat) (r : 'I_size) : seq (option C) :=
  [seq X t (own i) | t <- iota 0 (nt c), i <- [seq i <- enum 'I_(nloc r) | var_of (own i) == v]].
(* parallel.py:31-35 *)
Definition local_stat (v : nat) (r : 'I_size) : nat * option C * option C :=
  let s := local_values v r in
  let N := Some (seq.size s)%:R in
  let m := ndiv (nsum s id) N in
  (seq.size s, m, ndiv (nsum s (fun x => let d := nsub x m in nmul d d)) N).
(* parallel.py:37-43 *)
Definition op_stat (a b : nat * option C * option C) : nat * option C * option C :=
  let: (na, ma, va) := a in let: (nb, mb, vb) := b in
  let N := (na + nb)%N in
  let num k x := nmul (Some k%:R) x in
  let d := nsub ma mb in
  (N, ndiv (nadd (num na ma) (num nb mb)) (Some N%:R),
   ndiv (nadd (nadd (num na va) (num nb vb)) (ndiv (num (na * nb)%N (nmul d d)) (Some N%:R))) (Some N%:R)).
Inductive rtree := Leaf of 'I_size | Node of rtree & rtree.
Fixpoint leaves (t : rtree) : seq 'I_size := match t with Leaf r => [:: r] | Node a b => leaves a ++ leaves b end.
(* parallel.py:45 *)
Fixpoint reduce (v : nat) (t : rtree) : nat * option C * option C :=
  match t with Leaf r => local_stat v r | Node a b => op_stat (reduce v a) (reduce v b) end.
(* weights.py:123 *)
Definition parallel_weights (t : rtree) (i : 'I_n) : option C := ndiv (w i) (reduce (var_of i) t).2.
End Normalise.
