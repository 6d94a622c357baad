(* Sums computed in double precision: the long-time mean (spod/base.py 589-617) and the entries of the cross-spectral matrix
   (spod/standard.py 196-203 with the reduction of utils/parallel.py 161-170).
   Neither numpy nor MPI promises an order of summation: [sums l v] says that v is the result of adding the doubles of l in some order and
   some bracketing, each addition rounded. numpy's sum of no values is 0.
   Simplifications: no overflow and no NaN; dividing a complex number by the number of blocks divides both components; a product of complex
   numbers enters as its real products (twice as many terms for each component). *)
From Coq Require Import Reals List Permutation PeanoNat.
From Verif Require Import Base_List Model_Reader2 Model_Float.
Import ListNotations.
Local Open Scope R_scope.
Local Open Scope list_scope.
Set Implicit Arguments.

Inductive sums : list R -> R -> Prop :=
| sums_none : sums [] 0
| sums_one x : sums [x] x
| sums_add l1 l2 a b : sums l1 a -> sums l2 b -> sums (l1 ++ l2) (fadd a b)
| sums_perm l1 l2 a : Permutation l1 l2 -> sums l1 a -> sums l2 a.

(* what is asked of np.sum *)
Definition any_order (npsum : list R -> R) : Prop := forall l, sums l (npsum l).

Section Mean.
Variable npsum : list R -> R.
(* base.py 601-614, one component of the array: the record in memory *)
Definition f_long_t_mean (nt n_blocks : nat) (data : list R) : R :=
  let split_block := (nt / n_blocks)%nat in
  let split_res := (nt mod n_blocks)%nat in
  let t_sum := fold_left (fun t i => fadd t (npsum (window (i * split_block) split_block data))) (seq 0 n_blocks) 0 in
  let t_sum := if (0 <? split_res)%nat then fadd t_sum (npsum (window (nt - split_res) split_res data)) else t_sum in
  fdiv t_sum (INR nt).
(* base.py 591-600, 614: the chunks of a file *)
Definition f_long_t_mean_dict (nt : nat) (st : list (nat * block R)) : R :=
  fdiv (fold_left (fun t kb => fadd t (npsum (b_v (snd kb)))) st 0) (INR nt).
End Mean.

(* standard.py 200-203, one component of one entry: terms r lists, for the points owned by process r, the factors (x, y, w) with x of one block,
   y of the other and w the weight; each process divides by the number of blocks before the reduction *)
Definition f_product (t : R * R * R) : R := let '(x, y, w) := t in fmul x (fmul y w).
Definition f_entry (npsum allreduce : list R -> R) (n_blocks : nat) (terms : list (list (R * R * R))) : R :=
  allreduce (map (fun ts => fdiv (npsum (map f_product ts)) (INR n_blocks)) terms).
