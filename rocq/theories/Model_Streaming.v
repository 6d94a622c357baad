(* Model of the streaming algorithm's control flow, /repo/pyspod/spod/streaming.py:43-206.
   Polymorphic: X = a snapshot, A = one incomplete DFT sum (x_sum[:,:,j]), M = the running mean,
   B = the basis with its singular values. The numerical instance is in Model_StreamNum.v. *)
From Coq Require Import List ZArith Lia PeanoNat.
Import ListNotations.
Set Implicit Arguments.

Section Stream.
Variables X A M B : Type.
(* 43-52 *)
Variables (n_dft n_overlap : nat).
Definition dn : nat := n_dft - n_overlap.
(* 47: int(np.ceil(n_dft / dn)) *)
Definition n_blocks_par : nat := (n_dft + dn - 1) / dn.
Variable zeroA : A.
Variable contrib : A -> nat -> X -> A.     (* 116-119: x_sum + window[t]*dft[t,:]*x_new *)
Variable mean_step : nat -> M -> X -> M.   (* 110: (ti*mu_old + x_new)/(ti+1) *)
Variable basis_step : nat -> A -> M -> B -> B. (* 132-206: block_i, x_hat, mu, old basis *)

Record state := St {
  slots : list (Z * A);      (* t_idx[j], x_sum[:,:,j] *)
  mu : M;
  block_i : nat;
  basis : B
}.
(* 50-52, 70, 93-95 *)
Definition init_slots : list (Z * A) := map (fun j => (- (Z.of_nat j * Z.of_nat dn), zeroA)%Z) (seq 0 n_blocks_par).

(* Python's min over the clocks *)
Definition zmin (l : list Z) : Z := match l with [] => 0%Z | a :: r => fold_right Z.min a r end.

(* 114-128: the loop over slots; `done` are the slots already treated in this pass.
   hat = x_hat of the last completed slot of this pass, None if update is False *)
Fixpoint pass (x : X) (done todo : list (Z * A)) (hat : option A) : list (Z * A) * option A :=
  match todo with
  | [] => (done, hat)
  | (t, a) :: rest =>
    let a1 := if (-1 <? t)%Z then contrib a (Z.to_nat t) x else a in
    if (t =? Z.of_nat n_dft - 1)%Z
    then pass x (done ++ [((zmin (map fst (done ++ (t, a1) :: rest)) - Z.of_nat dn)%Z, zeroA)]) rest (Some a1)
    else pass x (done ++ [((t + 1)%Z, a1)]) rest hat
  end.

(* 96-206: one iteration of the while loop *)
Definition step (ti : nat) (s : state) (x : X) : state * option A :=
  let mu' := mean_step ti (mu s) x in
  let (sl, hat) := pass x [] (slots s) None in
  match hat with
  | None => (St sl mu' (block_i s) (basis s), None)
  | Some h => let b := S (block_i s) in (St sl mu' b (basis_step b h mu' (basis s)), Some h)
  end.

(* the loop over the first n snapshots of the stream *)
Fixpoint run (mu0 : M) (b0 : B) (strm : nat -> X) (n : nat) : state :=
  match n with
  | 0 => St init_slots mu0 0 b0
  | S t => fst (step t (run mu0 b0 strm t) (strm t))
  end.
(* the transform completed by snapshot t, if any *)
Definition completed (mu0 : M) (b0 : B) (strm : nat -> X) (t : nat) : option A :=
  snd (step t (run mu0 b0 strm t) (strm t)).
(* how many slots complete while snapshot t is processed *)
Definition finishing (mu0 : M) (b0 : B) (strm : nat -> X) (t : nat) : list nat :=
  filter (fun j => (fst (nth j (slots (run mu0 b0 strm t)) (0%Z, zeroA)) =? Z.of_nat n_dft - 1)%Z) (seq 0 n_blocks_par).
End Stream.
