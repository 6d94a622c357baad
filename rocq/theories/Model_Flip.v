(* Turning the Fourier coefficients from "per block" to "per frequency": spod/standard.py 97-101 (how the store of the blocks is built) and
   409-423 (_flip_qhat).  A numpy column is a list of values; the matrix of one frequency is the list of its columns (one per block). *)
From Verif Require Import Base_List.
Set Implicit Arguments.

Section Flip.
Variable V : Type.
Variable zero : V.

(* Python dictionaries with integer keys, in the order of insertion *)
Definition dict (X : Type) := list (nat * X).
Fixpoint lookup {X} (d : dict X) (k : nat) : res X :=
  match d with [] => Err KeyError | (k', x) :: d => if k' =? k then Ok x else lookup d k end.
Fixpoint store {X} (d : dict X) (k : nat) (x : X) : dict X :=
  match d with [] => [(k, x)] | (k', y) :: d => if k' =? k then (k', x) :: d else (k', y) :: store d k x end.
Fixpoint delete {X} (d : dict X) (k : nat) : res (dict X) :=
  match d with
  | [] => Err KeyError
  | (k', y) :: d => if k' =? k then Ok d else do d' <- delete d k; Ok ((k', y) :: d')
  end.

(* per_block: Q_hats (block -> frequency -> values); per_freq: Q_hat_f (frequency -> columns) *)
Record st := St { per_block : dict (dict (list V)); per_freq : dict (list (list V)) }.

(* standard.py 97-101: Q_hats[i_blk] = {}, Q_hats[i_blk][f] = qhat[f,:].copy() *)
Definition blocks_of (n_blocks n_freq : nat) (qhat : nat -> nat -> list V) : dict (dict (list V)) :=
  fold_left (fun d b => store d b (fold_left (fun e f => store e f (qhat b f)) (seq 0 n_freq) [])) (seq 0 n_blocks) [].

(* one statement of _flip_qhat *)
Inductive op := New (f : nat) | Fill (f b : nat) | Drop (b f : nat).

(* column[:] = v on a column of m entries: numpy copies, broadcasts a single value, raises otherwise *)
Definition assign (m : nat) (v : list V) : res (list V) :=
  if length v =? m then Ok v else match v with [x] => Ok (repeat x m) | _ => Err ValueError end.

Definition step (xvsize n_blocks : nat) (o : op) (s : st) : res st :=
  match o with
  | New f => Ok (St (per_block s) (store (per_freq s) f (repeat (repeat zero xvsize) n_blocks)))        (* 418 *)
  | Fill f b =>                                                                                         (* 420 *)
      do e <- lookup (per_block s) b; do v <- lookup e f; do m <- lookup (per_freq s) f;
      if b <? n_blocks then do c <- assign xvsize v; Ok (St (per_block s) (store (per_freq s) f (upd_nth b c m))) else Err IndexError
  | Drop b f =>                                                                                         (* 422 *)
      do e <- lookup (per_block s) b; do e' <- delete e f; Ok (St (store (per_block s) b e') (per_freq s))
  end.

(* every state on the way, then the end *)
Fixpoint run (xvsize n_blocks : nat) (ops : list op) (s : st) : list st * res st :=
  match ops with
  | [] => ([s], Ok s)
  | o :: ops => match step xvsize n_blocks o s with
                | Err e => ([s], Err e)
                | Ok s' => let (tr, r) := run xvsize n_blocks ops s' in (s :: tr, r)
                end
  end.

(* 417-422 *)
Definition program (n_freq : nat) (keys : list nat) : list op :=
  flat_map (fun f => New f :: map (Fill f) keys ++ map (fun b => Drop b f) keys) (seq 0 n_freq).

(* 410-423; list(d)[-1] raises IndexError on an empty dictionary *)
Definition flip (n_freq n_blocks : nat) (Q : dict (dict (list V))) : list st * res (dict (list (list V))) :=
  match rev Q with
  | [] => ([St Q []], Err IndexError)
  | (_, last_frq) :: _ =>
      match rev last_frq with
      | [] => ([St Q []], Err IndexError)
      | (_, last_val) :: _ =>
          let (tr, r) := run (length last_val) n_blocks (program n_freq (map fst Q)) (St Q []) in
          (tr, match r with Ok s => Ok (per_freq s) | Err e => Err e end)
      end
  end.

(* the number of values a state holds *)
Definition values (s : st) : nat :=
  sum (map (fun be => sum (map (fun fv => length (snd fv)) (snd be))) (per_block s)) +
  sum (map (fun fm => sum (map (@length V) (snd fm))) (per_freq s)).
End Flip.
