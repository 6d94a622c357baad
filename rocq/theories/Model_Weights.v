(* Model of apply_normalization, /repo/pyspod/utils/weights.py:99-150, over exact rationals.
   A value is None when numpy would hold NaN or an infinity. *)
From Coq Require Import QArith.
From Verif Require Import Base_List Model_Parallel Model_Stat.
Local Open Scope nat_scope.
Set Implicit Arguments.

(* numpy division by a scalar that may be NaN or zero *)
Definition qdiv (w v : option Q) : option Q :=
  match w, v with
  | Some a, Some b => if Qeq_bool b 0 then None else Some (a / b)%Q
  | _, _ => None
  end.

(* data[...,i] of an array whose last axis has length L, flattened in C order *)
Definition last_axis {A} (d : A) (L i : nat) (l : list A) : list A :=
  map (fun k => nth (k * L + i) l d) (seq 0 (length l / L)).

(* weights[...,i] = f(weights[...,i]) on an array whose last axis has length L *)
Definition upd_last_axis {A} (L i : nat) (f : A -> A) (w : list A) : list A :=
  map (fun p => if fst p mod L =? i then f (snd p) else snd p) (combine (seq 0 (length w)) w).

(* np.nanvar of data without NaN: population variance; an empty array gives NaN *)
Definition nanvar (l : list Q) : option Q := s_v (local_stat l).

(* weights.py:124-126 and 141-143: the loop over the variables; store is the cast to the type of
   the caller's array (identity for floats, truncation for integers); var i is the variance used *)
Fixpoint normalize_loop (store : option Q -> option Q) (L : nat) (var : nat -> option Q) (is : list nat)
    (w : list (option Q)) : res (list (option Q)) :=
  match is with
  | [] => Ok w
  | i :: is' =>
      if i <? L then normalize_loop store L var is' (upd_last_axis L i (fun x => store (qdiv x (var i))) w)
      else Err IndexError
  end.

(* length of the last axis (0 for a 0-d array: weights[...,i] raises) *)
Definition last_dim (sh : list nat) : nat := last sh 0.

(* weights.py:116-149; method_is_variance stands for method.lower() == 'variance'.
   The result is the array object passed in, modified in place: the same list is what the caller
   sees afterwards. *)
(* serial, 133-143: data has last axis nv *)
Definition apply_normalization_serial (store : option Q -> option Q) (method_is_variance : bool) (nv : nat)
    (data : list Q) (w : nd (option Q)) : res (nd (option Q)) :=
  if method_is_variance then
    do l <- normalize_loop store (last_dim (shape w)) (fun i => nanvar (last_axis 0%Q nv i data)) (seq 0 nv) (flat w);
    Ok (Nd (shape w) l)
  else Ok w.

(* parallel, 117-126: every rank calls pvar on its own data[...,i]; ranks are leaves of a
   reduction tree *)
Fixpoint tree_map {A B} (f : A -> B) (t : rtree A) : rtree B :=
  match t with Leaf a => Leaf (f a) | Node l r => Node (tree_map f l) (tree_map f r) end.
Definition pvar_v (t : rtree (list Q)) : option Q := fst (fst (pvar t)).
Definition apply_normalization_parallel (store : option Q -> option Q) (method_is_variance : bool) (nv : nat)
    (data : rtree (list Q)) (w : nd (option Q)) : res (nd (option Q)) :=
  if method_is_variance then
    do l <- normalize_loop store (last_dim (shape w)) (fun i => pvar_v (tree_map (last_axis 0%Q nv i) data)) (seq 0 nv) (flat w);
    Ok (Nd (shape w) l)
  else Ok w.

(* storing into an integer array truncates towards zero; Qfloor/Qceiling by sign *)
From Coq Require Import Qround.
Definition store_float (x : option Q) : option Q := x.
Definition store_int (x : option Q) : option Q :=
  match x with
  | Some q => Some (inject_Z (if Qle_bool 0 q then Qfloor q else Qceiling q))
  | None => None
  end.

(* base.py:441, 456-457, 474-478 in a serial run: the caller's array is the array normalised.
   One fit maps the caller's weights to the caller's weights after the fit. *)
Inductive fit_data := InMemory (flat_data : list Q) | ChunkStore (st : list (nat * list Q)).
(* base.py:474-478: with file-based data self.data is a dict, and data[...,0] (weights.py:121/138)
   is a lookup of the key (Ellipsis, 0) *)
Definition normalize_step (normalize : bool) (store : option Q -> option Q) (nv : nat) (data : fit_data)
    (w : nd (option Q)) : res (nd (option Q)) :=
  if normalize then
    match data with
    | InMemory d => apply_normalization_serial store true nv d w
    | ChunkStore _ => Err KeyError
    end
  else Ok w.
Definition fit_weights (store : option Q -> option Q) (nv : nat) (data : list Q) (w : nd (option Q)) : res (nd (option Q)) :=
  apply_normalization_serial store true nv data w.
Fixpoint fits_weights (n : nat) (store : option Q -> option Q) (nv : nat) (data : list Q) (w : nd (option Q)) : res (nd (option Q)) :=
  match n with
  | 0 => Ok w
  | S k => do w' <- fits_weights k store nv data w; fit_weights store nv data w'
  end.
