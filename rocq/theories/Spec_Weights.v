(* What variance normalisation of weights should do.  Independent of the model. *)
From Coq Require Import QArith.
From Verif Require Import Base_List.

(* the values of variable i in an array whose last axis (of length nv) is the variable:
   the entries whose flat position is congruent to i modulo nv *)
Definition variable_values {A} (nv i : nat) (l : list A) : list A :=
  map snd (filter (fun p => fst p mod nv =? i) (combine (seq 0 (length l)) l)).

(* equal up to equality of rationals; None is NaN or infinity *)
Definition oeq (a b : option Q) : Prop :=
  match a, b with Some x, Some y => (x == y)%Q | None, None => True | _, _ => False end.
