(* All processes write the same file at the same time (spod/utils.py 216, 433, pod/utils.py 124: every process opens params_coeffs.yaml with 'w' and
   dumps the same dictionary). The file is one sequence of characters shared by all processes; opening truncates it; a process writes its text from its
   own position in pieces of any size; a position beyond the end leaves a hole of zeros. *)
From Coq Require Import Arith Lia List Bool.
Import ListNotations.
Set Implicit Arguments.
Section Shared.
Variables (A : Type) (z : A).
Record file := F { len : nat; at_ : nat -> A }.
Definition content (f : file) : list A := map (at_ f) (seq 0 (len f)).
Definition truncated : file := F 0 (fun _ => z).
(* write the piece w at position p *)
Definition write_at (p : nat) (w : list A) (f : file) : file :=
  F (Nat.max (len f) (p + length w))
    (fun i => if (p <=? i) && (i <? p + length w) then nth (i - p) w z else if i <? len f then at_ f i else z).
(* where each process is: None before it opens the file, then the number of characters written *)
Record st := St { shared : file; pos : nat -> option nat }.
Definition set (f : nat -> option nat) (r : nat) (v : nat) : nat -> option nat := fun q => if q =? r then Some v else f q.
Inductive step (size : nat) (text : list A) (s : st) : st -> Prop :=
| s_open : forall r, r < size -> pos s r = None -> step size text s (St truncated (set (pos s) r 0))
| s_write : forall r p k, r < size -> pos s r = Some p -> 1 <= k -> p + k <= length text ->
    step size text s (St (write_at p (firstn k (skipn p text)) (shared s)) (set (pos s) r (p + k))).
Inductive steps (size : nat) (text : list A) : st -> st -> Prop :=
| ss_0 : forall s, steps size text s s
| ss_S : forall s s' s'', steps size text s s' -> step size text s' s'' -> steps size text s s''.
Definition begin (f : file) : st := St f (fun _ => None).
Definition all_closed (size : nat) (text : list A) (s : st) : Prop := forall r, r < size -> pos s r = Some (length text).
End Shared.
