(* Specification of the selections, independent of the model. *)
From Coq Require Import List Arith QArith Qabs String Sorted.
Import ListNotations.
Local Open Scope nat_scope.
(* i is the first of the positions of freq closest to req, and v the frequency there *)
Definition nearest (freq : list Q) (req v : Q) (i : nat) : Prop :=
  nth_error freq i = Some v /\
  (forall j w, nth_error freq j = Some w -> (Qabs (v - req) <= Qabs (w - req))%Q) /\
  (forall j w, j < i -> nth_error freq j = Some w -> (Qabs (v - req) < Qabs (w - req))%Q).
(* the documented keywords *)
Definition stride_of (keyword : string) : option nat :=
  if string_dec keyword "all" then Some 1 else
  if string_dec keyword "half" then Some 2 else
  if string_dec keyword "quarter" then Some 4 else
  if string_dec keyword "tenth" then Some 10 else
  if string_dec keyword "hundredth" then Some 100 else None.
(* window sample k at step i of the convolution falls on a snapshot of the record *)
Definition overlaps (nt n_dft i k : nat) : Prop := (n_dft + 1) / 2 <= i + k < (n_dft + 1) / 2 + nt.
