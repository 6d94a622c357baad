(* What a reconstruction should contain.  Independent of the model. *)
From Verif Require Import Base_List Model_Parallel Spec_Array.
Set Implicit Arguments.
Section Spec.
Context {A : Type}.
Variable zero : A.
Variables add mul : A -> A -> A.
(* the entry of an array at a multi-index (zero outside) *)
Definition value (a : nd A) (idx : list nat) : A := match entry a idx with Some x => x | None => zero end.
(* f 0 + (f 1 + (.. + 0)) *)
Definition sum_to (p : nat) (f : nat -> A) : A := fold_right add zero (map f (seq 0 p)).
(* oblique projection: modes phi[.., j], coefficients a[j, t] *)
Definition cell_op (phi a mean : nd A) (p : nat) (idx : list nat) (t : nat) : A :=
  add (sum_to p (fun j => mul (value phi (idx ++ [j])) (value a [j; t]))) (value mean idx).
(* convolution: modes phi[.., f, m], coefficients a[f, t, m]; the pairs (f, m) are taken in the order (0,0), (0,1), .. *)
Definition cell_conv (phi a mean : nd A) (F M : nat) (idx : list nat) (t : nat) : A :=
  add (sum_to (F * M) (fun q => mul (value phi (idx ++ [q / M; q mod M])) (value a [q / M; t; q mod M]))) (value mean idx).
End Spec.
