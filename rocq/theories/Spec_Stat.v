(* Mean and population variance of a list of rationals, textbook definitions. *)
From Verif Require Import Base_List.
From Coq Require Import QArith.
Local Open Scope Q_scope.

Definition total (l : list Q) : Q := fold_right (fun x acc => x + acc) 0 l.
Definition count (l : list Q) : Q := inject_Z (Z.of_nat (length l)).
Definition mean (l : list Q) : Q := total l / count l.
Definition variance (l : list Q) : Q := total (map (fun x => (x - mean l) ^ 2) l) / count l.
