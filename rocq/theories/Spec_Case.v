(* Two words that differ only in the case of letters (ASCII). *)
From Coq Require Import String Ascii List.
Import ListNotations.
Set Implicit Arguments.
Local Open Scope string_scope.
Definition capitals : string := "ABCDEFGHIJKLMNOPQRSTUVWXYZ".
Definition smalls : string := "abcdefghijklmnopqrstuvwxyz".
(* the same character, or the capital and the small form of one letter *)
Definition same_letter (a b : ascii) : Prop :=
  a = b \/ exists i, (get i capitals = Some a /\ get i smalls = Some b) \/ (get i smalls = Some a /\ get i capitals = Some b).
Fixpoint same_word (s t : string) : Prop :=
  match s, t with
  | EmptyString, EmptyString => True
  | String a s', String b t' => same_letter a b /\ same_word s' t'
  | _, _ => False
  end.
