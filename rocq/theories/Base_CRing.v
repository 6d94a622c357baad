(* The standard library's ring tactic for mathcomp's commutative unit rings: opaque copies of the operations
   with one carrier, to be used inside a section with Add Ring. No model content. *)
From mathcomp Require Import all_ssreflect all_algebra.
From Coq Require Export Ring.
Set Implicit Arguments.
Unset Strict Implicit.
Import GRing.Theory.
Local Open Scope ring_scope.
Section Ops.
Variable R : comRingType.
Definition cr_add (a b : R) : R := a + b.
Definition cr_mul (a b : R) : R := a * b.
Definition cr_opp (a : R) : R := - a.
Definition cr_sub (a b : R) : R := a - b.
Definition cr_0 : R := 0.
Definition cr_1 : R := 1.
Lemma cr_addE (a b : R) : a + b = cr_add a b. Proof. by []. Qed.
Lemma cr_mulE (a b : R) : a * b = cr_mul a b. Proof. by []. Qed.
Lemma cr_oppE (a : R) : - a = cr_opp a. Proof. by []. Qed.
Lemma cr_0E : (0 : R) = cr_0. Proof. by []. Qed.
Lemma cr_1E : (1 : R) = cr_1. Proof. by []. Qed.
Lemma cr_natE (n : nat) : (n.+1%:R : R) = cr_add cr_1 n%:R. Proof. by rewrite mulrS. Qed.
Lemma cr_mulrnE (a : R) (n : nat) : a *+ n = cr_mul n%:R a. Proof. by rewrite /cr_mul mulr_natl. Qed.
Lemma cr_th : @ring_theory R cr_0 cr_1 cr_add cr_mul cr_sub cr_opp eq.
Proof.
constructor; rewrite /cr_0 /cr_1 /cr_add /cr_mul /cr_sub /cr_opp => *;
  rewrite ?add0r ?mul1r ?mulrDl ?subrr ?addrA ?mulrA //; by [exact: addrC | exact: mulrC].
Qed.
Lemma cr_wrap (x y : R) : cr_add cr_0 x = y -> x = y. Proof. by rewrite /cr_add /cr_0 add0r. Qed.
End Ops.
(* goal normalisation; then ring *)
Ltac cr_gen a :=
  lazymatch a with
  | cr_mul _ _ => fail | cr_add _ _ => fail | cr_opp _ => fail | @cr_0 _ => fail | @cr_1 _ => fail
  | _ => tryif is_var a then fail else (let x := fresh "x" in set x := (a); clearbody x)
  end.
Ltac cr_atoms :=
  repeat match goal with
  | |- context [cr_mul ?a ?b] => first [cr_gen a | cr_gen b]
  | |- context [cr_add ?a ?b] => first [cr_gen a | cr_gen b]
  | |- context [cr_opp ?a] => cr_gen a
  end.
Ltac cr_norm R :=
  rewrite ?expr0 ?expr1 ?expr2 ?exprS ?mulr0n;
  rewrite ?(@cr_addE R) ?(@cr_mulE R) ?(@cr_oppE R) ?(@cr_0E R) ?(@cr_1E R);
  cr_atoms; apply (@cr_wrap R).
