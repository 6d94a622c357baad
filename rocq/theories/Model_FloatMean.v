(* The running mean of a streaming fit in double precision, one component: spod/streaming.py 68, 108-110.
   Simplification: no overflow; the complex operations by real integers act on each component. *)
From Coq Require Import Reals List.
From Verif Require Import Model_Float.
Import ListNotations.
Local Open Scope R_scope.

(* 110: mu = (ti * mu_old + x_new) / (ti + 1) *)
Definition f_mean_step (ti : nat) (mu x : R) : R := fdiv (fadd (fmul (INR ti) mu) x) (INR (S ti)).
(* 68, 97-110: from zero, for the snapshots ti, ti + 1, ... *)
Fixpoint f_means (ti : nat) (mu : R) (xs : list R) : R := match xs with [] => mu | x :: r => f_means (S ti) (f_mean_step ti mu x) r end.
Definition f_running_mean (xs : list R) : R := f_means 0 0 xs.
