(* /repo/pyspod/utils/postproc.py:1529-1541 (compute_energy_spectrum) for a one-dimensional array of n entries. Exact arithmetic;
   w stands for exp(-2 i pi / n). *)
From mathcomp Require Import all_ssreflect all_algebra.
From Verif Require Import Model_Spod.
Set Implicit Arguments.
Unset Strict Implicit.
Unset Printing Implicit Defensive.
Import GRing.Theory Num.Theory.
Local Open Scope ring_scope.
Section Spectrum.
Variable C : numClosedFieldType.
(* 1531: np.real(np.fft.fft(u)) *)
Definition array_hat (w : C) (n : nat) (u : nat -> C) (f : nat) : C := 'Re (dft w n u f).
(* 1533-1536 *)
Definition espec (w : C) (n : nat) (u : nat -> C) (f : nat) : C := 2^-1 * `|array_hat w n u f / n%:R| ^+ 2.
(* 1538-1541 *)
Definition compute_energy_spectrum (w : C) (n : nat) (u : nat -> C) : seq C :=
  [seq (if i == 0%N then 0 else 2^-1 * (espec w n u i + espec w n u (n - i))) | i <- iota 0 (n %/ 2)].
End Spectrum.
