(* C76: the energy spectrum of a signal. *)
From mathcomp Require Import all_ssreflect all_algebra.
From Verif Require Import Base_CRing Model_Spod Spec_Spod Proof_Spod Proof_Dft Model_Spectrum.
Set Implicit Arguments.
Unset Strict Implicit.
Unset Printing Implicit Defensive.
Import GRing.Theory Num.Theory Order.TTheory.
Local Open Scope ring_scope.

(* ---------- specification ---------- *)
Section Spec.
Variable C : numClosedFieldType.
(* energy of Fourier component f of a signal with n samples *)
Definition energy (w : C) (n : nat) (u : nat -> C) (f : nat) : C := 2^-1 * `|(\sum_(k < n) u k * w ^+ (f * k)) / n%:R| ^+ 2.
Definition real_signal (n : nat) (u : nat -> C) : Prop := forall k, (k < n)%N -> u k \is Num.real.
Definition even_signal (n : nat) (u : nat -> C) : Prop := forall k, (0 < k < n)%N -> u (n - k)%N = u k.
Definition odd_signal (n : nat) (u : nat -> C) : Prop := u 0%N = 0 /\ forall k, (0 < k < n)%N -> u (n - k)%N = - u k.
(* same even part *)
Definition same_even_part (n : nat) (u v : nat -> C) : Prop :=
  u 0%N = v 0%N /\ forall k, (0 < k < n)%N -> u k + u (n - k)%N = v k + v (n - k)%N.
End Spec.

(* ---------- proofs ---------- *)
Section P.
Variable C : numClosedFieldType.
Add Ring Cring : (cr_th C).
Ltac cring := cr_norm C; ring.
Variables (w : C) (n : nat).
Hypothesis Hw : n.-primitive_root w.
Let n0 : (0 < n)%N := n_gt0 Hw.
Definition mirror (u : nat -> C) (k : nat) : C := u (if k == 0%N then 0%N else n - k)%N.

Lemma wpow_mirror f k : (k <= n)%N -> w ^+ (f * (n - k)) = (w ^+ (f * k))^*.
Proof.
move=> hk; rewrite rmorphX (w_conj Hw).
apply: (mulIf (expf_neq0 (f * k) (w_neq0 Hw))); rewrite exprVn mulVf ?expf_neq0 ?(w_neq0 Hw) //.
by rewrite -exprD -mulnDr subnK // mulnC exprM (prim_expr_order Hw) expr1n.
Qed.
Lemma dft_mirror u f : dft w n (mirror u) f = \sum_(k < n) u k * (w ^+ (f * k))^*.
Proof.
rewrite /dft -(big_mkord xpredT (fun k => mirror u k * w ^+ (f * k))) -(big_mkord xpredT (fun k => u k * (w ^+ (f * k))^*)).
rewrite big_ltn // [RHS]big_ltn //; congr (_ + _); first by rewrite muln0 expr0 rmorph1.
rewrite big_nat_rev /=; apply: eq_big_nat => k /andP [k1 kn].
rewrite add1n subSS /mirror subn_eq0 leqNgt kn /= subKn ?(ltnW kn) // wpow_mirror //; exact: ltnW.
Qed.
Lemma dft_conj u f : real_signal n u -> (dft w n u f)^* = dft w n (mirror u) f.
Proof.
move=> hu; rewrite dft_mirror /dft rmorph_sum; apply: eq_bigr => k _.
by rewrite rmorphM (CrealP (hu k (ltn_ord k))).
Qed.
Lemma mirror_real u : real_signal n u -> real_signal n (mirror u).
Proof. by move=> h k hk; rewrite /mirror; case: eqP => [_|/eqP k0]; apply: h => //; rewrite ltn_subrL lt0n k0. Qed.
Lemma array_hatE u f : real_signal n u -> array_hat w n u f = dft w n (fun k => (u k + mirror u k) / 2) f.
Proof.
move=> hu; rewrite /array_hat ReE dft_conj // /dft -big_split mulr_suml /=; apply: eq_bigr => k _; cring.
Qed.
Lemma dft_ext u v f : (forall k, (k < n)%N -> u k = v k) -> dft w n u f = dft w n v f.
Proof. by move=> h; apply: eq_bigr => k _; rewrite h. Qed.
Lemma espec_mirror u i : real_signal n u -> (i <= n)%N -> espec w n u (n - i) = espec w n u i.
Proof.
move=> hu hi; rewrite /espec /array_hat; congr (_ * `|_ / _| ^+ 2).
have -> : dft w n u (n - i) = (dft w n u i)^*; last by rewrite Re_conj.
rewrite /dft rmorph_sum; apply: eq_bigr => k _.
by rewrite rmorphM (CrealP (hu k (ltn_ord k))) mulnC wpow_mirror // mulnC.
Qed.
Lemma spectrum_entry u i : real_signal n u -> (0 < i < n %/ 2)%N -> nth 0 (compute_energy_spectrum w n u) i = espec w n u i.
Proof.
move=> hu /andP [i0 hi]; rewrite /compute_energy_spectrum (nth_map 0%N) ?size_iota // nth_iota // add0n.
rewrite (gtn_eqF i0) espec_mirror //; last by apply: leq_trans (leq_div n 2); apply: ltnW.
by rewrite -mulr2n -mulr_natl mulrA mulVf ?mul1r // pnatr_eq0.
Qed.
Lemma energyE u f : energy w n u f = 2^-1 * `|dft w n u f / n%:R| ^+ 2. Proof. by []. Qed.
End P.

(* The spectrum of a real signal is the energy of each component without that of its sine part: it is at most the energy, and
   what is missing is the square of the imaginary part. *)
Theorem C76_law : forall (C : numClosedFieldType) (w : C) n u i,
  n.-primitive_root w -> real_signal n u -> (0 < i < n %/ 2)%N ->
  nth 0 (compute_energy_spectrum w n u) i + 2^-1 * ('Im (\sum_(k < n) u k * w ^+ (i * k)) / n%:R) ^+ 2 = energy w n u i /\
  0 <= nth 0 (compute_energy_spectrum w n u) i <= energy w n u i.
Proof.
move=> C w n u i Hw hu hi; rewrite spectrum_entry //.
set d := \sum_(k < n) _.
have nn : n%:R != 0 :> C by rewrite pnatr_eq0 -lt0n; case/andP: hi => _; apply: contraTltn => /=; case: (n).
have E : energy w n u i = espec w n u i + 2^-1 * ('Im d / n%:R) ^+ 2.
  rewrite /energy /espec /array_hat -/(dft w n u i) -/d -mulrDr; congr (_ * _).
  have rn : n%:R \is @Num.real C by apply: realn.
  rewrite !normf_div normr_nat !expr_div_n -mulrDl; congr (_ / _).
  by rewrite normC2_Re_Im real_normK // Creal_Re.
split; first by rewrite -E.
have p : 0 <= ('Im d / n%:R) ^+ 2.
  by apply: real_exprn_even_ge0 => //; rewrite rpredM // ?rpredV ?Creal_Im // realn.
have h2 : 0 <= 2^-1 :> C by rewrite invr_ge0 ler0n.
by rewrite mulr_ge0 ?exprn_ge0 //= E ler_addl mulr_ge0.
Qed.
Print Assumptions C76_law.

(* The spectrum of an even real signal is right. *)
Theorem C76_even_signals : forall (C : numClosedFieldType) (w : C) n u i,
  n.-primitive_root w -> real_signal n u -> even_signal n u -> (0 < i < n %/ 2)%N ->
  nth 0 (compute_energy_spectrum w n u) i = energy w n u i.
Proof.
move=> C w n u i Hw hu he hi; rewrite spectrum_entry // energyE /espec array_hatE //.
congr (_ * `|_ / _| ^+ 2); apply: dft_ext => k hk.
have -> : mirror n u k = u k by rewrite /mirror; case: eqP => [-> //|/eqP k0]; apply: he; rewrite lt0n k0.
by rewrite -mulr2n -mulr_natl mulrAC mulfV ?mul1r // pnatr_eq0.
Qed.
Print Assumptions C76_even_signals.

(* It depends on the even part of the signal only. *)
Theorem C76_even_part_only : forall (C : numClosedFieldType) (w : C) n u v,
  n.-primitive_root w -> real_signal n u -> real_signal n v -> same_even_part n u v ->
  compute_energy_spectrum w n u = compute_energy_spectrum w n v.
Proof.
move=> C w n u v Hw hu hv [e0 e].
have E f : espec w n u f = espec w n v f.
  rewrite /espec !array_hatE //; congr (_ * `|_ / _| ^+ 2); apply: dft_ext => k hk; congr (_ / _).
  by rewrite /mirror; case: eqP => [->|/eqP k0]; [rewrite e0|apply: e; rewrite lt0n k0].
by apply/eq_map => i; rewrite !E.
Qed.
Print Assumptions C76_even_part_only.

(* expectation: a signal with energy in a component has it in its spectrum. Every odd real signal has a zero spectrum. *)
Theorem C76_odd_signals_refuted : forall (C : numClosedFieldType) (w : C) n u i,
  n.-primitive_root w -> real_signal n u -> odd_signal n u -> nth 0 (compute_energy_spectrum w n u) i = 0.
Proof.
move=> C w n u i Hw hu [u0 ho].
have E f : espec w n u f = 0.
  rewrite /espec array_hatE // /dft big1 => [|k _]; first by rewrite mul0r normr0 expr0n mulr0.
  rewrite /mirror; case: eqP => [->|/eqP k0]; first by rewrite u0 addr0 !mul0r.
  by rewrite ho ?lt0n ?k0 ?ltn_ord // subrr !mul0r.
have [hi|hi] := ltnP i (n %/ 2); last by rewrite nth_default // size_map size_iota.
rewrite (nth_map 0%N) ?size_iota // !E addr0 mulr0; by case: ifP.
Qed.
Print Assumptions C76_odd_signals_refuted.
(* and such signals have energy in the first component *)
Theorem C76_energy_lost : forall (C : numClosedFieldType) (w : C) n, n.-primitive_root w -> (3 < n)%N ->
  exists u, real_signal n u /\ odd_signal n u /\ 0 < energy w n u 1 /\ nth 0 (compute_energy_spectrum w n u) 1 = 0.
Proof.
move=> C w n Hw hn; have n1 : (1 < n)%N by apply: leq_trans hn.
have nn1 : (n - 1 != 1)%N by move: (hn); clear; case: n => [|[|[|m]]].
exists (fun k => (k == 1%N)%:R - (k == (n - 1)%N)%:R).
have hr : real_signal n (fun k => (k == 1%N)%:R - (k == (n - 1)%N)%:R : C) by move=> k _; rewrite rpredB // realn.
have ho : odd_signal n (fun k => (k == 1%N)%:R - (k == (n - 1)%N)%:R : C).
  split.
    by have -> : (0 == n - 1)%N = false; [move: (n1); clear; case: n => [|[|m]]|rewrite subrr].
  move=> k /andP [k0 kn]; rewrite opprB; congr ((nat_of_bool _)%:R - (nat_of_bool _)%:R).
    by apply/idP/idP => /eqP h; apply/eqP; [rewrite -h subKn // ltnW|rewrite h subKn // ltnW].
  by apply/idP/idP => /eqP h; apply/eqP; [rewrite -(subKn (ltnW kn)) h subKn // ltnW|rewrite h].
split=> //; split=> //; split; last exact: C76_odd_signals_refuted.
rewrite /energy; apply: mulr_gt0; first by rewrite invr_gt0 ltr0n.
apply: exprn_gt0; rewrite normr_gt0 mulf_neq0 //; last by rewrite invr_eq0 pnatr_eq0 -lt0n (ltnW n1).
have o1 := Ordinal n1; have hl : (n - 1 < n)%N by rewrite ltn_subrL /= (ltnW n1).
rewrite (bigD1 (Ordinal n1)) //= (bigD1 (Ordinal hl)) //= big1 ?addr0; last first.
  move=> k /andP [h1 h2].
  have z1 : (nat_of_ord k == 1%N) = false by apply/negbTE; apply: contraNneq h1 => e; apply/eqP/val_inj.
  have z2 : (nat_of_ord k == (n - 1)%N) = false by apply/negbTE; apply: contraNneq h2 => e; apply/eqP/val_inj.
  by rewrite z1 z2 subrr mul0r.
rewrite eqxx (negbTE nn1) [1%N == _]eq_sym (negbTE nn1) subr0 sub0r mul1r mulN1r subr_eq0.
rewrite muln1 mul1n (eq_prim_root_expr Hw) !modn_small //; by rewrite eq_sym.
Qed.
Print Assumptions C76_energy_lost.
(* the hypothesis on w can be met for every n *)
From mathcomp Require Import separable cyclic cyclotomic.
Lemma prim_root_exists (C : numClosedFieldType) n : (0 < n)%N -> exists w : C, n.-primitive_root w.
Proof.
move=> n_gt0; pose p : {poly C} := 'X^n - 1; have [r Dp] := closed_field_poly_normal p.
rewrite (monicP _) ?monic_Xn_sub_1 // scale1r in Dp.
have rn1 : all n.-unity_root r by apply/allP=> z; rewrite -root_prod_XsubC -Dp.
have sz_r : (n < (size r).+1)%N 
  by rewrite -(size_prod_XsubC r id) -Dp /p size_addl ?size_polyXn // size_opp size_poly1 ltnS.
have [|z] := hasP (has_prim_root n_gt0 rn1 _ sz_r); last by exists z.
by rewrite -separable_prod_XsubC -Dp separable_Xn_sub_1 // pnatr_eq0 -lt0n.
Qed.
Example C76_case (C : numClosedFieldType) : exists (w : C) u, 8.-primitive_root w /\ real_signal 8 u /\ odd_signal 8 u /\
  0 < energy w 8 u 1 /\ nth 0 (compute_energy_spectrum w 8 u) 1 = 0.
Proof.
have [w Hw] := prim_root_exists C (isT : (0 < 8)%N).
by have [u [h1 [h2 [h3 h4]]]] := C76_energy_lost Hw isT; exists w, u.
Qed.
