(* Total energy of the reported spectrum. *)
From mathcomp Require Import all_ssreflect all_algebra.
From Verif Require Import Base_CRing Model_Spod Spec_Spod Proof_Spod Proof_Dft.
Set Implicit Arguments.
Unset Strict Implicit.
Unset Printing Implicit Defensive.
Import GRing.Theory Num.Theory Order.TTheory.
Local Open Scope ring_scope.

Section Energy.
Variable C : numClosedFieldType.
Add Ring Cring : (cr_th C).
Ltac cring := cr_norm C; ring.

Lemma trace_eig n (M : 'M[C]_n) (L : 'rV[C]_n) (V : 'M[C]_n) : eigenpairs M L V -> V \in unitmx ->
  \sum_k L 0 k = \sum_i M i i.
Proof.
move=> [He _] HV.
have E : M *m V = V *m diag_mx L.
  apply/matrixP => i k; have := congr1 (fun A : 'cV[C]_n => A i 0) (He k).
  rewrite !mxE; under eq_bigr do rewrite mxE.
  move=> ->; rewrite (bigD1 k) //= big1 => [|j Hj].
    by rewrite !mxE eqxx mulr1n addr0 mulrC.
  by rewrite !mxE (negbTE Hj) mulr0n mulr0.
have -> : \sum_i M i i = \tr M by [].
rewrite -[M]mulmx1 -(mulmxV HV) mulmxA E -mulmxA mxtrace_mulC -mulmxA mulVmx // mulmx1.
by rewrite mxtrace_diag.
Qed.

Lemma repeated_bad m nb (Q : 'M[C]_(m, nb)) (w : 'cV[C]_m) L V j k :
  (0 < nb)%N -> eigenpairs (gram Q w) L V -> V \in unitmx -> \sum_i (V i j)^* * V i k = 0 ->
  j != k -> L 0 j = L 0 k -> 0 < L 0 k ->
  exists V', [/\ eigenpairs (gram Q w) L V', V' \in unitmx, (forall i l, l != k -> V' i l = V i l)
    & wip w (all_modes Q L V') (all_modes Q L V') j k = 3%:R / 5%:R].
Proof.
move=> Hnb [He Hu] HV H0 Hjk El Hk.
pose a : C := 3%:R / 5%:R; pose b : C := 4%:R / 5%:R.
have H5 : (5%:R : C) != 0 by rewrite pnatr_eq0.
have H4 : (4%:R : C) != 0 by rewrite pnatr_eq0.
have Hab : a ^+ 2 + b ^+ 2 = 1.
  rewrite /a /b !exprMn -mulrDl exprVn -!natrX -natrD (_ : (3 ^ 2 + 4 ^ 2)%N = (5 ^ 2)%N) // divff //.
  by rewrite pnatr_eq0.
have Ha : a^* = a by rewrite /a rmorphM fmorphV !rmorph_nat.
have Hb : b^* = b by rewrite /b rmorphM fmorphV !rmorph_nat.
have Hb0 : b != 0 by rewrite /b mulf_neq0 ?invr_neq0.
have Ea : a = 3%:R / 5%:R by [].
rewrite -Ea; clearbody a b; clear Ea.
pose V' : 'M[C]_nb := \matrix_(i, l) (if l == k then a * V i j + b * V i k else V i l).
have Hcol l : l != k -> col l V' = col l V by move=> Hl; apply/matrixP => i z; rewrite !mxE (negbTE Hl).
have Hcolk : col k V' = a *: col j V + b *: col k V by apply/matrixP => i z; rewrite !mxE eqxx.
have H0' : \sum_i (V i k)^* * V i j = 0.
  have := congr1 (fun z => z^* ) H0; rewrite /= rmorph_sum rmorph0 => E0; rewrite -[RHS]E0; apply: eq_bigr => i _.
  by rewrite rmorphM conjCK mulrC.
have He' : eigenpairs (gram Q w) L V'.
  split=> l; case: (eqVneq l k) => [->|Hl].
  - by rewrite Hcolk mulmxDr -!scalemxAr !He El !scalerA ![_ * L 0 k]mulrC -!scalerA -scalerDr.
  - by rewrite Hcol.
  - rewrite -Hab.
    transitivity (a ^+ 2 * (\sum_i `|V i j| ^+ 2) + b ^+ 2 * (\sum_i `|V i k| ^+ 2)
       + a * b * (\sum_i (V i j)^* * V i k) + a * b * (\sum_i (V i k)^* * V i j)); last by rewrite !Hu H0 H0' !mulr0 !addr0 !mulr1.
    rewrite !mulr_sumr -!big_split /=; apply: eq_bigr => i _; rewrite mxE eqxx !normCK rmorphD !rmorphM Ha Hb.
    cring.
  - rewrite -(Hu l); apply: eq_bigr => i _; by rewrite mxE (negbTE Hl).
have HV' : V' \in unitmx.
  pose A : 'M[C]_nb := \matrix_(i, l) (if l == k then (if i == k then b^-1 else if i == j then - (a / b) else 0) else (i == l)%:R).
  have E : V' *m A = V.
    apply/matrixP => i l; rewrite mxE.
    case: (eqVneq l k) => [->|Hl].
      rewrite (bigD1 k) //= (bigD1 j) //= big1 => [|q /andP [Hq1 Hq2]]; last by rewrite !mxE eqxx (negbTE Hq1) (negbTE Hq2) mulr0.
      rewrite !mxE !eqxx (negbTE Hjk) addr0 mulrDl mulrN [a * _]mulrC [b * _]mulrC -[_ * b / b]mulrA divff //.
      by rewrite mulr1 -mulrA addrAC subrr add0r.
    rewrite (bigD1 l) //= big1 => [|q Hq]; last by rewrite !mxE (negbTE Hl) (negbTE Hq) mulr0.
    by rewrite !mxE (negbTE Hl) eqxx mulr1 addr0.
  by move: HV; rewrite -E unitmx_mul => /andP [].
exists V'; split=> //.
  by move=> i l Hl; rewrite mxE (negbTE Hl).
rewrite (wip_modes _ _ _ Hnb) ?El ?ltW // (form_unit _ _ He').
have -> : \sum_i (V' i j)^* * V' i k = a.
  transitivity (a * (\sum_i `|V i j| ^+ 2) + b * (\sum_i (V i j)^* * V i k)); last by rewrite Hu H0 mulr0 addr0 mulr1.
  rewrite !mulr_sumr -big_split /=; apply: eq_bigr => i _; rewrite !mxE (negbTE Hjk) eqxx mulrDr !normCK.
  cring.
by rewrite -expr2 sqrtCK mulrAC divff ?mul1r // lt0r_neq0.
Qed.

Section Run.
Variables (size : nat) (c : config C).
Variable eig : 'M[C]_(n_blocks c) -> 'rV[C]_(n_blocks c) * 'M[C]_(n_blocks c).
Variable argsort : 'rV[C]_(n_blocks c) -> 'I_(n_blocks c) -> 'I_(n_blocks c).
Variables (n : nat) (nloc : 'I_size -> nat) (own : forall r : 'I_size, 'I_(nloc r) -> 'I_n).
Hypothesis Hown : partition_of own.
Variable X : nat -> 'I_n -> C.
Variable w : 'cV[C]_n.
Hypothesis Hw : forall i, 0 <= w i 0.
Hypothesis Heig : eig_ok eig.
Hypothesis Hinv : eig_basis eig.
Hypothesis Hsort : argsort_ok argsort.

(* energy of one frequency: average over blocks of the weighted squared norm of the transform *)
Definition freq_energy (f : nat) : C :=
  (n_blocks c)%:R^-1 * \sum_(b < n_blocks c) \sum_(x < n) w x 0 * `|block_hat c (fun t => X t x) b f| ^+ 2.
Lemma eigs_energy f : \sum_k run_eigs eig argsort own X w f 0 k = one_sided c f * freq_energy f.
Proof.
have [Hinj _] := sorted_ok X Hw Heig Hsort f.
under eq_bigr do rewrite (run_eigsE argsort Hown X Hw Heig).
rewrite -mulr_sumr; congr (_ * _); rewrite /run_L (reduced_serial c Hown).
under eq_bigr do rewrite mxE.
rewrite -(reindex_inj Hinj (P := predT) (F := fun k => (eig (serial_M c X w f)).1 0 k)) /=.
have HM : hermitian (serial_M c X w f) by rewrite serial_gram; apply: gram_herm.
rewrite (trace_eig (Heig HM)) ?Hinv // serial_gram /freq_energy mulr_sumr; apply: eq_bigr => b _.
rewrite gramE; congr (_ * _); apply: eq_bigr => x _.
by rewrite !mxE normCK mulrC; congr (_ * _); rewrite mulrC.
Qed.
Lemma total_eigs : \sum_(f < n_freq c) \sum_k run_eigs eig argsort own X w f 0 k
  = \sum_(f < n_freq c) one_sided c f * freq_energy f.
Proof. by apply: eq_bigr => f _; rewrite eigs_energy. Qed.

(* windowed signal energy *)
Definition signal_energy : C :=
  (win_weight c / (n_dft c)%:R) ^+ 2 * (n_dft c)%:R * (n_blocks c)%:R^-1 *
  \sum_(b < n_blocks c) \sum_(x < n) w x 0 * \sum_(k < n_dft c) `|block_windowed c (fun t => X t x) b k| ^+ 2.

Hypothesis Hom : (n_dft c).-primitive_root (omega c).
Hypothesis Hwin : forall k, window c k \is Num.real.
Lemma win_weight_real : win_weight c \is Num.real.
Proof. by rewrite /win_weight rpredV rpredM ?rpredV ?realn // rpred_sum. Qed.
Lemma full_energy : \sum_(f < n_dft c) freq_energy f = signal_energy.
Proof.
rewrite /freq_energy /signal_energy -mulr_sumr [_ * _ * _^-1]mulrC -[RHS]mulrA; congr (_ * _).
rewrite exchange_big /= !mulr_sumr; apply: eq_bigr => b _.
rewrite exchange_big /= !mulr_sumr; apply: eq_bigr => x _.
rewrite -mulr_sumr [RHS]mulrCA; congr (_ * _).
have HS := parseval Hom (block_windowed c (fun t => X t x) b).
rewrite -[RHS]mulrA -HS mulr_sumr; apply: eq_bigr => f _.
rewrite /block_hat normrM exprMn; congr (_ * _).
by rewrite real_normK //; apply: rpredM; [exact: win_weight_real | rewrite rpredV realn].
Qed.
Hypothesis Hreal : forall t x, X t x \is Num.real.
Lemma windowed_real x b k : block_windowed c (fun t => X t x) b k \is Num.real.
Proof.
have Hmean : t_mean c (fun t => X t x) \is Num.real.
  by rewrite /t_mean; case: (mean_type c); rewrite ?real0 // rpredM ?rpredV ?realn ?rpred_sum.
have Hq : forall k, block_centred c (fun t => X t x) b k \is Num.real.
  move=> k'; rewrite /block_centred; case: (mean_type c); rewrite ?rpredB // rpredM ?rpredV ?realn ?rpred_sum // => *.
  by rewrite rpredB.
rewrite /block_windowed rpredM //; rewrite /block_normalized; case: (normalize_data c) => //.
rewrite rpredM // rpredV; case: ifP => _ //; first exact: real1.
rewrite /block_var rpredM ?rpredV ?rpredB ?realn ?real1 ?rpred_sum // => j _.
by rewrite rpredX // rpredB // rpredM ?rpredV ?realn ?rpred_sum.
Qed.
Lemma freq_energy_sym f : (f <= n_dft c)%N -> freq_energy (n_dft c - f) = freq_energy f.
Proof.
move=> Hf; rewrite /freq_energy; congr (_ * _); apply: eq_bigr => b _; apply: eq_bigr => x _.
rewrite /block_hat !normrM (dft_sym Hom _ Hf) // => k _; exact: windowed_real.
Qed.
Lemma one_sidedE f : isrealx c -> one_sided c f = os C (n_freq c) f.
Proof. by rewrite /one_sided /os => ->. Qed.
End Run.
End Energy.
