(* How far modes can move. *)
From mathcomp Require Import all_ssreflect all_algebra.
From Verif Require Import Base_CRing Model_Spod Spec_Spod Spec_Align Proof_Spod Proof_Spectral Proof_Optimal Proof_Weyl Prop_Stable Proof_Kahan.
Set Implicit Arguments.
Unset Strict Implicit.
Unset Printing Implicit Defensive.
Import GRing.Theory Num.Theory Order.TTheory.
Local Open Scope ring_scope.

Section Align.
Variable C : numClosedFieldType.
Add Ring Cring_align : (cr_th C). Ltac cring := cr_norm C; ring.

Lemma all_modesE m nb (Q : 'M[C]_(m, nb)) (L : 'rV[C]_nb) (V : 'M[C]_nb) i k :
  all_modes Q L V i k = (Q *m V) i k * (sqrtC nb%:R * sqrtC (L 0 k))^-1.
Proof. by rewrite /all_modes !mxE mulr_suml; apply: eq_bigr => b _; rewrite !mxE mulrA. Qed.
Lemma sum_gram m nb (Q : 'M[C]_(m, nb)) (w : 'cV[C]_m) x : (0 < nb)%N -> \sum_i w i 0 * `|(Q *m x) i 0| ^+ 2 = nb%:R * quad (gram Q w) x.
Proof. by move=> Hnb; rewrite quad_gramE mulVKf // pnatr_eq0 -lt0n. Qed.

Lemma mode_near m nb (Q R : 'M[C]_(m, nb)) (w : 'cV[C]_m) (Mt : 'M[C]_nb) (L L' : 'rV[C]_nb) (V V' : 'M[C]_nb) k l nu e g :
  (forall i, 0 <= w i 0) -> gram Q w *m V = V *m diag_mx L -> V \in unitmx -> (forall i, 0 <= L 0 i) ->
  hermitian Mt -> Mt *m col k V' = L' 0 k *: col k V' -> nrm (col k V') = 1 -> 0 < L' 0 k -> 0 <= l -> 0 <= nu -> 0 <= e -> e < g ->
  (forall x, quad (gram Q w) x <= l * nrm x) -> (forall x, quad (gram R w) x <= nu * nrm x) ->
  (forall x, `|quad (Mt - gram Q w) x| <= e * nrm x) -> `|L' 0 k - L 0 k| <= e ->
  exists z : 'I_nb -> C, (forall j, z j != 0 -> `|L 0 j - L 0 k| < g /\ 0 < L 0 j) /\
    wlen w (fun i => all_modes (Q + R) L' V' i k - \sum_j z j * all_modes Q L V i j) <= (sqrtC l * (e / (g - e)) + sqrtC nu) / sqrtC (L' 0 k).
Proof.
move=> Hw EV HV L0 HMt Ek Nk Lk l0 nu0 e0 eg HQ HR HM Hweyl.
have nb0 : (0 < nb)%N by apply: leq_ltn_trans (ltn_ord k).
have nbp : (0 : C) < nb%:R by rewrite ltr0n.
have HG := gram_herm Q Hw; have Lr i : L 0 i \is Num.real by rewrite ger0_real.
pose S : pred 'I_nb := fun j => `|L 0 j - L 0 k| < g.
pose x := invmx V *m col k V'; have Ex : V *m x = col k V' by rewrite mulKVmx.
have h0 : 0 < g - e by rewrite subr_gt0.
have gr : g \is Num.real by rewrite -[g](subrK e) rpredD // ger0_real // ltW.
have HS i j : S i -> ~~ S j -> L 0 i != L 0 j by rewrite /S => Hi; apply: contra => /eqP <-.
have Hfar j : ~~ S j -> g - e <= `|L 0 j - L' 0 k|.
  rewrite /S -real_leNgt // ?normr_real // => Hj; rewrite ler_subl_addr; apply: le_trans Hj _.
  have -> : L 0 j - L 0 k = (L 0 j - L' 0 k) + (L' 0 k - L 0 k) by cring.
  by apply: le_trans (ler_norm_add _ _) _; rewrite ler_add2l.
have HE : hermitian (gram Q w - Mt) by apply/hermP; rewrite adjB (proj1 (hermP _) HG) (proj1 (hermP _) HMt).
have Hop : nrm ((gram Q w - Mt) *m (V *m x)) <= e ^+ 2 * nrm (V *m x).
  by apply: herm_norm => // y; rewrite -opprB quad_opp normrN.
have Hz : (g - e) ^+ 2 * nrm (V *m part (predC S) x) <= e ^+ 2 * nrm (V *m x).
  apply: (kahan (S := S) HG EV Lr HS _ (gtr0_real Lk) (ltW h0) Hfar Hop); by rewrite Ex.
rewrite Ex Nk mulr1 in Hz.
pose d := (sqrtC nb%:R * sqrtC (L' 0 k))^-1.
pose z j := if S j && (0 < L 0 j) then x j 0 * (sqrtC (L 0 j) / sqrtC (L' 0 k)) else 0.
exists z; split.
  by move=> j; rewrite /z; case: ifP => [/andP[]//|_]; rewrite eqxx.
pose u := Q *m (V *m part (predC S) x); pose r := R *m col k V'.
have snb : sqrtC (nb%:R : C) != 0 by rewrite sqrtC_eq0 gt_eqF.
have d0 : 0 <= d by rewrite invr_ge0 mulr_ge0 ?sqrtC_ge0 // ltW.
have Epoint i : w i 0 * `|all_modes (Q + R) L' V' i k - \sum_j z j * all_modes Q L V i j| ^+ 2 = d ^+ 2 * (w i 0 * `|u i 0 + r i 0| ^+ 2).
  case: (eqVneq (w i 0) 0) => [->|wi]; first by rewrite !mul0r mulr0.
  have Hzero j : L 0 j = 0 -> (Q *m V) i j = 0.
    move=> Lj; have : quad (gram Q w) (col j V) = 0.
      rewrite quadE -mulmxA; have -> : gram Q w *m col j V = 0; last by rewrite mulmx0 mxE.
      rewrite colE mulmxA EV mul_mx_diag -colE; apply/matrixP => a b; by rewrite !mxE Lj mulr0.
    move/(congr1 (fun t => nb%:R * t)); rewrite -sum_gram // mulr0 => /eqP; rewrite psumr_eq0 => [/allP /(_ i (mem_index_enum i))|a _]; last by rewrite mulr_ge0 ?exprn_ge0.
    rewrite mulf_eq0 (negbTE wi) /= expf_eq0 /= normr_eq0 colE mulmxA -colE mxE => /eqP //.
  have Esum : \sum_j z j * all_modes Q L V i j = d * (Q *m (V *m part S x)) i 0.
    rewrite mulmxA [in RHS]mxE mulr_sumr; apply: eq_bigr => j _; rewrite all_modesE /z [part S x j 0]mxE.
    case: (S j) => /=; last by rewrite mul0r !mulr0.
    case: (boolP (0 < L 0 j)) => Hj; last first.
      by rewrite Hzero ?mul0r ?mulr0 //; have := L0 j; rewrite le_eqVlt (negbTE Hj) orbF => /eqP.
    have sj : sqrtC (L 0 j) != 0 by rewrite sqrtC_eq0 gt_eqF.
    rewrite /d !invfM; have E1 : sqrtC (L 0 j) * (sqrtC (L 0 j))^-1 = 1 by rewrite mulfV.
    move: (sqrtC (L 0 j)) ((sqrtC (L 0 j))^-1) E1 => p q E1.
    transitivity (x j 0 * (Q *m V) i j * (p * q) * ((sqrtC (L' 0 k))^-1 * (sqrtC nb%:R)^-1)); last by rewrite E1; move: ((Q *m V) i j) ((sqrtC (L' 0 k))^-1) ((sqrtC nb%:R)^-1) => a1 a2 a3; cring.
    by move: ((Q *m V) i j) ((sqrtC (L' 0 k))^-1) ((sqrtC nb%:R)^-1) => a1 a2 a3; cring.
  have Emode : all_modes (Q + R) L' V' i k = d * ((Q *m (V *m part S x)) i 0 + u i 0 + r i 0).
    rewrite all_modesE -/d [RHS]mulrC; congr (_ * _).
    have -> : ((Q + R) *m V') i k = ((Q + R) *m col k V') i 0 by rewrite !mxE; apply: eq_bigr => b _; rewrite !mxE.
    rewrite mulmxDl mxE -Ex -[x in LHS](part_sum S) !mulmxDr [X in X + _ = _]mxE; congr (_ + _ + _).
    by rewrite /r -Ex -[x in RHS](part_sum S) !mulmxDr.
  rewrite Emode Esum -mulrBr.
  have -> : (Q *m (V *m part S x)) i 0 + u i 0 + r i 0 - (Q *m (V *m part S x)) i 0 = u i 0 + r i 0.
    by move: ((Q *m (V *m part S x)) i 0) (u i 0) (r i 0) => a1 a2 a3; cring.
  by rewrite normrM exprMn (ger0_norm d0) mulrCA.
rewrite /wlen (eq_bigr _ (fun i _ => Epoint i)) -mulr_sumr.
have Hu : \sum_i w i 0 * `|u i 0| ^+ 2 <= nb%:R * (l * (e / (g - e)) ^+ 2).
  rewrite sum_gram // ler_pmul2l //; apply: le_trans (HQ _) _; apply: ler_wpmul2l => //.
  by rewrite exprMn exprVn ler_pdivl_mulr ?exprn_gt0 // mulrC.
have Hr : \sum_i w i 0 * `|r i 0| ^+ 2 <= nb%:R * nu.
  by rewrite sum_gram // ler_pmul2l //; apply: le_trans (HR _) _; rewrite Nk mulr1.
have Hm := minkowski_w (fun i => u i 0) (fun i => r i 0) Hw.
have t0 : 0 <= e / (g - e) by apply: divr_ge0 => //; exact: ltW.
have S0 (F : 'I_m -> C) : 0 <= \sum_i w i 0 * `|F i| ^+ 2 by apply: sumr_ge0 => i _; rewrite mulr_ge0 ?exprn_ge0.
rewrite rootCMl ?exprn_ge0 // sqrCK //.
have -> : (sqrtC l * (e / (g - e)) + sqrtC nu) / sqrtC (L' 0 k) = d * (sqrtC (nb%:R * (l * (e / (g - e)) ^+ 2)) + sqrtC (nb%:R * nu)).
  rewrite !(rootCMl _ _ (ltW nbp)) (rootCMl _ _ l0) sqrCK // -mulrDr /d invfM.
  move: (sqrtC l * _ + _) ((sqrtC (L' 0 k))^-1) => a b; by rewrite mulrACA mulVf // mul1r mulrC.
apply: ler_wpmul2l => //.
apply: (@le_trans _ _ (sqrtC (\sum_i w i 0 * `|u i 0| ^+ 2) + sqrtC (\sum_i w i 0 * `|r i 0| ^+ 2))).
  have s0 : 0 <= sqrtC (\sum_i w i 0 * `|u i 0| ^+ 2) + sqrtC (\sum_i w i 0 * `|r i 0| ^+ 2) by rewrite addr_ge0 ?sqrtC_ge0.
  by rewrite -[X in _ <= X](sqrCK s0) ler_sqrtC ?nnegrE ?exprn_ge0.
by apply: ler_add; rewrite ler_sqrtC ?nnegrE ?mulr_ge0 ?exprn_ge0 ?S0 ?ler0n ?invr_ge0 ?(ltW h0).
Qed.
(* the best multiple of a unit vector *)
Lemma best_multiple n m p (w : 'cV[C]_n) (A : 'M[C]_(n, m)) (B : 'M[C]_(n, p)) j k z : (forall i, 0 <= w i 0) -> wip w A A j j = 1 -> wip w B B k k = 1 ->
  1 - `|wip w A B j k| ^+ 2 <= wlen w (fun i => B i k - z * A i j) ^+ 2.
Proof.
move=> Hw HA HB; rewrite /wlen sqrtCK; set a := wip w A B j k.
have -> : \sum_i w i 0 * `|B i k - z * A i j| ^+ 2 = 1 - `|a| ^+ 2 + `|z - a| ^+ 2; last by rewrite ler_addl exprn_ge0.
have Ea : a^* = \sum_i A i j * (B i k)^* * w i 0.
  rewrite /a /wip rmorph_sum; apply: eq_bigr => i _; rewrite !rmorphM conjCK; congr (_ * _); exact/CrealP/ger0_real.
rewrite !normCK !rmorphB.
transitivity (wip w B B k k - z * a^* - z^* * a + z * z^* * wip w A A j j).
  rewrite Ea /a /wip !mulr_sumr -!sumrB -big_split /=; apply: eq_bigr => i _.
  rewrite normCK rmorphB rmorphM; move: (A i j) ((A i j)^* ) (B i k) ((B i k)^* ) (z^* ) (w i 0) => a1 a2 a3 a4 a5 a6; cring.
by rewrite HA HB; move: (a^* ) (z^* ) => a1 a2; cring.
Qed.
End Align.
