(* Weyl's inequality: how far eigenvalues can move. *)
From mathcomp Require Import all_ssreflect all_algebra.
From Verif Require Import Base_CRing Model_Spod Spec_Spod Proof_Spod Proof_Spectral Proof_Optimal.
Set Implicit Arguments.
Unset Strict Implicit.
Unset Printing Implicit Defensive.
Import GRing.Theory Num.Theory Order.TTheory.
Local Open Scope ring_scope.

Section Weyl.
Variable C : numClosedFieldType.
Add Ring Cring_weyl : (cr_th C). Ltac cring := cr_norm C; ring.

Definition quad n (M : 'M[C]_n) (x : 'cV[C]_n) : C := form M (fun i => x i 0) (fun i => x i 0).
Definition nrm n (x : 'cV[C]_n) : C := \sum_i `|x i 0| ^+ 2.
Lemma quadE n (M : 'M[C]_n) x : quad M x = (adj x *m M *m x) 0 0.
Proof.
rewrite /quad /form mxE exchange_big /=; apply: eq_bigr => j _; rewrite mxE mulr_suml.
by apply: eq_bigr => i _; rewrite !mxE.
Qed.
Lemma nrmE n (x : 'cV[C]_n) : nrm x = (adj x *m x) 0 0.
Proof. by rewrite mxE /nrm; apply: eq_bigr => i _; rewrite mxE normCK mulrC. Qed.
Lemma nrm_ge0 n (x : 'cV[C]_n) : 0 <= nrm x.
Proof. by apply: sumr_ge0 => i _; rewrite exprn_ge0. Qed.
Lemma quad_opp n (M : 'M[C]_n) x : quad (- M) x = - quad M x.
Proof. by rewrite !quadE mulmxN mulNmx mxE. Qed.
Lemma quad_sub n (M N : 'M[C]_n) x : quad (M - N) x = quad M x - quad N x.
Proof. by rewrite !quadE mulmxBr mulmxBl mxE [X in _ + X]mxE. Qed.

(* a combination of eigenvectors of eigenvalues at least lam *)
Lemma span_ge n (M : 'M[C]_n) L V lam (c : 'cV[C]_n) : hermitian M -> M *m V = V *m diag_mx L -> (forall i, L 0 i \is Num.real) -> lam \is Num.real ->
  (forall i, c i 0 != 0 -> lam <= L 0 i) -> lam * nrm (V *m c) <= quad M (V *m c).
Proof.
move=> HM EV Lr lr Hc; pose G := adj V *m V; pose d : 'cV[C]_n := \col_i (sqrtC (L 0 i - lam) * c i 0).
have EG i j : L 0 i != L 0 j -> G i j = 0.
  move=> Hne; have Ei k : M *m col k V = L 0 k *: col k V.
    have := congr1 (col k) EV; rewrite !colE -!mulmxA => ->; apply/matrixP => a b; rewrite mulmxA mul_mx_diag [LHS]mxE [RHS]mxE mxE mulr_sumr; apply: eq_bigr => l _; rewrite !mxE; case: (l =P k) => [->|_] /=; last (by rewrite !mulr0); by rewrite mulrCA mulrA.
  have := herm_orth HM (Ei i) (Ei j) (Lr i); rewrite eq_sym => /(_ Hne) <-.
  by rewrite mxE; apply: eq_bigr => l _; rewrite !mxE.
have Hq : quad M (V *m c) - lam * nrm (V *m c) = nrm (V *m d).
  rewrite quadE !nrmE !adjM -[adj c *m adj V *m M *m _]mulmxA (mulmxA M) EV !mulmxA -!(mulmxA _ (adj V) V) -/G.
  have Q (a b : 'cV[C]_n) : (adj a *m G *m b) 0 0 = \sum_i \sum_j (a i 0)^* * G i j * b j 0.
    rewrite mxE exchange_big /=; apply: eq_bigr => j _; rewrite [in LHS]mxE mulr_suml; apply: eq_bigr => i _; by rewrite [adj a 0 i]mxE.
  rewrite -[adj c *m G *m diag_mx L *m c]mulmxA !Q mulr_sumr -sumrB; apply: eq_bigr => i _.
  rewrite mulr_sumr -sumrB; apply: eq_bigr => j _.
  have -> : (diag_mx L *m c) j 0 = L 0 j * c j 0 by rewrite mul_diag_mx mxE.
  rewrite [d i 0]mxE [d j 0]mxE.
  case: (eqVneq (L 0 i) (L 0 j)) => [E|/EG ->]; last by rewrite !mulr0 !mul0r mulr0 subr0.
  case: (eqVneq (c j 0) 0) => [->|Hj]; first by rewrite !mulr0 subr0.
  rewrite E rmorphM; have Hs : 0 <= L 0 j - lam by rewrite subr_ge0 Hc.
  have -> : (sqrtC (L 0 j - lam))^* = sqrtC (L 0 j - lam) by apply/CrealP/ger0_real; rewrite sqrtC_ge0.
  have Es := sqrtCK (L 0 j - lam); set s := sqrtC _ in Es *.
  have -> : L 0 j = s ^+ 2 + lam by rewrite Es subrK.
  clear Es; move: (G i j) (c j 0) ((c i 0)^* ) s => g a b t; rewrite expr2; cring.
by rewrite -subr_ge0 Hq nrm_ge0.
Qed.
Lemma span_le n (M : 'M[C]_n) L V lam (c : 'cV[C]_n) : hermitian M -> M *m V = V *m diag_mx L -> (forall i, L 0 i \is Num.real) -> lam \is Num.real ->
  (forall i, c i 0 != 0 -> L 0 i <= lam) -> quad M (V *m c) <= lam * nrm (V *m c).
Proof.
move=> HM EV Lr lr Hc; have := @span_ge n (- M) (- L) V (- lam) c.
rewrite quad_opp mulNr ler_opp2; apply.
- by move=> i j; rewrite !mxE HM rmorphN.
- by rewrite mulNmx EV -mulmxN; congr (_ *m _); apply/matrixP => i j; rewrite !mxE mulNrn.
- by move=> i; rewrite mxE rpredN.
- by rewrite rpredN.
- by move=> i /Hc; rewrite mxE ler_opp2.
Qed.

(* k equations in k + 1 unknowns *)
Lemma kernel_vector k (K : 'M[C]_(k, k.+1)) : exists2 y : 'cV[C]_k.+1, y != 0 & K *m y = 0.
Proof.
have Hk : kermx K^T != 0 by rewrite -mxrank_eq0 mxrank_ker mxrank_tr -lt0n subn_gt0 ltnS rank_leq_row.
case/rowV0Pn: Hk => v /sub_kermxP Hv v0; exists v^T; first by rewrite trmx_eq0.
by rewrite -[K]trmxK -trmx_mul Hv trmx0.
Qed.
(* a vector in the span of the first k + 1 columns of one basis and of the columns from k on of another *)
Lemma common_vector n (V V' : 'M[C]_n) (k : 'I_n) : V \in unitmx -> V' \in unitmx -> exists c c' : 'cV[C]_n,
  [/\ V *m c = V' *m c', V *m c != 0, forall i : 'I_n, c i 0 != 0 -> (i <= k)%N & forall i : 'I_n, c' i 0 != 0 -> (k <= i)%N].
Proof.
move=> HV HV'; pose T := invmx V' *m V.
have Hk : (k.+1 <= n)%N by []. have Hk' : (k <= n)%N by exact: ltnW.
have [y y0 Ky] := kernel_vector (\matrix_(a < k, b < k.+1) T (widen_ord Hk' a) (widen_ord Hk b)).
pose c : 'cV[C]_n := \col_i (if (i <= k)%N then y (inord i) 0 else 0).
exists c, (T *m c); split.
- by rewrite /T !mulmxA mulmxV // mul1mx.
- apply: contra y0 => /eqP E; have c0 : c = 0 by rewrite -[c](mulKmx HV) E mulmx0.
  apply/eqP/matrixP => a b; rewrite [b]ord1 mxE.
  have := congr1 (fun A : 'cV[C]_n => A (widen_ord Hk a) 0) c0; rewrite !mxE /= -ltnS ltn_ord => <-.
  by congr (y _ 0); apply: val_inj; rewrite /= inordK.
- by move=> i; rewrite mxE; case: leqP => // _; rewrite eqxx.
- move=> i; apply: contraR; rewrite -ltnNge => Hi.
  have E := congr1 (fun A : 'cV[C]_k => A (Ordinal Hi) 0) Ky; rewrite [LHS]mxE [RHS]mxE in E; apply/eqP; rewrite mxE; apply: etrans E.
  rewrite (bigID (fun j : 'I_n => (j < k.+1)%N)) /= [X in _ + X]big1 ?addr0 => [|j]; last by rewrite ltnS -ltnNge => Hj; rewrite [c _ _]mxE leqNgt Hj mulr0.
  rewrite (reindex_onto (widen_ord Hk) (fun j => inord j)) /= => [|j Hj]; last by apply: val_inj; rewrite /= inordK.
  apply: eq_big => [b|b _]; first by rewrite ltn_ord; apply/eqP/val_inj; rewrite /= inordK.
  rewrite [c _ _]mxE /= -ltnS ltn_ord [X in _ = X * _]mxE; congr (T _ _ * y _ 0); apply: val_inj; rewrite //= inordK //.
Qed.
Lemma nrm_gt0 n (x : 'cV[C]_n) : x != 0 -> 0 < nrm x.
Proof. exact: normsq_gt0. Qed.
(* a vector on which the first form is at least the k-th eigenvalue of the first matrix and the second at most that of the second *)
Lemma minmax_vector n (M M' : 'M[C]_n) (L L' : 'rV[C]_n) (V V' : 'M[C]_n) (k : 'I_n) : hermitian M -> hermitian M' ->
  M *m V = V *m diag_mx L -> M' *m V' = V' *m diag_mx L' -> V \in unitmx -> V' \in unitmx ->
  (forall i, L 0 i \is Num.real) -> (forall i, L' 0 i \is Num.real) -> desc L -> desc L' ->
  exists x : 'cV[C]_n, [/\ x != 0, L 0 k * nrm x <= quad M x & quad M' x <= L' 0 k * nrm x].
Proof.
move=> HM HM' EV EV' HV HV' Lr Lr' HL HL'; have [c [c' [E x0 Hc Hc']]] := common_vector k HV HV'.
exists (V *m c); split=> //; first by apply: (span_ge HM EV Lr (Lr k)) => i /Hc; exact: HL.
by rewrite E; apply: (span_le HM' EV' Lr' (Lr' k)) => i /Hc'; exact: HL'.
Qed.
Lemma weyl_up n (M M' : 'M[C]_n) (L L' : 'rV[C]_n) (V V' : 'M[C]_n) (k : 'I_n) e : hermitian M -> hermitian M' ->
  M *m V = V *m diag_mx L -> M' *m V' = V' *m diag_mx L' -> V \in unitmx -> V' \in unitmx ->
  (forall i, L 0 i \is Num.real) -> (forall i, L' 0 i \is Num.real) -> desc L -> desc L' ->
  (forall x, quad M x - quad M' x <= e * nrm x) -> L 0 k <= L' 0 k + e.
Proof.
move=> HM HM' EV EV' HV HV' Lr Lr' HL HL' He.
have [x [x0 H1 H2]] := minmax_vector k HM HM' EV EV' HV HV' Lr Lr' HL HL'.
rewrite -(ler_pmul2r (nrm_gt0 x0)) mulrDl; apply: le_trans H1 _.
by have := ler_add H2 (He x); rewrite addrC subrK.
Qed.
(* a form whose entries are at most d *)
Lemma quad_small n (E : 'M[C]_n) d x : (forall i j, `|E i j| <= d) -> `|quad E x| <= n%:R * d * nrm x.
Proof.
move=> HE; rewrite /quad /form.
apply: (@le_trans _ _ (\sum_i \sum_j d * (2%:R^-1 * (`|x i 0| ^+ 2 + `|x j 0| ^+ 2)))).
  apply: le_trans (ler_norm_sum _ _ _) _; apply: ler_sum => i _.
  apply: le_trans (ler_norm_sum _ _ _) _; apply: ler_sum => j _.
  rewrite !normrM norm_conjC mulrAC [_ * `|E i j|]mulrC; apply: ler_pmul; rewrite ?mulr_ge0 //.
  have Hs : 0 <= (`|x i 0| - `|x j 0|) ^+ 2.
    by rewrite -real_normK ?exprn_ge0 // rpredB ?normr_real.
  have H2 : (0 : C) < 2%:R by rewrite ltr0n.
  rewrite -(ler_pmul2l H2) mulVKf ?gt_eqF // -subr_ge0; apply: le_trans Hs _; rewrite le_eqVlt; apply/orP; left; apply/eqP.
  by move: (`|x i 0|) (`|x j 0|) => a b; rewrite !expr2 !mulrS !mulr0n; cring.
rewrite le_eqVlt; apply/orP; left; apply/eqP.
under eq_bigr do rewrite -mulr_sumr -mulr_sumr big_split /= sumr_const card_ord.
rewrite -mulr_sumr -mulr_sumr big_split /= sumr_const card_ord -sumrMnl -/(nrm x) -mulr_natl.
under eq_bigr do rewrite -mulr_natl.
rewrite -mulr_sumr -/(nrm x).
have H2 : (2%:R : C) != 0 by rewrite pnatr_eq0.
have -> : n%:R * nrm x + n%:R * nrm x = 2%:R * (n%:R * nrm x) by rewrite mulrS mulr1n mulrDl mul1r.
by rewrite mulr1 mulKf // mulrCA mulrA.
Qed.

(* the triangle inequality for weighted sums of squares *)
Lemma cauchy_w (I : finType) (w a b : I -> C) : (forall i, 0 <= w i) -> (forall i, 0 <= a i) -> (forall i, 0 <= b i) ->
  \sum_i w i * (a i * b i) <= sqrtC (\sum_i w i * a i ^+ 2) * sqrtC (\sum_i w i * b i ^+ 2).
Proof.
move=> Hw Ha Hb; set A := \sum_i w i * a i ^+ 2; set B := \sum_i w i * b i ^+ 2.
have HA i : 0 <= w i * a i ^+ 2 by rewrite mulr_ge0 ?exprn_ge0.
have HB i : 0 <= w i * b i ^+ 2 by rewrite mulr_ge0 ?exprn_ge0.
have A0 : 0 <= A by apply: sumr_ge0. have B0 : 0 <= B by apply: sumr_ge0.
case: (eqVneq A 0) => [EA|NA].
  rewrite EA sqrtC0 mul0r big1 // => i _; move/eqP: EA; rewrite psumr_eq0 // => /allP /(_ i (mem_index_enum i)).
  by rewrite mulf_eq0 expf_eq0 /= => /orP[] /eqP ->; rewrite ?mul0r ?mulr0.
case: (eqVneq B 0) => [EB|NB].
  rewrite EB sqrtC0 mulr0 big1 // => i _; move/eqP: EB; rewrite psumr_eq0 // => /allP /(_ i (mem_index_enum i)).
  by rewrite mulf_eq0 expf_eq0 /= => /orP[] /eqP ->; rewrite ?mul0r ?mulr0.
have EA := sqrtCK A; have EB := sqrtCK B; set s := sqrtC A in EA *; set t := sqrtC B in EB *.
have s0 : 0 < s by rewrite sqrtC_gt0 lt_neqAle eq_sym NA.
have t0 : 0 < t by rewrite sqrtC_gt0 lt_neqAle eq_sym NB.
have st0 : 0 < s * t *+ 2 by rewrite pmulrn_lgt0 // mulr_gt0.
rewrite -(ler_pmul2l st0) -subr_ge0.
have -> : s * t *+ 2 * (s * t) - s * t *+ 2 * (\sum_i w i * (a i * b i)) = \sum_i w i * (t * a i - s * b i) ^+ 2.
  transitivity (t ^+ 2 * A + s ^+ 2 * B - s * t *+ 2 * (\sum_i w i * (a i * b i))).
    by rewrite -EA -EB; move: (\sum_i _) => z; rewrite !expr2 !mulrS !mulr0n; cring.
  rewrite /A /B !mulr_sumr -big_split -sumrB /=; apply: eq_bigr => i _.
  by move: (w i) (a i) (b i) => x y z; rewrite !expr2 !mulrS !mulr0n; cring.
apply: sumr_ge0 => i _; apply: mulr_ge0 => //; rewrite -real_normK ?exprn_ge0 //.
by rewrite rpredB // rpredM // ger0_real // ltW.
Qed.
Lemma minkowski_w (I : finType) (w : I -> C) (a b : I -> C) : (forall i, 0 <= w i) ->
  \sum_i w i * `|a i + b i| ^+ 2 <= (sqrtC (\sum_i w i * `|a i| ^+ 2) + sqrtC (\sum_i w i * `|b i| ^+ 2)) ^+ 2.
Proof.
move=> Hw; rewrite sqrrD !sqrtCK.
apply: (@le_trans _ _ (\sum_i (w i * `|a i| ^+ 2 + w i * (`|a i| * `|b i|) *+ 2 + w i * `|b i| ^+ 2))).
  apply: ler_sum => i _; rewrite -mulrnAr -!mulrDr -sqrrD; apply: ler_wpmul2l => //.
  by rewrite ler_sqr ?nnegrE ?addr_ge0 // ler_norm_add.
rewrite !big_split /= !ler_add2r ler_add2l mulr2n; apply: ler_add; exact: cauchy_w.
Qed.
(* ... in the form the cross-spectral matrix needs *)
Lemma quad_gramE m nb (Q : 'M[C]_(m, nb)) (w : 'cV[C]_m) x : quad (gram Q w) x = nb%:R^-1 * \sum_i w i 0 * `|(Q *m x) i 0| ^+ 2.
Proof. by rewrite /quad /form quad_gram; congr (_ * _); apply: eq_bigr => i _; rewrite mulrC mxE. Qed.
Lemma quad_gram_ge0 m nb (Q : 'M[C]_(m, nb)) (w : 'cV[C]_m) x : (forall i, 0 <= w i 0) -> 0 <= quad (gram Q w) x.
Proof. by move=> Hw; rewrite quad_gramE mulr_ge0 ?invr_ge0 ?ler0n // sumr_ge0 // => i _; rewrite mulr_ge0 ?exprn_ge0. Qed.
Lemma quad_gram_add m nb (Q R : 'M[C]_(m, nb)) (w : 'cV[C]_m) x : (forall i, 0 <= w i 0) ->
  quad (gram (Q + R) w) x <= (sqrtC (quad (gram Q w) x) + sqrtC (quad (gram R w) x)) ^+ 2.
Proof.
move=> Hw; rewrite !quad_gramE mulmxDl.
have H0 : 0 <= (nb%:R^-1 : C) by rewrite invr_ge0 ler0n.
have S0 (F : 'I_m -> C) : 0 <= \sum_i w i 0 * `|F i| ^+ 2 by apply: sumr_ge0 => i _; rewrite mulr_ge0 ?exprn_ge0.
rewrite !rootCMr // -mulrDr exprMn sqrtCK; apply: ler_wpmul2l => //.
under eq_bigr do rewrite mxE.
exact: minkowski_w.
Qed.
(* every form is at most the leading eigenvalue *)
Lemma quad_top n (M : 'M[C]_n) (L : 'rV[C]_n) (V : 'M[C]_n) (k0 : 'I_n) x : k0 = 0%N :> nat -> hermitian M ->
  M *m V = V *m diag_mx L -> V \in unitmx -> (forall i, L 0 i \is Num.real) -> desc L -> quad M x <= L 0 k0 * nrm x.
Proof.
move=> H0 HM EV HV Lr HL; rewrite -[x](mulKVmx HV); apply: (span_le HM EV Lr (Lr k0)) => i _; apply: HL; by rewrite H0.
Qed.
(* the square roots of the eigenvalues of the sum *)
Lemma root_stable m nb (Q R : 'M[C]_(m, nb)) (w : 'cV[C]_m) (L L' D : 'rV[C]_nb) (V V' W : 'M[C]_nb) (k0 k : 'I_nb) : k0 = 0%N :> nat ->
  (forall i, 0 <= w i 0) ->
  gram (Q + R) w *m V = V *m diag_mx L -> gram Q w *m V' = V' *m diag_mx L' -> gram R w *m W = W *m diag_mx D ->
  V \in unitmx -> V' \in unitmx -> W \in unitmx ->
  (forall i, 0 <= L 0 i) -> (forall i, 0 <= L' 0 i) -> (forall i, 0 <= D 0 i) -> desc L -> desc L' -> desc D ->
  sqrtC (L 0 k) <= sqrtC (L' 0 k) + sqrtC (D 0 k0).
Proof.
move=> H0 Hw EV EV' EW HV HV' HW L0 L0' D0 HL HL' HD.
have HM := gram_herm (Q + R) Hw; have HM' := gram_herm Q Hw; have HR := gram_herm R Hw.
have [x [x0 H1 H2]] := minmax_vector k HM HM' EV EV' HV HV' (fun i => ger0_real (L0 i)) (fun i => ger0_real (L0' i)) HL HL'.
have H3 := quad_top x H0 HR EW HW (fun i => ger0_real (D0 i)) HD.
have Hn := nrm_gt0 x0; have Hs : 0 < sqrtC (nrm x) by rewrite sqrtC_gt0.
rewrite -(ler_pmul2r Hs) mulrDl -!rootCMr ?nrm_ge0 //.
have q0 := quad_gram_ge0 (Q + R) x Hw; have q1 := quad_gram_ge0 Q x Hw; have q2 := quad_gram_ge0 R x Hw.
apply: (@le_trans _ _ (sqrtC (quad (gram (Q + R) w) x))); first by rewrite ler_sqrtC ?nnegrE ?mulr_ge0 ?nrm_ge0.
apply: (@le_trans _ _ (sqrtC (quad (gram Q w) x) + sqrtC (quad (gram R w) x))).
  have H := quad_gram_add Q R x Hw; have s0 : 0 <= sqrtC (quad (gram Q w) x) + sqrtC (quad (gram R w) x) by rewrite addr_ge0 ?sqrtC_ge0.
  by rewrite -(sqrCK s0) ler_sqrtC ?nnegrE ?exprn_ge0.
by apply: ler_add; rewrite ler_sqrtC ?nnegrE ?mulr_ge0 ?nrm_ge0.
Qed.
End Weyl.
