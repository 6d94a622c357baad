From Verif Require Import Model_Streaming Proof_Streaming Spec_StreamTime.
From mathcomp Require Import all_ssreflect all_algebra.
From Verif Require Import Model_Spod Spec_Spod Spec_Stream Model_StreamNum Proof_Spod Proof_Spectral Proof_StreamAlg Proof_StreamNum.
Set Implicit Arguments.
Unset Strict Implicit.
Unset Printing Implicit Defensive.
Import GRing.Theory Num.Theory Order.TTheory.
Local Open Scope ring_scope.
Section S.
Variable C : numClosedFieldType.
Variable c : config C.
Notation k := (n_modes_save c).
Variable n : nat.
Variable w : 'cV[C]_n.
Variable svd : 'M[C]_(k + 1) -> 'M[C]_(k + 1) * 'rV[C]_(k + 1).
Variable X : nat -> 'cV[C]_n.
Notation start := (start (n_dft c) (n_overlap c)).
Notation gb := (gbasis w svd X).
(* span of the basis *)
Lemma in_span_abs (U : 'M[C]_(n, k)) S (a : 'cV[C]_k) : binv U S -> gabs (U *m a) U = 0.
Proof.
move=> HB; have E : gup (U *m a) U = 0.
  rewrite /gup /gUx [adj U *m _]mulmxA (proj2 HB) mulmxA.
  rewrite [U *m diag_mx _](_ : _ = U) ?subrr //; apply/matrixP => i j; rewrite mul_diagE mxE.
  by have [E|E] := eqVneq (S 0 j) 0; rewrite ?mulr1 // (binv_zero i HB E) mul0r.
by rewrite /gabs E mulmx0 mxE sqrtC0.
Qed.
Lemma gbasis_none f N M : (N <= M)%N -> gb f N = None -> gb f M = None.
Proof.
move=> H E; elim: M H => [|M IH]; first by rewrite leqn0 => /eqP E0; rewrite E0 in E.
by rewrite leq_eqVlt => /orP [/eqP <- //|/IH /= ->].
Qed.
Lemma gbasis_span f N us (a : 'cV[C]_k) : svd_ok svd -> gb f N = Some us -> xw c w X (start N) f = us.1 *m a -> gb f N.+1 = None.
Proof.
move=> Hsvd E Ex; have [HB _] := gbasis_inv Hsvd E; rewrite /= E Ex /gupdate (in_span_abs a HB) eqxx //.
Qed.
(* a full basis *)
Lemma full_span (U : 'M[C]_(n, k)) S : (n <= k)%N -> binv U S -> cnt S n -> forall x : 'cV[C]_n, exists a, x = U *m a.
Proof.
move=> Hn HB Hc x; pose v := widen_ord Hn; pose V := \matrix_(i < n, j < n) U i (v j).
have HV : adj V *m V = 1%:M.
  apply/matrixP => i j; have := congr1 (fun A : 'M_k => A (v i) (v j)) (proj2 HB).
  have Hvi : S 0 (v i) != 0 by rewrite Hc /=; exact: ltn_ord.
  rewrite [RHS]mxE [(\row__ _) 0 _]mxE Hvi => E.
  rewrite [RHS]mxE (_ : (i == j) = (v i == v j)); last by rewrite -!val_eqE.
  by rewrite -[RHS]E !mxE; apply: eq_bigr => l _; rewrite !mxE.
pose b := adj V *m x; exists (\col_(j < k) (if insub (val j) is Some q then b q 0 else 0)).
have Ex : V *m b = x by rewrite /b mulmxA (mulmx1C HV) mul1mx.
rewrite -{1}Ex; clearbody b; apply/matrixP => i z; rewrite ord1 !mxE.
rewrite (bigID (fun j : 'I_k => (j < n)%N)) /= [X in _ = _ + X]big1 => [|j Hj]; last first.
  by rewrite mxE insubF ?mulr0 //; apply/negbTE.
rewrite addr0 (big_ord_narrow Hn); apply: eq_bigr => j _; rewrite !mxE.
rewrite (_ : insub _ = Some j) //; rewrite /= insubT //= => Hj; congr Some; exact: val_inj.
Qed.
Lemma gbasis_full f N : svd_ok svd -> (n <= k)%N -> (n < N)%N -> gb f N = None.
Proof.
move=> Hsvd Hn HN; apply: (gbasis_none HN).
case E: (gb f n) => [us|]; last by rewrite /= E.
have [HB Hc] := gbasis_inv Hsvd E; have [a Ha] := full_span Hn HB Hc (xw c w X (start n) f).
exact: gbasis_span E Ha.
Qed.
(* a stream of equal snapshots *)
Lemma const_xw s f : (0 < n_dft c)%N -> (forall t, X t = X 0%N) -> xw c w X s f = 0.
Proof.
move=> Hd HX; have E : bhat c X s f = 0.
  rewrite /bhat big1 ?scaler0 // => i _; rewrite HX /avg (eq_bigr (fun _ => X 0%N)) => [|t _]; last exact: HX.
  rewrite sumr_const card_ord -[X in _ - _ *: X]scaler_nat scalerA mulVf ?scale1r ?subrr ?scaler0 //.
  by rewrite pnatr_eq0 addn_eq0 negb_and -!lt0n Hd orbT.
by rewrite /xw E; apply/matrixP => i j; rewrite !mxE mul0r.
Qed.
Lemma const_none f N : svd_ok svd -> (0 < n_dft c)%N -> (forall t, X t = X 0%N) -> (0 < N)%N -> gb f N = None.
Proof.
move=> Hsvd Hd HX HN; apply: (gbasis_none HN).
by apply: (@gbasis_span f 0 (0, 0) 0) => //=; rewrite const_xw // mulmx0.
Qed.
(* modes *)
Lemma modes_wip f N us (i j : 'I_k) : svd_ok svd -> (forall x, 0 < w x 0) -> gb f N = Some us ->
  wip w (\matrix_(x, l) (us.1 x l / sqrtC (w x 0))) (\matrix_(x, l) (us.1 x l / sqrtC (w x 0))) i j
  = ((i == j) && (i < N)%N)%:R.
Proof.
move=> Hsvd Hw E; have [HB Hc] := gbasis_inv Hsvd E.
have := congr1 (fun A : 'M_k => A i j) (proj2 HB); rewrite mxE [in RHS]mxE [(\row__ _) 0 _]mxE Hc.
rewrite /wip (_ : ((i < N)%N)%:R *+ (i == j) = ((i == j) && (i < N)%N)%:R); last first.
  by case: (eqVneq i j) => [->|_]; rewrite ?mulr1n ?mulr0n //=.
move=> <-; apply: eq_bigr => x _; rewrite !mxE rmorphM /=.
have Hs : 0 < sqrtC (w x 0) by rewrite sqrtC_gt0.
rewrite (@real_conj C (sqrtC (w x 0))^-1) ?invr_ge0 ?ltW // -{3}[w x 0]sqrtCK expr2.
move: (lt0r_neq0 Hs); move: (sqrtC _) => q Hq.
by rewrite mulrACA !mulfVK.
Qed.
(* eigenproblem *)
Lemma cov_eig (U : 'M[C]_(n, k)) S : binv U S -> cov U S *m U = U *m diag_mx (\row_l (S 0 l ^+ 2)).
Proof.
move=> HB; rewrite /cov -mulmxA (proj2 HB) -mulmxA; congr (_ *m _).
apply/matrixP => i j; rewrite mul_diagE !mxE.
by have [->|Ej] := eqVneq i j; rewrite ?mulr0n ?mul0r // mulr1n; have [->|_] := eqVneq (S 0 j) 0; rewrite ?mulr1 // expr0n mul0r.
Qed.
Lemma modes_eig f N us x l : svd_ok svd -> (forall x, 0 < w x 0) -> (N <= k)%N -> gb f N = Some us ->
  \sum_y (\sum_(j < N) wt C N j * bhat c X (start j) f x 0 * (bhat c X (start j) f y 0)^*) * w y 0 * (us.1 y l / sqrtC (w y 0))
  = us.2 0 l ^+ 2 * (us.1 x l / sqrtC (w x 0)).
Proof.
move=> Hsvd Hw HN E; have [HB Hc] := gbasis_inv Hsvd E; have Ec := gbasis_exact Hsvd HN E.
have Hs y : sqrtC (w y 0) != 0 by rewrite sqrtC_eq0 lt0r_neq0.
have := congr1 (fun A : 'M_(n, k) => A x l) (cov_eig HB); rewrite mul_diagE [(\row__ _) 0 _]mxE => Ex.
rewrite mulrA [us.2 0 l ^+ 2 * _]mulrC -[X in _ = X / _]Ex Ec mxE mulr_suml; apply: eq_bigr => y _.
rewrite [ideal _ _ _ _ _ x y]summxE -[RHS]mulrA [us.1 y l / _]mulrC.
rewrite -!mulrA [us.1 y l / sqrtC (w x 0)]mulrC !mulr_suml; apply: eq_bigr => j _.
rewrite [(_ *: _ : 'M_(_)) x y]mxE [(_ *m _) x y]mxE big_ord1 [xw _ _ _ _ _ x 0]mxE [adj _ _ _]mxE [xw _ _ _ _ _ y 0]mxE rmorphM /=.
rewrite (@real_conj C (sqrtC (w y 0))); last by rewrite sqrtC_ge0 ltW.
rewrite -{1}[w y 0]sqrtCK expr2; move: (Hs x) (Hs y); move: (sqrtC (w x 0)) (sqrtC (w y 0)) => p q Hp Hq.
move: (bhat _ _ _ _ x 0) ((bhat _ _ _ _ y 0)^*) (wt _ _ _) (us.1 y l) => a b d u.
rewrite -!mulrA; do 2 congr (_ * _).
by rewrite mulVKf // [RHS]mulrCA; congr (_ * _); rewrite mulrCA mulVKf.
Qed.
End S.
Section T.
Variable C : numClosedFieldType.
Variable c : config C.
Notation k := (n_modes_save c).
Variable n : nat.
Variable w : 'cV[C]_n.
Variable svd : 'M[C]_(k + 1) -> 'M[C]_(k + 1) * 'rV[C]_(k + 1).
Variable X : nat -> 'cV[C]_n.
Notation start := (start (n_dft c) (n_overlap c)).
Notation gb := (gbasis w svd X).
Lemma trace_cov (U : 'M[C]_(n, k)) S : binv U S -> \tr (cov U S) = \sum_l S 0 l ^+ 2.
Proof.
move=> HB; rewrite /cov mxtrace_mulC mulmxA (proj2 HB); apply: eq_bigr => l _; rewrite mul_diagE !mxE eqxx mulr1n.
by have [->|_] := eqVneq (S 0 l) 0; rewrite ?mul1r // expr0n mulr0.
Qed.
Lemma eigs_sum f N us : svd_ok svd -> (forall x, 0 <= w x 0) -> (N <= k)%N -> gb f N = Some us ->
  \sum_l us.2 0 l ^+ 2 = \sum_(j < N) wt C N j * \sum_x w x 0 * `|bhat c X (start j) f x 0| ^+ 2.
Proof.
move=> Hsvd Hw HN E; have [HB Hc] := gbasis_inv Hsvd E; rewrite -(trace_cov HB) (gbasis_exact Hsvd HN E).
rewrite /ideal raddf_sum /=; apply: eq_bigr => j _; rewrite mxtraceZ; congr (_ * _).
apply: eq_bigr => x _; rewrite mxE big_ord1 [adj _ _ _]mxE [xw _ _ _ _ _ x 0]mxE -normCK normrM exprMn mulrC; congr (_ * _).
by rewrite ger0_norm ?sqrtC_ge0 // sqrtCK.
Qed.
Lemma wt_sum_lt1 N : \sum_(j < N) wt C N j < 1.
Proof.
apply: (@le_lt_trans _ _ (N%:R / N.+2%:R)); last by rewrite ltr_pdivr_mulr ?ltr0n // mul1r ltr_nat ltnS ltnW.
rewrite (_ : N%:R / N.+2%:R = \sum_(j < N) (N.+2%:R)^-1 :> C); last by rewrite sumr_const card_ord mulr_natl.
apply: ler_sum => j _; rewrite /wt invfM mulrA -[X in _ <= X]mul1r ler_pmul2r ?invr_gt0 ?ltr0n //.
by rewrite ler_pdivr_mulr ?ltr0n // mul1r ler_nat.
Qed.
End T.
