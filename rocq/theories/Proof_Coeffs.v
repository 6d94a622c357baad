From Verif Require Import Base_List Model_Select.
From mathcomp Require Import all_ssreflect all_algebra.
From Verif Require Import Base_CRing Model_Spod Spec_Spod Spec_Coeffs Model_Coeffs Proof_Spod Proof_Spectral Proof_StreamAlg Proof_StreamNum3.
Set Implicit Arguments.
Unset Strict Implicit.
Unset Printing Implicit Defensive.
Import GRing.Theory Num.Theory Order.TTheory.
Local Open Scope ring_scope.

Section Ranks.
Variable C : numClosedFieldType.
Variables (size n nt p : nat).
Variable nloc : 'I_size -> nat.
Variable own : forall r : 'I_size, 'I_(nloc r) -> 'I_n.
Hypothesis Hown : partition_of own.
Variable w : 'cV[C]_n.
Variable Phi : 'M[C]_(n, p).
Variable data : 'M[C]_(nt, n).
Definition W : 'M[C]_n := diag_mx w^T.
Definition D : 'M[C]_(n, nt) := \matrix_(x, t) fluctuation data t x.
Lemma W_mulE q (A : 'M[C]_(n, q)) i j : (W *m A) i j = w i 0 * A i j.
Proof. by rewrite /W diag_mulE mxE. Qed.
Lemma M_redE : M_red own w Phi = adj Phi *m W *m Phi.
Proof.
apply/matrixP => a b; rewrite summxE -mulmxA mxE -(sum_ranks Hown (fun i => adj Phi a i * (W *m Phi) i b)).
by apply: eq_bigr => r _; rewrite mxE; apply: eq_bigr => i _; rewrite W_mulE !mxE.
Qed.
Lemma dcentE r t (i : 'I_(nloc r)) : dcent own data r t i = fluctuation data t (own i).
Proof. by rewrite !mxE /fluctuation /time_mean; congr (_ - _ / _); apply: eq_bigr => s _; rewrite mxE. Qed.
Lemma Q_redE : Q_red own w Phi data = adj Phi *m W *m D.
Proof.
apply/matrixP => a t; rewrite summxE -mulmxA mxE -(sum_ranks Hown (fun i => adj Phi a i * (W *m D) i t)).
apply: eq_bigr => r _; rewrite mxE; apply: eq_bigr => i _; rewrite W_mulE [(_ : 'M_(_, _)) i t]mxE [_^T i t]mxE dcentE.
by rewrite !mxE.
Qed.
Lemma ortho_valueE j k : ortho_value own w Phi j k = wip w Phi Phi j k.
Proof.
rewrite /ortho_value /wip -(sum_ranks Hown (fun i => (Phi i j)^* * Phi i k * w i 0)).
by apply: eq_bigr => r _; rewrite mxE; apply: eq_bigr => i _; rewrite !mxE -mulrA [w _ _ * _]mulrC.
Qed.
Variable svd : 'M[C]_p -> 'M[C]_p * 'rV[C]_p * 'M[C]_p.
Variable tol : C.
Definition G := adj Phi *m W *m Phi.
Definition cf : 'M[C]_(p, nt) := m_inv svd tol G *m (adj Phi *m W *m D).
Lemma coeffsE : coeffs own w Phi data svd tol = cf.
Proof. by rewrite /coeffs M_redE Q_redE. Qed.
Lemma recE r i t : rec_op own w Phi data svd tol r i t = (Phi *m cf) (own i) t + time_mean data (own i).
Proof.
rewrite mxE coeffsE; congr (_ + _).
  by rewrite !mxE; apply: eq_bigr => j _; rewrite mxE.
by rewrite !mxE /time_mean; congr (_ / _); apply: eq_bigr => s _; rewrite mxE.
Qed.
End Ranks.

Section LS.
Variable C : numClosedFieldType.
Lemma adj_mul0 m q (Y : 'M[C]_(m, q)) : adj Y *m Y = 0 -> Y = 0.
Proof.
move=> H; apply/matrixP => i j; rewrite [RHS]mxE.
have := congr1 (fun A : 'M_q => A j j) H; rewrite [RHS]mxE mxE => /eqP.
rewrite psumr_eq0; last by move=> l _; rewrite mxE -normCKC exprn_ge0.
by move=> /allP /(_ i (mem_index_enum i)); rewrite mxE mulf_eq0 conjC_eq0 orbb => /eqP.
Qed.
Variables (n p nt : nat) (w : 'cV[C]_n) (Phi : 'M[C]_(n, p)).
Hypothesis Hw : forall x, 0 <= w x 0.
Notation W := (W w).
Notation G := (G w Phi).
Definition sq : 'M[C]_n := diag_mx (\row_x sqrtC (w x 0)).
Lemma adj_sq : adj sq = sq.
Proof.
rewrite /sq adj_diag; congr diag_mx; apply/matrixP => i j; rewrite !mxE; apply: real_conj; by rewrite sqrtC_ge0.
Qed.
Lemma sq_sq : sq *m sq = W.
Proof.
rewrite /sq /Proof_Coeffs.W mulmx_diag; congr diag_mx; apply/matrixP => i j; rewrite !mxE -expr2 sqrtCK.
by rewrite [i]ord1.
Qed.
Notation B := (sq *m Phi).
Lemma G_B : G = adj B *m B.
Proof. by rewrite /Proof_Coeffs.G adjM adj_sq -sq_sq !mulmxA. Qed.
(* any generalised inverse *)
Lemma proj_range (X : 'M[C]_p) q (E : 'M[C]_(n, q)) : G *m X *m G = G -> G *m X *m (adj Phi *m W *m E) = adj Phi *m W *m E.
Proof.
move=> H; pose P := 1%:M - G *m X.
have HP : P *m G = 0 by rewrite /P mulmxBl mul1mx H subrr.
have HB : B *m adj P = 0.
  apply: adj_mul0; rewrite adjM adjK !mulmxA -[P *m adj B *m sq *m Phi]mulmxA -[X in X *m adj P]mulmxA -G_B HP; by rewrite mul0mx.
have HPB : P *m adj B = 0 by rewrite -[P]adjK -adjM HB; apply/matrixP => i j; rewrite !mxE rmorph0.
have : P *m (adj Phi *m W *m E) = 0.
  by rewrite -sq_sq !mulmxA -[P *m adj Phi *m sq]mulmxA -{1}adj_sq -adjM HPB !mul0mx.
by rewrite /P mulmxBl mul1mx => /eqP; rewrite subr_eq0 => /eqP.
Qed.
Variable data : 'M[C]_(nt, n).
Notation D := (D data).
Section X.
Variable X : 'M[C]_p.
Hypothesis HX : G *m X *m G = G.
Notation a := (X *m (adj Phi *m W *m D)).
Lemma normal_eq : adj Phi *m W *m (D - Phi *m a) = 0.
Proof.
rewrite mulmxBr !mulmxA -[adj Phi *m W *m Phi]/G.
have := proj_range D HX; rewrite !mulmxA => ->; by rewrite subrr.
Qed.
Lemma misfitE t (b : 'I_p -> C) : misfit w Phi data t b = (adj (D - Phi *m (\matrix_(j, s) b j)) *m W *m (D - Phi *m (\matrix_(j, s) b j))) t t.
Proof.
rewrite /misfit -mulmxA mxE; apply: eq_bigr => x _; rewrite W_mulE [adj _ _ _]mxE.
have -> : (D - Phi *m (\matrix_(j, s) b j)) x t = fluctuation data t x - \sum_j Phi x j * b j.
  by rewrite mxE [D x t]mxE mxE [in X in _ - X]mxE; congr (_ - _); apply: eq_bigr => j _; rewrite mxE.
by rewrite [RHS]mulrCA -normCKC.
Qed.
Lemma sq_norm (E : 'M[C]_(n, nt)) t : 0 <= (adj E *m W *m E) t t.
Proof.
rewrite -mulmxA mxE sumr_ge0 // => x _; rewrite W_mulE mxE mulrCA -normCKC mulr_ge0 ?exprn_ge0 //.
Qed.
Lemma least_squares t (b : 'I_p -> C) : misfit w Phi data t (fun j => a j t) <= misfit w Phi data t b.
Proof.
pose A : 'M[C]_(p, nt) := \matrix_(j, s) a j t; pose Bb : 'M[C]_(p, nt) := \matrix_(j, s) b j.
rewrite !misfitE -/A -/Bb.
have -> : (D - Phi *m Bb) = (D - Phi *m A) + Phi *m (A - Bb) by rewrite mulmxBr addrA subrK.
set R := D - Phi *m A; set S := A - Bb.
(* column t of R is the residual of a *)
have HR : forall j, (adj Phi *m W *m R) j t = 0.
  move=> j; have := congr1 (fun M : 'M_(p, nt) => M j t) normal_eq; rewrite [RHS]mxE => <-.
  rewrite mxE [RHS]mxE; apply: eq_bigr => x _; congr (_ * _); rewrite !mxE; congr (_ - _).
  by apply: eq_bigr => l _; rewrite mxE.
have cross1 : (adj (Phi *m S) *m W *m R) t t = 0.
  by rewrite adjM -!mulmxA mxE big1 // => j _; rewrite mulmxA HR mulr0.
have HWh : adj W = W.
  rewrite /Proof_Coeffs.W adj_diag; congr diag_mx; apply/matrixP => i j; rewrite !mxE [i]ord1; exact: real_conj.
have cross2 : (adj R *m W *m (Phi *m S)) t t = 0.
  have -> : adj R *m W *m (Phi *m S) = adj (adj (Phi *m S) *m W *m R) by rewrite !adjM !adjK HWh !mulmxA.
  by rewrite mxE cross1 rmorph0.
clearbody R S; have -> : (adj (R + Phi *m S) *m W *m (R + Phi *m S)) t t = (adj R *m W *m R) t t + (adj (Phi *m S) *m W *m (Phi *m S)) t t.
  rewrite adjD mulmxDl mulmxDl !mulmxDr.
  have e (M N : 'M[C]_nt) : (M + N) t t = M t t + N t t by rewrite mxE.
  by rewrite !e cross1 cross2 addr0 add0r.
by rewrite ler_addl sq_norm.
Qed.
(* data in the span *)
Lemma span_rec (Hw1 : forall x, 0 < w x 0) : in_span Phi data -> Phi *m a = D.
Proof.
move=> [c Hc]; pose Cc : 'M[C]_(p, nt) := \matrix_(j, t) c t j.
have ED : D = Phi *m Cc by apply/matrixP => x t; rewrite mxE Hc !mxE; apply: eq_bigr => j _; rewrite mxE.
have H0 := normal_eq; move: (a) H0 => a0 H0; have ER : D - Phi *m a0 = Phi *m (Cc - a0) by rewrite {1}ED mulmxBr.
have HB : B *m (Cc - a0) = 0.
  apply: adj_mul0; rewrite adjM !mulmxA -[adj (Cc - a0) *m adj B *m sq]mulmxA.
  rewrite -[X in X = 0]mulmxA -ER -!mulmxA [adj B *m _](_ : _ = 0) ?mulmx0 //.
  by rewrite adjM adj_sq -mulmxA [sq *m (sq *m _)]mulmxA sq_sq mulmxA.
have : D - Phi *m a0 = 0.
  rewrite ER; apply/matrixP => x t; have := congr1 (fun M : 'M_(n, nt) => M x t) HB.
  rewrite -mulmxA /sq diag_mulE [(\row__ _) 0 x]mxE ![(0 : 'M_(_, _)) x t]mxE => /eqP.
  by rewrite mulf_eq0 sqrtC_eq0 (negbTE (lt0r_neq0 (Hw1 x))) /= => /eqP.
by move/eqP; rewrite subr_eq0 => /eqP.
Qed.
End X.
End LS.

Section Inv.
Variable C : numClosedFieldType.
Variable p : nat.
Lemma largestE (l : 'rV[C]_p) m : (forall i, 0 <= l 0 i) -> largest l m -> l_max l = m.
Proof.
move=> H0 [[i Ei] Hm]; rewrite /l_max; apply/eqP; rewrite eq_le; apply/andP; split.
  have Hm0 : 0 <= m by rewrite -Ei.
  elim/big_ind: _ => // x y Hx Hy; rewrite /Order.max; by case: ifP.
rewrite -Ei; have Hi : i \in index_enum (ordinal_finType p) by exact: mem_index_enum.
have Hpos s : 0 <= \big[Num.max/0]_(j <- s) l 0 j.
  by elim/big_ind: _ => // x y Hx Hy; rewrite /Order.max; case: ifP.
elim: (index_enum _) Hi => // j s IH; rewrite inE big_cons => /orP [/eqP <-|/IH {IH}].
  rewrite /Order.max; case: ifP => // Hl; exact: ltW.
move=> H; apply: (le_trans H); rewrite /Order.max.
have /orP Hc := real_leVge (ger0_real (Hpos s)) (ger0_real (H0 j)).
case: ifP => // /negbT Hn; case: Hc => // Hc; rewrite le_eqVlt; move: Hc; rewrite le_eqVlt => /orP [/eqP ->|Hc]; first by rewrite eqxx.
by rewrite Hc in Hn.
Qed.
Variable svd : 'M[C]_p -> 'M[C]_p * 'rV[C]_p * 'M[C]_p.
Hypothesis Hsvd : svd3_ok svd.
Variable tol : C.
Variable M : 'M[C]_p.
Notation u := (svd M).1.1.
Notation l := (svd M).1.2.
Notation v := (svd M).2.
Lemma uu : adj u *m u = 1%:M.
Proof. have [H _ _ _ _] := Hsvd M; apply/matrixP => i j; rewrite !mxE -[RHS]H; apply: eq_bigr => k _; by rewrite mxE. Qed.
Lemma vv : v *m adj v = 1%:M.
Proof. have [_ H _ _ _] := Hsvd M; apply/matrixP => i j; rewrite !mxE -[RHS]H; apply: eq_bigr => k _; by rewrite mxE. Qed.
Lemma ulv : M = u *m diag_mx l *m v.
Proof.
have [_ _ _ _ H] := Hsvd M; apply/matrixP => a b; rewrite H [RHS]mxE; apply: eq_bigr => k _; by rewrite mul_diagE.
Qed.
Lemma vv' : adj v *m v = 1%:M. Proof. exact: mulmx1C vv. Qed.
Lemma abs_MXM (N U V : 'M[C]_p) (d e : 'rV[C]_p) : N = U *m diag_mx d *m V -> adj U *m U = 1%:M -> V *m adj V = 1%:M ->
  (forall i, d 0 i * e 0 i * d 0 i = d 0 i) -> N *m (adj V *m diag_mx e *m adj U) *m N = N.
Proof.
move=> -> HU HV He; rewrite !mulmxA -[U *m diag_mx d *m V *m adj V]mulmxA HV mulmx1.
rewrite -[_ *m adj U *m U]mulmxA HU mulmx1; congr (_ *m _); rewrite -!mulmxA; congr (_ *m _).
apply/matrixP => i j; rewrite diag_mulE mul_diagE !mxE; have [->|_] := eqVneq i j; last by rewrite !mulr0n mul0r mulr0.
by rewrite !mulr1n mulrA.
Qed.
Lemma abs_vec (N U V : 'M[C]_p) (d e : 'rV[C]_p) i : N = U *m diag_mx d *m V -> adj U *m U = 1%:M -> V *m adj V = 1%:M ->
  e 0 i = 0 -> (adj V *m diag_mx e *m adj U) *m N *m col i (adj V) = 0.
Proof.
move=> -> HU HV He; rewrite colE !mulmxA -[_ *m adj U *m U]mulmxA HU mulmx1 -[_ *m V *m adj V]mulmxA HV mulmx1.
rewrite -!mulmxA [diag_mx e *m _](_ : _ = 0) ?mulmx0 //.
apply/matrixP => a b; rewrite diag_mulE [RHS]mxE diag_mulE mxE; have [->|_] := eqVneq a i; last by rewrite !mulr0.
by rewrite He mul0r.
Qed.
Lemma abs_vec0 (N U V : 'M[C]_p) (d : 'rV[C]_p) i : N = U *m diag_mx d *m V -> adj U *m U = 1%:M -> V *m adj V = 1%:M ->
  d 0 i != 0 -> N *m col i (adj V) != 0.
Proof.
move=> -> HU HV Hd; apply/eqP => E; have : adj U *m (U *m diag_mx d *m V *m col i (adj V)) = 0 by rewrite E mulmx0.
rewrite !mulmxA HU mul1mx colE -!mulmxA [V *m _]mulmxA HV mul1mx => /(congr1 (fun A : 'cV_p => A i 0)).
by rewrite diag_mulE !mxE !eqxx mulr1 => /eqP; rewrite (negbTE Hd).
Qed.
Lemma inv_MXM : (forall i, l 0 i = 0 \/ tol * l_max l < l 0 i) -> M *m m_inv svd tol M *m M = M.
Proof.
move=> H; apply: abs_MXM ulv uu vv _ => i; rewrite [l_inv _ _ _ _]mxE; case: (H i) => [->|Hl]; first by rewrite mulr0.
rewrite Hl; case: (eqVneq (l 0 i) 0) => [->|Hne]; by rewrite ?mulr0 // mulfV // mul1r.
Qed.
Lemma inv_vec i : ~~ (tol * l_max l < l 0 i) -> m_inv svd tol M *m M *m col i (adj v) = 0.
Proof. by move=> Hn; apply: abs_vec ulv uu vv _; rewrite [l_inv _ _ _ _]mxE (negbTE Hn). Qed.
Lemma M_vec i : l 0 i != 0 -> M *m col i (adj v) != 0.
Proof. exact: abs_vec0 ulv uu vv. Qed.
End Inv.
