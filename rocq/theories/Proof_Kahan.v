(* Davis and Kahan: how far eigenvectors can move. *)
From mathcomp Require Import all_ssreflect all_algebra.
From Verif Require Import Base_CRing Model_Spod Spec_Spod Proof_Spod Proof_Spectral Proof_Optimal Proof_Weyl Prop_Stable.
Set Implicit Arguments.
Unset Strict Implicit.
Unset Printing Implicit Defensive.
Import GRing.Theory Num.Theory Order.TTheory.
Local Open Scope ring_scope.

Section Kahan.
Variable C : numClosedFieldType.
Add Ring Cring_kahan : (cr_th C). Ltac cring := cr_norm C; ring.

(* eigenvectors of different eigenvalues are orthogonal *)
Lemma eig_cross n (M : 'M[C]_n) (L : 'rV[C]_n) (V : 'M[C]_n) i j : hermitian M -> M *m V = V *m diag_mx L -> (forall i, L 0 i \is Num.real) ->
  L 0 i != L 0 j -> (adj V *m V) i j = 0.
Proof.
move=> HM EV Lr Hne; have Ei k : M *m col k V = L 0 k *: col k V.
  have := congr1 (col k) EV; rewrite !colE -!mulmxA => ->; apply/matrixP => a b; rewrite mulmxA mul_mx_diag [LHS]mxE [RHS]mxE mxE mulr_sumr; apply: eq_bigr => l _; rewrite !mxE; case: (l =P k) => [->|_] /=; last (by rewrite !mulr0); by rewrite mulrCA mulrA.
have := herm_orth HM (Ei i) (Ei j) (Lr i); rewrite eq_sym => /(_ Hne) <-.
by rewrite mxE; apply: eq_bigr => l _; rewrite !mxE.
Qed.
Lemma quad_V n (K : 'M[C]_n) (D : 'rV[C]_n) (V : 'M[C]_n) (x : 'cV[C]_n) : K *m V = V *m diag_mx D ->
  quad K (V *m x) = \sum_i \sum_j (x i 0)^* * (adj V *m V) i j * (D 0 j * x j 0).
Proof.
move=> EK; rewrite quadE adjM -[adj x *m adj V *m K *m _]mulmxA (mulmxA K) EK !mulmxA -!(mulmxA _ (adj V) V).
rewrite -[_ *m diag_mx D *m x]mulmxA; set G := adj V *m V.
rewrite mxE exchange_big /=; apply: eq_bigr => j _; rewrite [in LHS]mxE mulr_suml; apply: eq_bigr => i _.
by rewrite [adj x 0 i]mxE mul_diag_mx [X in _ * X = _]mxE.
Qed.
(* the part of a coefficient vector on a set of indices *)
Definition part n (S : pred 'I_n) (x : 'cV[C]_n) : 'cV[C]_n := \col_i (if S i then x i 0 else 0).
Lemma part_sum n (S : pred 'I_n) (x : 'cV[C]_n) : part S x + part (predC S) x = x.
Proof. by apply/matrixP => i j; rewrite [j]ord1 !mxE /=; case: (S i); rewrite ?addr0 ?add0r. Qed.
Lemma quad_split n (M K : 'M[C]_n) (L D : 'rV[C]_n) (V : 'M[C]_n) (S : pred 'I_n) (x : 'cV[C]_n) : hermitian M -> M *m V = V *m diag_mx L -> (forall i, L 0 i \is Num.real) ->
  (forall i j, S i -> ~~ S j -> L 0 i != L 0 j) -> K *m V = V *m diag_mx D ->
  quad K (V *m x) = quad K (V *m part S x) + quad K (V *m part (predC S) x).
Proof.
move=> HM EV Lr HS EK; rewrite !(quad_V _ EK) -big_split /=; apply: eq_bigr => i _; rewrite -big_split /=; apply: eq_bigr => j _.
rewrite [part S x i 0]mxE [part S x j 0]mxE [part (predC S) x i 0]mxE [part (predC S) x j 0]mxE /=.
case Ei: (S i); case Ej: (S j) => /=; rewrite ?rmorph0 ?mulr0 ?mul0r ?addr0 ?add0r //.
- by rewrite (eig_cross HM EV Lr (HS i j Ei (negbT Ej))) !mulr0 mul0r.
- by rewrite (eig_cross (i := i) (j := j) HM EV Lr) ?mulr0 ?mul0r // eq_sym HS ?Ei.
Qed.
(* the square of a shifted matrix *)
Lemma shift_herm n (M : 'M[C]_n) mu : hermitian M -> mu \is Num.real -> hermitian (M - mu%:M).
Proof.
move=> HM Hr i j; rewrite !mxE rmorphB HM eq_sym; congr (_ - _).
by case: (j == i); rewrite ?mulr1n ?mulr0n ?rmorph0 // (CrealP Hr).
Qed.
Lemma sq_herm n (K : 'M[C]_n) : hermitian K -> hermitian (K *m K).
Proof. by move=> /hermP H; apply/hermP; rewrite adjM H. Qed.
Lemma quad_sq n (K : 'M[C]_n) x : hermitian K -> quad (K *m K) x = nrm (K *m x).
Proof. by move=> /hermP H; rewrite quadE nrmE adjM H !mulmxA. Qed.
Lemma shift_sq_diag n (M : 'M[C]_n) (L : 'rV[C]_n) (V : 'M[C]_n) mu : M *m V = V *m diag_mx L ->
  (M - mu%:M) *m (M - mu%:M) *m V = V *m diag_mx (\row_j (L 0 j - mu) ^+ 2).
Proof.
move=> EV; have E : (M - mu%:M) *m V = V *m diag_mx (\row_j (L 0 j - mu)).
  rewrite mulmxBl EV mul_scalar_mx !mul_mx_diag; apply/matrixP => i j; rewrite !mxE.
  by rewrite mulrBr [mu * _]mulrC.
rewrite -mulmxA E mulmxA E -mulmxA; congr (_ *m _); rewrite mul_mx_diag; apply/matrixP => i j; rewrite !mxE.
by case: (i =P j) => [->|_]; rewrite ?mulr1n ?mulr0n ?mul0r // expr2.
Qed.
Lemma kahan n (M M' : 'M[C]_n) (L : 'rV[C]_n) (V : 'M[C]_n) (S : pred 'I_n) (x : 'cV[C]_n) mu h e : hermitian M -> M *m V = V *m diag_mx L -> (forall i, L 0 i \is Num.real) ->
  (forall i j, S i -> ~~ S j -> L 0 i != L 0 j) -> M' *m (V *m x) = mu *: (V *m x) -> mu \is Num.real -> 0 <= h ->
  (forall j, ~~ S j -> h <= `|L 0 j - mu|) -> nrm ((M - M') *m (V *m x)) <= e ^+ 2 * nrm (V *m x) ->
  h ^+ 2 * nrm (V *m part (predC S) x) <= e ^+ 2 * nrm (V *m x).
Proof.
move=> HM EV Lr HS Ex mr h0 Hh He; apply: le_trans He.
have -> : (M - M') *m (V *m x) = (M - mu%:M) *m (V *m x) by rewrite !mulmxBl Ex mul_scalar_mx.
have HK := shift_herm HM mr; have EK := shift_sq_diag mu EV.
rewrite -(quad_sq _ HK) (quad_split x HM EV Lr HS EK).
rewrite -[X in X <= _]add0r; apply: ler_add; first by rewrite (quad_sq _ HK) nrm_ge0.
apply: (span_ge (sq_herm HK) EK) => [i||i].
- by rewrite mxE rpredX // rpredB.
- by rewrite rpredX // ger0_real.
- rewrite [part _ _ _ _]mxE [X in _ -> _ <= X]mxE /=; case: (boolP (S i)) => [_|Hi _]; first by rewrite eqxx.
  rewrite -(real_normK (rpredB (Lr i) mr)); apply: ler_expn2r; rewrite ?nnegrE //; exact: Hh.
Qed.
(* for a Hermitian matrix the largest value of the form bounds the length of the image *)
Lemma herm_norm n (E : 'M[C]_n) e x : hermitian E -> 0 <= e -> (forall x, `|quad E x| <= e * nrm x) -> nrm (E *m x) <= e ^+ 2 * nrm x.
Proof.
move=> HE e0 He; have [D [W [HP HW]]] := herm_eigenbasis HE; have EW := eigen_diag HP.
have Dr k := herm_real k HE HP.
have Dn k : `|D 0 k| <= e.
  have := He (col k W); have -> : quad E (col k W) = D 0 k * nrm (col k W).
    by rewrite quadE nrmE -mulmxA (proj1 HP k) -scalemxAr mxE.
  have -> : nrm (col k W) = 1 by rewrite -(proj2 HP k); apply: eq_bigr => i _; rewrite mxE.
  by rewrite !mulr1.
rewrite -(quad_sq _ HE) -[x](mulKVmx HW).
have ES : E *m E *m W = W *m diag_mx (\row_j (D 0 j) ^+ 2).
  have := shift_sq_diag 0 EW; rewrite raddf0 subr0 => ->; congr (_ *m diag_mx _).
  by apply/matrixP => i j; rewrite !mxE subr0.
apply: (span_le (sq_herm HE) ES) => [i||i _].
- by rewrite mxE rpredX.
- by rewrite rpredX // ger0_real.
- by rewrite mxE -(real_normK (Dr i)); apply: ler_expn2r; rewrite ?nnegrE.
Qed.
(* how much the form moves when the data of the blocks move *)
Lemma form_moves m nb (Q R : 'M[C]_(m, nb)) (w : 'cV[C]_m) l nu x : (forall i, 0 <= w i 0) -> 0 <= l -> 0 <= nu ->
  (forall x, quad (gram Q w) x <= l * nrm x) -> (forall x, quad (gram R w) x <= nu * nrm x) ->
  `|quad (gram (Q + R) w - gram Q w) x| <= (2%:R * sqrtC (l * nu) + nu) * nrm x.
Proof.
move=> Hw l0 nu0 HQ HR; rewrite quad_sub.
have N0 := nrm_ge0 x; set N := nrm x in N0 *; have q0 := quad_gram_ge0 Q x Hw; have r0 := quad_gram_ge0 R x Hw; have p0 := quad_gram_ge0 (Q + R) x Hw.
have EN : gram (- R) w = gram R w.
  apply/matrixP => a b; rewrite !gramE; congr (_ * _); apply: eq_bigr => i _.
  by rewrite !mxE rmorphN mulrNN.
have H1 := quad_gram_add Q R x Hw; have H2 := quad_gram_add (Q + R) (- R) x Hw; rewrite addrK EN in H2.
have HQx := HQ x; have HRx := HR x; rewrite -/N in HQx HRx.
set q := quad (gram Q w) x in q0 H1 H2 HQx *; set r := quad (gram R w) x in r0 H1 H2 HRx *; set p := quad _ x in p0 H1 H2 *.
have Eqr : sqrtC q * sqrtC r <= sqrtC (l * nu) * N.
  rewrite -rootCMl // -[N](sqrCK N0) -rootCMr ?exprn_ge0 // ler_sqrtC ?nnegrE ?mulr_ge0 ?exprn_ge0 //.
  have -> : l * nu * N ^+ 2 = (l * N) * (nu * N) by rewrite expr2; cring.
  exact: ler_pmul.
have Sq : sqrtC q ^+ 2 = q := sqrtCK q. have Sr : sqrtC r ^+ 2 = r := sqrtCK r. have Sp : sqrtC p ^+ 2 = p := sqrtCK p.
set a := sqrtC q in Sq Eqr H1 H2; set b := sqrtC r in Sr Eqr H1 H2; set d := sqrtC p in Sp H2.
have a0 : 0 <= a by rewrite sqrtC_ge0. have b0 : 0 <= b by rewrite sqrtC_ge0. have d0 : 0 <= d by rewrite sqrtC_ge0.
have Hup : a * b *+ 2 + r <= (2%:R * sqrtC (l * nu) + nu) * N.
  rewrite mulrDl; apply: ler_add => //; rewrite -mulr_natl -mulrA ler_pmul2l ?ltr0n //.
have pq : p - q \is Num.real by rewrite rpredB // ger0_real.
rewrite real_ler_norml //; apply/andP; split; last first.
  apply: le_trans Hup; rewrite ler_subl_addl; apply: le_trans H1 _.
  by rewrite sqrrD Sq Sr -addrA.
rewrite ler_oppl opprB; apply: le_trans Hup.
have Had : a <= d + b.
  have := H2; rewrite -Sq ler_sqr ?nnegrE ?addr_ge0 //.
case/orP: (real_leVge (ger0_real a0) (ger0_real b0)) => Hab.
  rewrite ler_subl_addr; apply: (@le_trans _ _ r); first by rewrite -Sq -Sr ler_sqr ?nnegrE.
  by rewrite addrAC ler_addr addr_ge0 ?mulrn_wge0 ?mulr_ge0.
have Hd : a - b <= d by rewrite ler_subl_addr.
have Hd2 : (a - b) ^+ 2 <= p by rewrite -Sp ler_sqr ?nnegrE // subr_ge0.
rewrite ler_subl_addr; apply: (@le_trans _ _ (a * b *+ 2 + r + (a - b) ^+ 2)); last by rewrite ler_add2l.
rewrite sqrrB Sq Sr -subr_ge0.
have -> : a * b *+ 2 + r + (q - a * b *+ 2 + r) - q = r + r by rewrite !mulrS !mulr0n; cring.
by rewrite addr_ge0.
Qed.
End Kahan.
