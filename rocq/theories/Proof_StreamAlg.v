(* algebra of one streaming update *)
From mathcomp Require Import all_ssreflect all_algebra.
From Verif Require Import Model_Spod Spec_Spod Spec_Stream Proof_Spod Proof_Spectral.
Set Implicit Arguments.
Unset Strict Implicit.
Unset Printing Implicit Defensive.
Import GRing.Theory Num.Theory Order.TTheory.
Local Open Scope ring_scope.
Section Alg.
Variable C : numClosedFieldType.
Lemma adjD m n (A B : 'M[C]_(m, n)) : adj (A + B) = adj A + adj B.
Proof. by apply/matrixP => i j; rewrite !mxE rmorphD. Qed.
Lemma adjZ m n a (A : 'M[C]_(m, n)) : adj (a *: A) = a^* *: adj A.
Proof. by apply/matrixP => i j; rewrite !mxE rmorphM. Qed.
Lemma adj_row_mx m n1 n2 (A : 'M[C]_(m, n1)) (B : 'M[C]_(m, n2)) : adj (row_mx A B) = col_mx (adj A) (adj B).
Proof.
apply/matrixP => i j; rewrite mxE; case: (splitP i) => a Ea.
  by have -> : i = lshift _ a by [apply: val_inj]; rewrite row_mxEl col_mxEu mxE.
by have -> : i = rshift _ a by [apply: val_inj]; rewrite row_mxEr col_mxEd mxE.
Qed.
Lemma adj_col_mx m1 m2 n (A : 'M[C]_(m1, n)) (B : 'M[C]_(m2, n)) : adj (col_mx A B) = row_mx (adj A) (adj B).
Proof. by rewrite -[RHS]adjK adj_row_mx !adjK. Qed.
Lemma adj_diag n (d : 'rV[C]_n) : adj (diag_mx d) = diag_mx (\row_i (d 0 i)^*).
Proof.
apply/matrixP => i j; rewrite !mxE eq_sym; case: eqP => [->|_]; rewrite ?mulr1n ?mulr0n //; exact: rmorph0.
Qed.
Lemma orthoP m n (U : 'M[C]_(m, n)) : orthonormal_cols U <-> adj U *m U = 1%:M.
Proof.
split=> [H|H].
  by apply/matrixP => i j; rewrite !mxE -[RHS](H i j); apply: eq_bigr => l _; rewrite mxE.
move=> i j; have := congr1 (fun A : 'M_n => A i j) H; rewrite !mxE => <-.
by apply: eq_bigr => l _; rewrite mxE.
Qed.
Lemma mul_diagE m n (U : 'M[C]_(m, n)) (d : 'rV[C]_n) i j : (U *m diag_mx d) i j = U i j * d 0 j.
Proof.
rewrite mxE (bigD1 j) //= big1 => [|l Hl]; first by rewrite !mxE eqxx mulr1n addr0.
by rewrite !mxE (negbTE Hl) mulr0n mulr0.
Qed.
Lemma diag_mulE m n (U : 'M[C]_(m, n)) (d : 'rV[C]_m) i j : (diag_mx d *m U) i j = d 0 i * U i j.
Proof.
rewrite mxE (bigD1 i) //= big1 => [|l Hl]; first by rewrite !mxE eqxx mulr1n addr0.
by rewrite !mxE eq_sym (negbTE Hl) mulr0n mul0r.
Qed.
Lemma svdP n (svd : 'M[C]_n -> 'M[C]_n * 'rV[C]_n) K : svd_ok svd ->
  adj (svd K).1 *m (svd K).1 = 1%:M /\ exists V, adj V *m V = 1%:M /\ K = (svd K).1 *m diag_mx (svd K).2 *m adj V.
Proof.
move=> /(_ K) /= [H1 _ _ [V [H2 H3]]]; split; first exact/orthoP.
exists V; split; first exact/orthoP.
by apply/matrixP => a b; rewrite H3 [RHS]mxE; apply: eq_bigr => l _; rewrite mul_diagE [adj V l b]mxE.
Qed.
Definition cov m n (U : 'M[C]_(m, n)) (s : 'rV[C]_n) : 'M[C]_m := U *m diag_mx (\row_l (s 0 l ^+ 2)) *m adj U.
Lemma covE m n (U : 'M[C]_(m, n)) s x y : cov U s x y = represented U s x y.
Proof.
rewrite /cov /represented mxE; apply: eq_bigr => l _; rewrite mul_diagE !mxE; congr (_ * _); exact: mulrC.
Qed.

Section Update.
Variables (n k b : nat).
Variable svd : 'M[C]_(k + 1) -> 'M[C]_(k + 1) * 'rV[C]_(k + 1).
Hypothesis Hsvd : svd_ok svd.
Variables (U : 'M[C]_(n, k)) (S : 'rV[C]_k) (x : 'cV[C]_n).
Hypothesis HS : forall i, 0 <= S 0 i.
Let Ux := adj U *m x.
Let up := x - U *m Ux.
Let a : C := sqrtC ((adj up *m up) 0 0).
Let un : 'cV[C]_n := \col_i (up i 0 / a).
Let c : C := sqrtC (b.+1%:R / (b.+2%:R ^+ 2)).
Let s : C := sqrtC b.+2%:R.
Let K : 'M[C]_(k + 1) := c *: col_mx (row_mx (s *: diag_mx S) Ux) (row_mx 0 (a%:M : 'M_1)).
Let Uf := row_mx U un *m (svd K).1.
Let Sf := (svd K).2.
Lemma a2 : a ^+ 2 = \sum_i `|up i 0| ^+ 2.
Proof.
rewrite /a sqrtCK mxE; apply: eq_bigr => i _; by rewrite mxE normCK mulrC.
Qed.
Lemma a_ge0 : 0 <= a.
Proof. by rewrite sqrtC_ge0 mxE sumr_ge0 // => i _; rewrite mxE -normCKC exprn_ge0. Qed.
Lemma a_un : un *m (a%:M : 'M_1) = up.
Proof.
apply/matrixP => i j; rewrite ord1 mul_mx_scalar !mxE; case: (eqVneq a 0) => [E|Ha]; last by rewrite mulrC mulfVK.
have := a2; rewrite E expr0n /= => /esym /eqP; rewrite psumr_eq0; last by move=> l _; rewrite exprn_ge0.
move=> /allP /(_ i (mem_index_enum i)); rewrite expf_eq0 /= normr_eq0 => /eqP Eu.
rewrite !mul0r -[LHS]Eu /up; by rewrite !mxE.
Qed.
Lemma UK : row_mx U un *m K = c *: row_mx (s *: (U *m diag_mx S)) x.
Proof.
rewrite /K -scalemxAr mul_row_col !mul_mx_row mulmx0 -scalemxAr; congr (_ *: _).
by rewrite add_row_mx addr0 a_un /up addrC subrK.
Qed.
Lemma real_conj (z : C) : 0 <= z -> z^* = z.
Proof. by move=> H; apply/CrealP/ger0_real. Qed.
Lemma c2 : c * c^* = b.+1%:R / (b.+2%:R ^+ 2).
Proof.
rewrite real_conj; first by rewrite -expr2 sqrtCK.
by rewrite sqrtC_ge0 divr_ge0 ?exprn_ge0 ?ler0n.
Qed.
Lemma s2 : s * s^* = b.+2%:R.
Proof. by rewrite real_conj ?sqrtC_ge0 ?ler0n // -expr2 sqrtCK. Qed.
Lemma cov_update : cov Uf Sf = (b.+1%:R / b.+2%:R) *: cov U S + (b.+1%:R / b.+2%:R ^+ 2) *: (x *m adj x).
Proof.
have [H1 [V [HV EK]]] := svdP K Hsvd.
have HV' : V *m adj V = 1%:M by apply: mulmx1C.
have Hs : forall i, 0 <= Sf 0 i by have [] := Hsvd K.
transitivity ((row_mx U un *m K) *m adj (row_mx U un *m K)).
  rewrite EK !mulmxA -/Uf -/Sf /cov.
  have -> : adj (Uf *m diag_mx Sf *m adj V) = V *m diag_mx Sf *m adj Uf.
    rewrite (adjM (Uf *m _)) (adjM Uf) adjK adj_diag mulmxA; congr (_ *m diag_mx _ *m _).
    by apply/rowP => i; rewrite mxE real_conj.
  rewrite !mulmxA -[_ *m adj V *m V]mulmxA HV mulmx1; congr (_ *m _).
  rewrite -mulmxA; congr (_ *m _); apply/matrixP => i j; rewrite mul_diagE !mxE.
  by case: eqP => [->|_]; rewrite ?mulr1n ?mulr0n ?mul0r ?expr2.
rewrite UK adjZ -scalemxAl -scalemxAr scalerA c2 adj_row_mx mul_row_col scalerDr; congr (_ + _).
rewrite adjZ -scalemxAl -scalemxAr scalerA s2 scalerA /cov; congr (_ *: _).
  by rewrite expr2 invfM [_ * (_ * _)]mulrA mulfVK ?pnatr_eq0.
rewrite adjM adj_diag mulmxA; congr (_ *m _); rewrite -mulmxA; congr (_ *m _).
apply/matrixP => i j; rewrite mul_diagE !mxE.
by case: eqP => [->|_]; rewrite ?mulr1n ?mulr0n ?mul0r // real_conj // expr2.
Qed.

(* orthonormality of the non-zero part *)
Definition binv m p (W : 'M[C]_(m, p)) (L : 'rV[C]_p) : Prop :=
  (forall i, 0 <= L 0 i) /\ adj W *m W = diag_mx (\row_i (L 0 i != 0)%:R).
Lemma binv_zero m p (W : 'M[C]_(m, p)) (L : 'rV[C]_p) i j : binv W L -> L 0 i = 0 -> W j i = 0.
Proof.
move=> [_ H] E; have := congr1 (fun A : 'M_p => A i i) H; rewrite !mxE eqxx mulr1n E eqxx /=.
under eq_bigr do rewrite mxE -normCKC.
move=> /eqP; rewrite psumr_eq0; last by move=> l _; rewrite exprn_ge0.
by move=> /allP /(_ j (mem_index_enum j)); rewrite expf_eq0 /= normr_eq0 => /eqP.
Qed.
Hypothesis HB : binv U S.
Hypothesis Ha : a != 0.
Let d : 'rV[C]_(k + 1) := row_mx (\row_i (S 0 i != 0)%:R) (const_mx 1).
Lemma Ux_zero i : S 0 i = 0 -> Ux i 0 = 0.
Proof. by move=> E; rewrite mxE big1 // => l _; rewrite mxE (binv_zero l HB E) rmorph0 mul0r. Qed.
Lemma U_up : adj U *m up = 0.
Proof.
rewrite /up mulmxBr mulmxA (proj2 HB) -/Ux; have := Ux_zero; clearbody Ux => HU.
apply/matrixP => i j; rewrite ord1 mxE [X in _ + X]mxE diag_mulE [X in X * _]mxE [RHS]mxE.
by have [/HU ->|_] := eqVneq (S 0 i) 0; rewrite ?mulr0 ?mul1r subrr.
Qed.
Lemma un_E : un = a^-1 *: up. Proof. by apply/matrixP => i j; rewrite ord1 !mxE mulrC. Qed.
Lemma un_norm : adj un *m un = 1%:M.
Proof.
rewrite un_E adjZ -scalemxAl -scalemxAr scalerA real_conj ?invr_ge0 ?a_ge0 //.
apply/matrixP => i j; rewrite !ord1 [LHS]mxE -invfM -expr2 [X in _ * X](_ : _ = a ^+ 2); last by rewrite /a sqrtCK.
by rewrite mulVf ?expf_neq0 // mxE eqxx.
Qed.
Lemma U_un : adj U *m un = 0. Proof. by rewrite un_E -scalemxAr U_up scaler0. Qed.
Lemma un_U : adj un *m U = 0. Proof. by rewrite -[LHS]adjK adjM adjK U_un adj0. Qed.
Lemma gram_ext : adj (row_mx U un) *m row_mx U un = diag_mx d.
Proof.
rewrite adj_row_mx mul_col_row (proj2 HB) U_un un_U un_norm.
apply/matrixP => i j; case: (splitP i) => i' Ei; case: (splitP j) => j' Ej.
- have -> : i = lshift _ i' by [apply: val_inj]; have -> : j = lshift _ j' by [apply: val_inj].
  by rewrite block_mxEul [RHS]mxE [LHS]mxE (inj_eq (@lshift_inj _ _)) row_mxEl.
- have -> : i = lshift _ i' by [apply: val_inj]; have -> : j = rshift _ j' by [apply: val_inj].
  by rewrite block_mxEur [RHS]mxE eq_lrshift mulr0n mxE.
- have -> : i = rshift _ i' by [apply: val_inj]; have -> : j = lshift _ j' by [apply: val_inj].
  by rewrite block_mxEdl [RHS]mxE eq_rlshift mulr0n mxE.
- have -> : i = rshift _ i' by [apply: val_inj]; have -> : j = rshift _ j' by [apply: val_inj].
  by rewrite block_mxEdr [RHS]mxE row_mxEr !mxE !ord1 !eqxx !mulr1n.
Qed.
Lemma dK : diag_mx d *m K = K.
Proof.
rewrite /K -scalemxAr; congr (_ *: _); apply/matrixP => i j; rewrite diag_mulE.
case: (splitP i) => i' Ei; last first.
  by have -> : i = rshift _ i' by [apply: val_inj]; rewrite row_mxEr mxE mul1r.
have -> : i = lshift _ i' by [apply: val_inj]; rewrite row_mxEl col_mxEu mxE.
have [E|E] := eqVneq (S 0 i') 0; last by rewrite /= mulr1n mul1r.
rewrite /= mulr0n mul0r; case: (splitP j) => j' Ej.
  by have -> : j = lshift _ j' by [apply: val_inj]; rewrite row_mxEl !mxE E mul0rn mulr0.
by have -> : j = rshift _ j' by [apply: val_inj]; rewrite row_mxEr ord1 Ux_zero.
Qed.
Lemma c_neq0 : c != 0.
Proof. by rewrite sqrtC_eq0 mulf_neq0 ?invr_eq0 ?expf_neq0 ?pnatr_eq0. Qed.
Lemma s_neq0 : s != 0. Proof. by rewrite sqrtC_eq0 pnatr_eq0. Qed.
Lemma KEul i j : K (lshift 1 i) (lshift 1 j) = c * (s * (S 0 i *+ (i == j))).
Proof. by rewrite /K [LHS]mxE col_mxEu row_mxEl [X in _ * X]mxE [diag_mx S _ _]mxE. Qed.
Lemma KEur i : K (lshift 1 i) (rshift k 0) = c * Ux i 0.
Proof. by rewrite /K [LHS]mxE col_mxEu row_mxEr. Qed.
Lemma KEdl j : K (rshift k 0) (lshift 1 j) = 0.
Proof. by rewrite /K [LHS]mxE col_mxEd row_mxEl [X in _ * X]mxE mulr0. Qed.
Lemma KEdr : K (rshift k 0) (rshift k 0) = c * a.
Proof. by rewrite /K [LHS]mxE col_mxEd row_mxEr [X in _ * X]mxE eqxx mulr1n. Qed.
(* a vector killed by K^H has no component where d is one *)
Lemma K_null (y : 'cV[C]_(k + 1)) : adj K *m y = 0 -> diag_mx d *m y = 0.
Proof.
move=> H.
have H0 : forall j, \sum_i (K i j)^* * y i 0 = 0.
  move=> j; have := congr1 (fun A : 'cV_(k + 1) => A j 0) H; rewrite !mxE => E; rewrite -[RHS]E.
  by apply: eq_bigr => i _; rewrite [adj K j i]mxE.
have Hy i : S 0 i != 0 -> y (lshift 1 i) 0 = 0.
  move=> Hi; have := H0 (lshift 1 i); rewrite big_split_ord /= big_ord1 KEdl rmorph0 mul0r addr0 (bigD1 i) //= big1 => [|l Hl].
    rewrite addr0 KEul eqxx mulr1n => /eqP; rewrite mulf_eq0 conjC_eq0 !mulf_eq0 (negbTE c_neq0) (negbTE s_neq0) (negbTE Hi) /=.
    by move/eqP.
  by rewrite KEul (negbTE Hl) mulr0n !mulr0 rmorph0 mul0r.
apply/matrixP => i j; rewrite ord1 diag_mulE [RHS]mxE.
case: (splitP i) => i' Ei.
  have -> : i = lshift _ i' by [apply: val_inj]; rewrite row_mxEl mxE.
  by have [E|E] := eqVneq (S 0 i') 0; rewrite /= ?mulr0n ?mul0r // Hy ?mulr0.
have -> : i = rshift _ i' by [apply: val_inj]; rewrite row_mxEr mxE mul1r.
have := H0 (rshift k 0); rewrite big_split_ord /= big_ord1 big1 => [|l _].
  rewrite add0r KEdr => /eqP.
  by rewrite (ord1 i') mulf_eq0 conjC_eq0 mulf_eq0 (negbTE c_neq0) (negbTE Ha) /= => /eqP.
rewrite KEur.
by have [E|E] := eqVneq (S 0 l) 0; [rewrite Ux_zero // mulr0 rmorph0 mul0r | rewrite Hy // mulr0].
Qed.
Lemma binv_update : binv Uf Sf.
Proof.
have [H1 [V [HV EK]]] := svdP K Hsvd.
have Hs : forall i, 0 <= Sf 0 i by have [] := Hsvd K.
split=> //; rewrite /Uf adjM -mulmxA [X in _ *m X]mulmxA gram_ext.
set Up := (svd K).1 in H1 EK *.
have HV' : V *m adj V = 1%:M by apply: mulmx1C.
have EdU : diag_mx d *m (Up *m diag_mx Sf) = Up *m diag_mx Sf.
  have -> : Up *m diag_mx Sf = K *m V by rewrite EK -mulmxA HV mulmx1.
  by rewrite mulmxA dK.
have P1 i j : Sf 0 j != 0 -> (adj Up *m (diag_mx d *m Up)) i j = (i == j)%:R.
  move=> Hj; apply: (mulIf Hj); rewrite -mul_diagE -!mulmxA EdU mulmxA H1 mul1mx !mxE.
  by case: eqP => [->|_]; rewrite ?mulr1n ?mul1r ?mulr0n ?mul0r.
have Pz i j : Sf 0 j = 0 -> (adj Up *m (diag_mx d *m Up)) i j = 0.
  move=> Hj; have E : diag_mx d *m col j Up = 0.
    apply: K_null; rewrite EK (adjM (Up *m _)) (adjM Up) adjK adj_diag colE -!mulmxA [adj Up *m _]mulmxA H1 mul1mx.
    rewrite [diag_mx _ *m _](_ : _ = 0) ?mulmx0 //.
    apply/matrixP => l q; rewrite diag_mulE !mxE; case: eqP => [->|_]; last by rewrite mulr0.
    by rewrite -/Sf Hj rmorph0 mul0r.
  rewrite mxE big1 // => l _.
  have := congr1 (fun A : 'cV_(k + 1) => A l 0) E; rewrite diag_mulE [col j Up l 0]mxE [RHS]mxE => El.
  by rewrite [X in _ * X]diag_mulE El mulr0.
apply/matrixP => i j; rewrite [RHS]mxE [X in _ = X *+ _]mxE.
have [E|E] := eqVneq (Sf 0 j) 0.
  by rewrite Pz //; case: (eqVneq i j) => [->|_]; rewrite ?E ?eqxx ?mul0rn ?mulr0n.
by rewrite P1 //; case: (eqVneq i j) => [->|_]; rewrite ?E ?mulr1n ?mulr0n.
Qed.
Lemma binv_trunc : binv (lsubmx Uf) (lsubmx Sf).
Proof.
have [H1 H2] := binv_update; split=> [i|]; first by rewrite mxE.
apply/matrixP => i j; have := congr1 (fun A : 'M_(k + 1) => A (lshift 1 i) (lshift 1 j)) H2.
rewrite !mxE (inj_eq (@lshift_inj _ _)) => E; rewrite -[RHS]E; apply: eq_bigr => l _; by rewrite !mxE.
Qed.
Definition cnt p (L : 'rV[C]_p) (q : nat) : Prop := forall i, (L 0 i != 0) = (i < q)%N.
Lemma trace_diag p (v : 'rV[C]_p) : \tr (diag_mx v) = \sum_i v 0 i.
Proof. by apply: eq_bigr => i _; rewrite mxE eqxx mulr1n. Qed.
Lemma trace_count : \sum_i (Sf 0 i != 0)%:R = (\sum_i (S 0 i != 0)%:R + 1 : C).
Proof.
have [H1 _] := svdP K Hsvd; have [_ H2] := binv_update.
have := congr1 mxtrace H2; rewrite trace_diag => E.
transitivity (\sum_i (\row_i0 ((Sf 0 i0 != 0)%:R : C)) 0 i); first by apply: eq_bigr => i _; rewrite mxE.
rewrite -E /Uf adjM -mulmxA [X in _ *m X]mulmxA gram_ext mxtrace_mulC -mulmxA (mulmx1C H1) mulmx1 trace_diag.
rewrite big_split_ord /= big_ord1 row_mxEr [const_mx _ _ _]mxE; congr (_ + _).
by apply: eq_bigr => i _; rewrite row_mxEl mxE.
Qed.
Lemma sum_lt p q : (q <= p)%N -> (\sum_(j < p) (j < q)%N = q)%N.
Proof.
move=> H; rewrite (eq_bigr (fun j : 'I_p => if (j < q)%N then 1%N else 0%N)) => [|j _]; last by case: ltnP.
by rewrite -big_mkcond /= (big_ord_narrow H) sum1_card card_ord.
Qed.
Lemma cnt_of_sum p (L : 'rV[C]_p) (q : nat) : (forall i j : 'I_p, (i <= j)%N -> L 0 j <= L 0 i) -> (forall i, 0 <= L 0 i) ->
  \sum_i (L 0 i != 0)%:R = q%:R :> C -> cnt L q.
Proof.
move=> Hsort H0; rewrite -natr_sum => /eqP; rewrite eqr_nat => /eqP E i.
apply/idP/idP => Hi.
  rewrite -E -[X in (X <= _)%N](sum_lt (ltn_ord i)); apply: leq_sum => j _; case: ltnP => // Hj; rewrite lt0b.
  apply: contra Hi => /eqP Ej; apply/eqP/le_anti; by rewrite H0 -[X in _ <= X]Ej Hsort.
apply: contraLR Hi => /negPn /eqP Ei; rewrite -leqNgt -E -[X in (_ <= X)%N](sum_lt (ltnW (ltn_ord i))).
apply: leq_sum => j _; case: (ltnP j i) => Hj; first exact: leq_b1.
suff -> : L 0 j = 0 by rewrite eqxx.
by apply/le_anti; rewrite H0 -[X in _ <= X]Ei Hsort.
Qed.
Lemma sum_cnt p (L : 'rV[C]_p) q : (q <= p)%N -> cnt L q -> \sum_i (L 0 i != 0)%:R = q%:R :> C.
Proof. by move=> Hq H; under eq_bigr do rewrite H; rewrite -natr_sum sum_lt. Qed.
Lemma cnt_update q : (q <= k)%N -> cnt S q -> cnt Sf q.+1.
Proof.
move=> Hq H; have [_ Hp Hs _] := Hsvd K; apply: cnt_of_sum => //.
by rewrite trace_count (sum_cnt Hq H) mulrSr.
Qed.
End Update.
Lemma cov_split m p (W : 'M[C]_(m, p + 1)) (L : 'rV[C]_(p + 1)) x y :
  cov W L x y = cov (lsubmx W) (lsubmx L) x y + L 0 (rshift p 0) ^+ 2 * W x (rshift p 0) * (W y (rshift p 0))^*.
Proof.
rewrite !covE /represented big_split_ord /= big_ord1; congr (_ + _).
by apply: eq_bigr => l _; rewrite !mxE.
Qed.
End Alg.
