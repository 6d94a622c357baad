(* Unitary diagonalisation and singular value decomposition exist: the svd oracle assumed for the
   streaming theorems (and a Hermitian eigensolver with orthonormal vectors) is satisfiable. *)
From mathcomp Require Import all_ssreflect all_algebra.
From Verif Require Import Model_Spod Spec_Spod Spec_Stream Proof_Spod Proof_Spectral Proof_StreamAlg.
Set Implicit Arguments.
Unset Strict Implicit.
Unset Printing Implicit Defensive.
Import GRing.Theory Num.Theory Order.TTheory.
Local Open Scope ring_scope.
Section Svd.
Variable C : numClosedFieldType.
Lemma adj_normsq n (u : 'cV[C]_n) : (adj u *m u) 0 0 = \sum_i `|u i 0| ^+ 2.
Proof. by rewrite mxE; apply: eq_bigr => i _; rewrite mxE normCKC. Qed.
Lemma mx11 (A B : 'M[C]_1) : A 0 0 = B 0 0 -> A = B.
Proof. by move=> E; apply/matrixP => i j; rewrite !ord1. Qed.
Lemma unit_vector n k (A : 'M[C]_(n, k)) : (k < n)%N -> exists u : 'cV[C]_n, adj A *m u = 0 /\ adj u *m u = 1%:M.
Proof.
move=> Hk; have : kermx (adj A)^T != 0.
  rewrite -mxrank_eq0 mxrank_ker subn_eq0 -ltnNge; apply: leq_ltn_trans Hk; exact: rank_leq_col.
move/rowV0Pn => [v /sub_kermxP Hv Hv0].
have Hv1 : v^T != 0 by apply: contra Hv0 => /eqP E; rewrite -[v]trmxK E trmx0.
have Hs := normsq_gt0 Hv1; pose t := sqrtC (\sum_i `|v^T i 0| ^+ 2).
have Ht : t != 0 by rewrite sqrtC_eq0 lt0r_neq0.
have Ht0 : 0 <= t by rewrite sqrtC_ge0 ltW.
exists (t^-1 *: v^T); split.
  by rewrite -scalemxAr -[adj A]trmxK -trmx_mul Hv trmx0 scaler0.
apply: mx11; rewrite adj_normsq mxE eqxx.
under eq_bigr do rewrite mxE normrM exprMn.
rewrite -mulr_sumr -[\sum_i _]sqrtCK -/t normfV ger0_norm // exprVn mulVf //; exact: expf_neq0.
Qed.
Lemma complement n d k (A : 'M[C]_(n, k)) : adj A *m A = 1%:M -> (k + d <= n)%N ->
  exists B : 'M[C]_(n, d), adj A *m B = 0 /\ adj B *m B = 1%:M.
Proof.
elim: d k A => [|d IH] k A HA Hd.
  by exists 0; split; apply/matrixP => i [].
have [|u [Hu1 Hu2]] := @unit_vector n k A; first by apply: leq_trans Hd; rewrite addnS ltnS leq_addr.
have [||B [HB1 HB2]] := IH _ (row_mx A u).
- rewrite adj_row_mx mul_col_row HA Hu1 Hu2 (_ : adj u *m A = 0); last by rewrite -[LHS]adjK adjM adjK Hu1 adj0.
  by rewrite -scalar_mx_block.
- by rewrite -addnA add1n.
have [HB3 HB4] : adj A *m B = 0 /\ adj u *m B = 0.
  move: HB1; rewrite adj_row_mx mul_col_mx => /eqP; rewrite col_mx_eq0 => /andP [/eqP -> /eqP ->] //.
exists (row_mx u B : 'M_(n, 1 + d)); split.
  by have E : adj A *m row_mx u B = 0 :> 'M_(k, 1 + d) by rewrite mul_mx_row Hu1 HB3 row_mx0.
suff E : adj (row_mx u B) *m row_mx u B = 1%:M :> 'M_(1 + d) by exact: E.
rewrite adj_row_mx mul_col_row Hu2 HB4 HB2 (_ : adj B *m u = 0); last by rewrite -[LHS]adjK adjM adjK HB4 adj0.
by rewrite -scalar_mx_block.
Qed.
Lemma spectral n (M : 'M[C]_n) : hermitian M -> exists (V : 'M[C]_n) (d : 'rV[C]_n), adj V *m V = 1%:M /\ M *m V = V *m diag_mx d.
Proof.
elim: n M => [|n IH] M HM; first by exists 1%:M, 0; split; apply/matrixP => [] [].
have [L [W [[HW1 HW2] _]]] := herm_eigenbasis HM.
pose v := col ord0 W; have Ev : M *m v = L 0 ord0 *: v by exact: HW1.
have Hv : adj v *m v = 1%:M.
  by apply: mx11; rewrite adj_normsq mxE eqxx -[RHS](HW2 ord0); apply: eq_bigr => i _; rewrite mxE.
have [|B [HB1 HB2]] := @complement n.+1 n 1 v Hv; first by rewrite add1n.
move/hermP: (HM) => HMa.
have HN : hermitian (adj B *m M *m B) by apply/hermP; rewrite !adjM adjK HMa mulmxA.
have [V [d [HV1 HV2]]] := IH _ HN.
have HBv : adj B *m v = 0 by rewrite -[LHS]adjK adjM adjK HB1 adj0.
have Hfull : v *m adj v + B *m adj B = 1%:M.
  have Hi : adj (row_mx v B : 'M_(n.+1, 1 + n)) *m row_mx v B = 1%:M.
    by rewrite adj_row_mx mul_col_row Hv HB1 HBv HB2 -scalar_mx_block.
  by have := mulmx1C Hi; rewrite adj_row_mx mul_row_col.
have HMB : M *m B = B *m (adj B *m M *m B).
  rewrite -[LHS]mul1mx -Hfull mulmxDl -!mulmxA.
  rewrite [adj v *m (M *m B)](_ : _ = 0) ?mulmx0 ?add0r //.
  by rewrite mulmxA -[adj v *m M]adjK adjM adjK HMa Ev adjZ -scalemxAl HB1 scaler0.
exists (row_mx v (B *m V) : 'M_(n.+1, 1 + n)), (row_mx (L 0 ord0)%:M d : 'rV_(1 + n)); split.
  suff E : adj (row_mx v (B *m V)) *m row_mx v (B *m V) = 1%:M :> 'M_(1 + n) by exact: E.
  rewrite adj_row_mx mul_col_row Hv mulmxA HB1 mul0mx adjM -mulmxA HBv mulmx0.
  by rewrite -mulmxA [adj B *m _]mulmxA HB2 mul1mx HV1 -scalar_mx_block.
suff E : M *m row_mx v (B *m V) = row_mx v (B *m V) *m diag_mx (row_mx (L 0 ord0)%:M d) :> 'M_(n.+1, 1 + n) by exact: E.
rewrite mul_mx_row Ev mulmxA HMB -mulmxA HV2 mulmxA.
apply/matrixP => i j; rewrite mul_diagE.
case: (@splitP 1 n j) => j' Ej.
  have -> : j = lshift n j' by apply: val_inj.
  by rewrite !row_mxEl ord1 !mxE mulrC.
have -> : j = rshift 1 j' by apply: val_inj.
by rewrite !row_mxEr mul_diagE.
Qed.
Lemma svd_exist1 n (K : 'M[C]_n) : exists (U : 'M[C]_n) (s : 'rV[C]_n) (V : 'M[C]_n),
  [/\ adj U *m U = 1%:M, (forall i, 0 <= s 0 i), (forall i j : 'I_n, (i <= j)%N -> s 0 j <= s 0 i),
     adj V *m V = 1%:M & K = U *m diag_mx s *m adj V].
Proof.
have HM : hermitian (adj K *m K) by apply/hermP; rewrite adjM adjK.
have [V0 [d0 [HV0 HE0]]] := spectral HM.
have Ed0 i : d0 0 i = \sum_l `|(K *m V0) l i| ^+ 2.
  have : adj V0 *m (adj K *m K *m V0) = diag_mx d0 by rewrite HE0 mulmxA HV0 mul1mx.
  move=> /(congr1 (fun A : 'M_n => A i i)); rewrite [in RHS]mxE eqxx mulr1n => <-.
  rewrite -mulmxA mulmxA -adjM mxE; apply: eq_bigr => l _; by rewrite [adj _ _ _]mxE normCKC.
have Hd0 i : 0 <= d0 0 i by rewrite Ed0 sumr_ge0 // => l _; rewrite exprn_ge0.
have [srt Hsrt] := argsort_exists C n.
have [Hinj Hord] := Hsrt d0 (fun k => ger0_real (Hd0 k)).
pose V := \matrix_(i, j) V0 i (srt d0 (rev_ord j)); pose s := \row_j sqrtC (d0 0 (srt d0 (rev_ord j))).
have HV : adj V *m V = 1%:M.
  apply/matrixP => i j; have := congr1 (fun A : 'M_n => A (srt d0 (rev_ord i)) (srt d0 (rev_ord j))) HV0.
  rewrite !mxE (inj_eq Hinj) (inj_eq rev_ord_inj) => E; rewrite -[RHS]E; by apply: eq_bigr => l _; rewrite !mxE.
have HKV i j : (K *m V) i j = (K *m V0) i (srt d0 (rev_ord j)).
  by rewrite !mxE; apply: eq_bigr => l _; rewrite mxE.
have Hs i : 0 <= s 0 i by rewrite mxE sqrtC_ge0.
have Hso (i j : 'I_n) : (i <= j)%N -> s 0 j <= s 0 i.
  by move=> Hij; rewrite !mxE ler_sqrtC ?qualifE //=; apply: Hord; apply: leq_sub2l.
have Hgram i j : \sum_l ((K *m V) l i)^* * (K *m V) l j = s 0 i ^+ 2 *+ (i == j).
  have : adj V0 *m (adj K *m K *m V0) = diag_mx d0 by rewrite HE0 mulmxA HV0 mul1mx.
  rewrite -mulmxA mulmxA -adjM => /(congr1 (fun A : 'M_n => A (srt d0 (rev_ord i)) (srt d0 (rev_ord j)))).
  rewrite [in RHS]mxE (inj_eq Hinj) (inj_eq rev_ord_inj) [s 0 i]mxE sqrtCK => <-.
  rewrite mxE; apply: eq_bigr => l _; by rewrite [adj _ _ _]mxE !HKV.
clearbody V s; clear HE0 HM Ed0 HKV Hord.
have [r [Hr Hrn]] : exists r, cnt s r /\ (r <= n)%N.
  exists (\sum_i (s 0%R i != 0%R))%N; split; last by rewrite -[X in (_ <= X)%N]card_ord -sum1_card; apply: leq_sum => i _; exact: leq_b1.
  by apply: cnt_of_sum => //; rewrite natr_sum.
pose w := widen_ord Hrn; pose A := \matrix_(i < n, j < r) ((K *m V) i (w j) / s 0 (w j)).
have Hsw j : s 0 (w j) != 0 by rewrite Hr /= ltn_ord.
have HA : adj A *m A = 1%:M.
  apply/matrixP => i j; rewrite mxE [RHS]mxE.
  transitivity ((s 0 (w i))^-1 * (s 0 (w j))^-1 * \sum_l ((K *m V) l (w i))^* * (K *m V) l (w j)).
    rewrite mulr_sumr; apply: eq_bigr => l _; rewrite [adj A _ _]mxE [A l i]mxE [A l j]mxE rmorphM /=.
    rewrite (@real_conj C (s 0 (w i))^-1) ?invr_ge0 // mulrACA; exact: mulrC.
  rewrite Hgram (_ : (w i == w j) = (i == j)); last by rewrite -!val_eqE.
  case: eqP => [<-|_]; last by rewrite mulr0n mulr0.
  by rewrite mulr1n -invfM -expr2 mulVf // expf_neq0.
have [|B [HB1 HB2]] := @complement n (n - r) r A HA; first by rewrite subnKC.
pose e := esym (subnKC Hrn); pose U := \matrix_(i, j) row_mx A B i (cast_ord e j).
exists U, s, V; split=> //.
  have HR : adj (row_mx A B) *m row_mx A B = 1%:M.
    rewrite adj_row_mx mul_col_row HA HB1 HB2 (_ : adj B *m A = 0) -?scalar_mx_block //.
    by rewrite -[LHS]adjK adjM adjK HB1 adj0.
  apply/matrixP => i j; have := congr1 (fun A : 'M_(_) => A (cast_ord e i) (cast_ord e j)) HR.
  rewrite mxE [X in _ = X]mxE (inj_eq (@cast_ord_inj _ _ e)) => E; rewrite [RHS]mxE -[RHS]E mxE.
  by apply: eq_bigr => l _; rewrite [adj U _ _]mxE [U l i]mxE [U l j]mxE [adj (row_mx A B) _ _]mxE.
have HKU : K *m V = U *m diag_mx s.
  apply/matrixP => i j; rewrite mul_diagE [U i j]mxE.
  have [Hj|Hj] := ltnP j r.
    have -> : cast_ord e j = lshift (n - r) (Ordinal Hj) by apply: val_inj.
    have Ej : w (Ordinal Hj) = j by apply: val_inj.
    by rewrite row_mxEl [A _ _]mxE Ej mulfVK // -Ej.
  have E0 : s 0 j = 0 by apply/eqP; rewrite -[_ == 0]negbK Hr -leqNgt.
  rewrite E0 mulr0; have := Hgram j j; rewrite E0 expr0n mul0rn.
  under eq_bigr do rewrite -normCKC.
  move=> /eqP; rewrite psumr_eq0; last by move=> l _; rewrite exprn_ge0.
  by move=> /allP /(_ i (mem_index_enum i)); rewrite expf_eq0 /= normr_eq0 => /eqP.
by rewrite -HKU -mulmxA (mulmx1C HV) mulmx1.
Qed.
Definition svdb n (K : 'M[C]_n) (t : 'M[C]_n * 'rV[C]_n * 'M[C]_n) : bool :=
  [&& adj t.1.1 *m t.1.1 == 1%:M, [forall i, 0 <= t.1.2 0 i], [forall i : 'I_n, forall j : 'I_n, (i <= j)%N ==> (t.1.2 0 j <= t.1.2 0 i)],
   adj t.2 *m t.2 == 1%:M & K == t.1.1 *m diag_mx t.1.2 *m adj t.2].
Lemma svd_exists n : exists svd, @svd_ok C n svd.
Proof.
have H (K : 'M[C]_n) : exists t, svdb K t.
  have [U [s [V [H1 H2 H3 H4 H5]]]] := svd_exist1 K; exists (U, s, V).
  apply/and5P; split; rewrite /= ?H1 ?H4 ?eqxx //; last by rewrite {1}H5.
    exact/forallP.
  by apply/forallP => i; apply/forallP => j; apply/implyP; apply: H3.
exists (fun K => (xchoose (H K)).1) => K; have := xchooseP (H K).
move: (xchoose (H K)) => [[U s] V] /and5P [/= /eqP H1 /forallP H2 /forallP H3 /eqP H4 /eqP H5]; split=> //.
- exact/orthoP.
- by move=> i j; move/forallP: (H3 i) => /(_ j) /implyP.
exists V; split; first exact/orthoP.
move=> a b; rewrite {1}H5 mxE; apply: eq_bigr => l _; by rewrite mul_diagE [adj V l b]mxE.
Qed.
End Svd.
