(* Hermitian matrices have a basis of unit eigenvectors; real values can be sorted: the oracles assumed in the
   SPOD theorems exist. *)
From mathcomp Require Import all_ssreflect all_algebra.
From Verif Require Import Base_CRing Model_Spod Spec_Spod Proof_Spod.
Set Implicit Arguments.
Unset Strict Implicit.
Unset Printing Implicit Defensive.
Import GRing.Theory Num.Theory Order.TTheory.
Local Open Scope ring_scope.

Section Spectral.
Variable C : numClosedFieldType.

Lemma adjM m n p (A : 'M[C]_(m, n)) (B : 'M[C]_(n, p)) : adj (A *m B) = adj B *m adj A.
Proof.
apply/matrixP => i j; rewrite !mxE rmorph_sum; apply: eq_bigr => k _.
by rewrite !mxE rmorphM mulrC.
Qed.
Lemma adjK m n (A : 'M[C]_(m, n)) : adj (adj A) = A.
Proof. by apply/matrixP => i j; rewrite !mxE conjCK. Qed.
Lemma adjB m n (A B : 'M[C]_(m, n)) : adj (A - B) = adj A - adj B.
Proof. by apply/matrixP => i j; rewrite !mxE rmorphB. Qed.
Lemma adj_scalar n (a : C) : adj (a%:M : 'M_n) = a^*%:M.
Proof. by apply/matrixP => i j; rewrite !mxE eq_sym; case: eqP => _; rewrite ?mulr1n // !mulr0n rmorph0. Qed.
Lemma adj0 m n : adj (0 : 'M[C]_(m, n)) = 0.
Proof. by apply/matrixP => i j; rewrite !mxE rmorph0. Qed.
Lemma adj_mul_eq0 m n (A : 'M[C]_(m, n)) : adj A *m A = 0 -> A = 0.
Proof.
move=> E; apply/matrixP => i j; rewrite mxE.
have := congr1 (fun M : 'M[C]_n => M j j) E; rewrite !mxE => /eqP.
under eq_bigr do rewrite mxE mulrC -normCK.
rewrite psumr_eq0; last by move=> k _; rewrite exprn_ge0.
by move/allP => /(_ i (mem_index_enum i)); rewrite sqrf_eq0 normr_eq0 => /eqP.
Qed.
Lemma hermP n (M : 'M[C]_n) : hermitian M <-> adj M = M.
Proof.
split=> [H|H i j]; first by apply/matrixP => i j; rewrite mxE -H.
by rewrite -{1}H mxE.
Qed.
(* normal matrices: no nilpotent part *)
Lemma normal_sq n p (N : 'M[C]_n) (B : 'M[C]_(n, p)) : adj N *m N = N *m adj N -> N *m (N *m B) = 0 -> N *m B = 0.
Proof.
move=> HN H; apply: adj_mul_eq0.
have H1 : adj N *m (N *m B) = 0.
  apply: adj_mul_eq0; rewrite adjM adjK mulmxA -[X in X *m _]mulmxA -HN.
  by rewrite -!mulmxA H !mulmx0.
by rewrite adjM -mulmxA H1 mulmx0.
Qed.
Lemma herm_normal n (M : 'M[C]_n) a : adj M = M -> let N := M - a%:M in adj N *m N = N *m adj N.
Proof.
move=> H N; rewrite /N adjB H adj_scalar !mulmxBl !mulmxBr !mul_scalar_mx !mul_mx_scalar !scale_scalar_mx.
rewrite !opprB -!addrA; congr (_ + _); rewrite addrCA [RHS]addrCA mulrC; congr (_ + _); exact: addrC.
Qed.
Definition prodA n (M : 'M[C]_n) (rs : seq C) p (B : 'M[C]_(n, p)) : 'M[C]_(n, p) := foldr (fun a X => (M - a%:M) *m X) B rs.
Lemma factor_comm n (M : 'M[C]_n) a b p (B : 'M[C]_(n, p)) : (M - a%:M) *m ((M - b%:M) *m B) = (M - b%:M) *m ((M - a%:M) *m B).
Proof.
rewrite !mulmxA; congr (_ *m _); rewrite !mulmxBl !mulmxBr !mul_scalar_mx !mul_mx_scalar !scale_scalar_mx.
rewrite !opprB -!addrA; congr (_ + _); rewrite addrCA [RHS]addrCA mulrC; congr (_ + _); exact: addrC.
Qed.
Lemma prodA_comm n (M : 'M[C]_n) rs a p (B : 'M[C]_(n, p)) : prodA M rs ((M - a%:M) *m B) = (M - a%:M) *m prodA M rs B.
Proof. by elim: rs => //= b rs ->; rewrite factor_comm. Qed.
Lemma prodA_rem n (M : 'M[C]_n) rs a p (B : 'M[C]_(n, p)) : a \in rs -> prodA M rs B = (M - a%:M) *m prodA M (rem a rs) B.
Proof.
elim: rs => //= b rs IH; rewrite inE eq_sym; case: eqP => [->//|/eqP Hne] /= Ha.
by rewrite IH // factor_comm.
Qed.
Lemma prodA_undup n (M : 'M[C]_n) rs p (B : 'M[C]_(n, p)) : adj M = M -> prodA M rs B = 0 -> prodA M (undup rs) B = 0.
Proof.
move=> HM; elim: rs B => //= a rs IH B H; case: ifP => Ha.
  apply: IH; rewrite (prodA_rem _ _ Ha) in H *.
  by apply: normal_sq H; apply: herm_normal.
by rewrite /= -prodA_comm; apply: IH; rewrite prodA_comm.
Qed.
Lemma horner_prod n (M : 'M[C]_n.+1) rs : horner_mx M (\prod_(a <- rs) ('X - a%:P)) = prodA M rs 1%:M.
Proof.
elim: rs => [|a rs IH]; first by rewrite big_nil rmorph1.
by rewrite big_cons rmorphM /= IH rmorphB /= horner_mx_X horner_mx_C.
Qed.
Lemma herm_diagonalizable n (M : 'M[C]_n.+1) : hermitian M -> diagonalizable M.
Proof.
move=> /hermP HM; apply/diagonalizableP.
have [rs Ers] := closed_field_poly_normal (mxminpoly M).
exists (undup rs); first exact: undup_uniq.
rewrite mxminpoly_min // horner_prod; apply: prodA_undup => //.
have : horner_mx M (mxminpoly M) = 0 by apply: mx_root_minpoly.
rewrite Ers (monicP (mxminpoly_monic M)) scale1r => E; by rewrite -horner_prod.
Qed.
Lemma herm_eigenbasis n (M : 'M[C]_n) : hermitian M -> exists L V, eigenpairs M L V /\ V \in unitmx.
Proof.
case: n M => [|n] M HM.
  exists 0, 1%:M; split; last exact: unitmx1.
  by split; case.
have [P HP] := herm_diagonalizable HM; move/diagonalizable_forPex => [d /(simmxP HP) E].
pose V := invmx P; pose nrm (k : 'I_n.+1) := sqrtC (\sum_i `|V i k| ^+ 2).
have HV : V \in unitmx by rewrite unitmx_inv.
have EV : M *m V = V *m diag_mx d.
  have := congr1 (fun A => V *m A *m V) E; rewrite /V !mulmxA mulVmx // mul1mx => ->.
  by rewrite -[X in X = _]mulmxA mulmxV // mulmx1.
have Hcol k : M *m col k V = d 0 k *: col k V.
  apply/matrixP => i j; have := congr1 (fun A : 'M_(_) => A i k) EV; rewrite !mxE.
  under [in X in _ -> X]eq_bigr do rewrite mxE.
  move=> ->; rewrite (bigD1 k) //= big1 => [|l Hl]; first by rewrite !mxE eqxx mulr1n addr0 mulrC.
  by rewrite !mxE (negbTE Hl) mulr0n mulr0.
have Hn k : nrm k != 0.
  rewrite sqrtC_eq0; apply/eqP => H0.
  have : col k V != 0.
    apply/eqP => Hc; have := congr1 (fun A : 'M_(_) => A k k) (mulVmx HV); rewrite !mxE eqxx => /eqP.
    rewrite big1 => [|i _]; first by rewrite eq_sym oner_eq0.
    have := congr1 (fun A : 'cV_(_) => A i 0) Hc; rewrite !mxE => ->; exact: mulr0.
  move/normsq_gt0; under eq_bigr do rewrite mxE.
  by rewrite H0 ltxx.
exists d, (V *m diag_mx (\row_k (nrm k)^-1)); split; last first.
  rewrite unitmx_mul HV /= unitmxE det_diag unitfE; apply/prodf_neq0 => i _; by rewrite mxE invr_neq0.
have Ecol k : col k (V *m diag_mx (\row_k (nrm k)^-1)) = (nrm k)^-1 *: col k V.
  apply/matrixP => i j; rewrite !mxE (bigD1 k) //= big1 => [|l Hl].
    by rewrite !mxE eqxx mulr1n addr0 mulrC.
  by rewrite !mxE (negbTE Hl) mulr0n mulr0.
split=> k; first by rewrite Ecol -scalemxAr Hcol !scalerA mulrC.
have Ei i : (V *m diag_mx (\row_k (nrm k)^-1)) i k = (nrm k)^-1 * V i k.
  by have := congr1 (fun A : 'cV_(_) => A i 0) (Ecol k); rewrite !mxE.
under eq_bigr do rewrite Ei normrM exprMn.
rewrite -mulr_sumr -[\sum_i _]sqrtCK -/(nrm k) normfV ger0_norm; last first.
  by rewrite sqrtC_ge0 sumr_ge0 // => i _; rewrite exprn_ge0.
by rewrite exprVn mulVf // expf_neq0.
Qed.

Definition eigb n (M : 'M[C]_n) (LV : 'rV[C]_n * 'M[C]_n) : bool :=
  [forall k, M *m col k LV.2 == LV.1 0 k *: col k LV.2] && [forall k, \sum_i `|LV.2 i k| ^+ 2 == 1] && (LV.2 \in unitmx).
Lemma eigbP n (M : 'M[C]_n) LV : eigb M LV <-> eigenpairs M LV.1 LV.2 /\ LV.2 \in unitmx.
Proof.
split=> [/andP [/andP [/forallP H1 /forallP H2] H3]|[[H1 H2] H3]].
  by split=> //; split=> k; apply/eqP.
by rewrite /eigb H3 andbT; apply/andP; split; apply/forallP => k; apply/eqP.
Qed.
Lemma eig_exists n : exists eig, @eig_ok C n eig /\ eig_basis eig.
Proof.
have H (M : 'M[C]_n) : exists LV, (M == adj M) ==> eigb M LV.
  case: eqP => [E|_]; last by exists (0, 0).
  have HM : hermitian M by apply/hermP.
  by have [L [V HLV]] := herm_eigenbasis HM; exists (L, V); apply/implyP => _; apply/eigbP.
have [eig Heig] : exists eig : 'M[C]_n -> 'rV[C]_n * 'M[C]_n, forall M, (M == adj M) ==> eigb M (eig M).
  by exists (fun M => xchoose (H M)) => M; apply: (xchooseP (H M)).
exists eig.
have He M : hermitian M -> eigenpairs M (eig M).1 (eig M).2 /\ (eig M).2 \in unitmx.
  by move=> /hermP HM; apply/eigbP; apply: (implyP (Heig M)); rewrite HM.
split=> M HM; first exact: (proj1 (He M HM)).
exact: (proj2 (He M HM)).
Qed.
Lemma argsort_exists n : exists argsort, @argsort_ok C n argsort.
Proof.
pose s (L : 'rV[C]_n) := sort (fun i j => L 0 i <= L 0 j) (enum 'I_n).
have Hs L : size (s L) = n by rewrite size_sort size_enum_ord.
exists (fun L i => nth i (s L) i) => L HL.
have Htot : total (fun i j : 'I_n => L 0 i <= L 0 j) by move=> i j; apply: real_leVge.
have Hu : uniq (s L) by rewrite sort_uniq enum_uniq.
split.
  move=> i j /eqP; rewrite (set_nth_default i) ?Hs // nth_uniq ?Hs // => /eqP; exact: val_inj.
move=> i j Hij; rewrite [X in _ <= L 0 X](set_nth_default i) ?Hs //.
have Hsorted := sort_sorted Htot (enum 'I_n).
have Htr : transitive (fun i j : 'I_n => L 0 i <= L 0 j) by move=> a b d; apply: le_trans.
by apply: (sorted_leq_nth Htr _ i Hsorted); rewrite ?inE ?Hs // => a.
Qed.
End Spectral.
