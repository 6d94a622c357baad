(* Real symmetric matrices have a real orthonormal eigenbasis. *)
From mathcomp Require Import all_ssreflect all_algebra.
From Verif Require Import Base_CRing Model_Spod Spec_Spod Spec_Pod Proof_Spod Proof_Spectral Proof_StreamAlg Proof_Svd.
Set Implicit Arguments.
Unset Strict Implicit.
Unset Printing Implicit Defensive.
Import GRing.Theory Num.Theory Order.TTheory.
Local Open Scope ring_scope.
Section R.
Variable C : numClosedFieldType.
Definition rpart m n (A : 'M[C]_(m, n)) : 'M[C]_(m, n) := \matrix_(i, j) 'Re (A i j).
Definition ipart m n (A : 'M[C]_(m, n)) : 'M[C]_(m, n) := \matrix_(i, j) 'Im (A i j).
Lemma real_rpart m n (A : 'M[C]_(m, n)) : real_mx (rpart A).
Proof. by move=> i j; rewrite mxE Creal_Re. Qed.
Lemma real_ipart m n (A : 'M[C]_(m, n)) : real_mx (ipart A).
Proof. by move=> i j; rewrite mxE Creal_Im. Qed.
Lemma ReMl_real (a z : C) : a \is Num.real -> 'Re (a * z) = a * 'Re z.
Proof. by move=> Ha; rewrite ReMl. Qed.
Lemma rpart_mul m n p (K : 'M[C]_(m, n)) (A : 'M[C]_(n, p)) : real_mx K -> rpart (K *m A) = K *m rpart A.
Proof.
move=> HK; apply/matrixP => i j; rewrite !mxE raddf_sum; apply: eq_bigr => l _; by rewrite mxE /= ReMl.
Qed.
Lemma ipart_mul m n p (K : 'M[C]_(m, n)) (A : 'M[C]_(n, p)) : real_mx K -> ipart (K *m A) = K *m ipart A.
Proof.
move=> HK; apply/matrixP => i j; rewrite !mxE raddf_sum; apply: eq_bigr => l _; by rewrite mxE /= ImMl.
Qed.
Lemma real_conjE (z : C) : z \is Num.real -> z^* = z. Proof. by move/CrealP. Qed.
Lemma real_adj m n (A : 'M[C]_(m, n)) : real_mx A -> adj A = A^T.
Proof. by move=> H; apply/matrixP => i j; rewrite !mxE real_conjE. Qed.
Lemma real_tr m n (A : 'M[C]_(m, n)) : real_mx A -> real_mx A^T.
Proof. by move=> H i j; rewrite mxE. Qed.
Lemma real_mul m n p (A : 'M[C]_(m, n)) (B : 'M[C]_(n, p)) : real_mx A -> real_mx B -> real_mx (A *m B).
Proof. by move=> HA HB i j; rewrite mxE rpred_sum // => l _; rewrite rpredM. Qed.
Lemma normalise n (v : 'cV[C]_n) : real_mx v -> v != 0 -> exists a, real_mx (a *: v) /\ adj (a *: v) *m (a *: v) = 1%:M.
Proof.
move=> Hr Hv; have H := normsq_gt0 Hv; set s := \sum_i _ in H; exists (sqrtC s)^-1.
have Hs : 0 <= (sqrtC s)^-1 by rewrite invr_ge0 sqrtC_ge0 ltW.
split; first by move=> i j; rewrite mxE rpredM // ger0_real.
apply: mx11; rewrite adj_normsq [RHS]mxE eqxx; under eq_bigr do rewrite mxE normrM exprMn.
by rewrite -mulr_sumr -/s ger0_norm // exprVn sqrtCK mulVf // gt_eqF.
Qed.
(* a non-zero vector in the kernel of a real matrix can be taken real and of unit norm *)
Lemma real_kernel m n (K : 'M[C]_(m, n)) (v : 'cV[C]_n) : real_mx K -> K *m v = 0 -> v != 0 ->
  exists u : 'cV[C]_n, [/\ real_mx u, K *m u = 0 & adj u *m u = 1%:M].
Proof.
move=> HK Hv Hn.
have H0 (z : 'cV[C]_n) : real_mx z -> K *m z = 0 -> z != 0 -> exists u : 'cV[C]_n, [/\ real_mx u, K *m u = 0 & adj u *m u = 1%:M].
  move=> Hz Kz Nz; have [a [Ha1 Ha2]] := normalise Hz Nz; exists (a *: z); split=> //; by rewrite -scalemxAr Kz scaler0.
have [E|] := eqVneq (rpart v) 0.
  have [E'|] := eqVneq (ipart v) 0; last first.
    apply: H0; first exact: real_ipart.
    by rewrite -ipart_mul // Hv; apply/matrixP => i j; rewrite !mxE raddf0.
  case/eqP: Hn; apply/matrixP => i j; rewrite [RHS]mxE (Crect (v i j)).
  have := congr1 (fun M : 'cV_n => M i j) E; have := congr1 (fun M : 'cV_n => M i j) E'; rewrite !mxE => -> ->.
  by rewrite mulr0 addr0.
apply: H0; first exact: real_rpart.
by rewrite -rpart_mul // Hv; apply/matrixP => i j; rewrite !mxE raddf0.
Qed.
Lemma real_unit_vector n k (A : 'M[C]_(n, k)) : real_mx A -> (k < n)%N ->
  exists u : 'cV[C]_n, [/\ real_mx u, adj A *m u = 0 & adj u *m u = 1%:M].
Proof.
move=> HA Hk; have [v [Hv1 Hv2]] := unit_vector A Hk; apply: real_kernel Hv1 _.
  by rewrite real_adj //; apply: real_tr.
apply/eqP => E; move: Hv2; rewrite E mulmx0 => /matrixP /(_ 0 0); rewrite !mxE => /esym/eqP; by rewrite oner_eq0.
Qed.
Lemma real_row_mx m n1 n2 (A : 'M[C]_(m, n1)) (B : 'M[C]_(m, n2)) : real_mx A -> real_mx B -> real_mx (row_mx A B).
Proof. by move=> HA HB i j; rewrite mxE; case: splitP. Qed.
Lemma real_complement n d k (A : 'M[C]_(n, k)) : real_mx A -> adj A *m A = 1%:M -> (k + d <= n)%N ->
  exists B : 'M[C]_(n, d), [/\ real_mx B, adj A *m B = 0 & adj B *m B = 1%:M].
Proof.
elim: d k A => [|d IH] k A HR HA Hk; first by exists 0; split; [by move=> i []|by rewrite mulmx0|by apply/matrixP => [] []].
have [|u [Hu0 Hu1 Hu2]] := @real_unit_vector n k A HR; first by apply: leq_trans Hk; rewrite addnS ltnS leq_addr.
have [|||B [HB0 HB1 HB2]] := IH (k + 1)%N (row_mx A u).
- exact: real_row_mx.
- rewrite adj_row_mx mul_col_row HA Hu1 Hu2 (_ : adj u *m A = 0) -?scalar_mx_block //.
  by rewrite -[LHS]adjK adjM adjK Hu1 adj0.
- by rewrite -addnA add1n.
have [HB3 HB4] : adj A *m B = 0 /\ adj u *m B = 0.
  move: HB1; rewrite adj_row_mx mul_col_mx => /eqP; rewrite col_mx_eq0 => /andP [/eqP -> /eqP ->] //.
exists (row_mx u B : 'M_(n, 1 + d)); split; first by have E := real_row_mx Hu0 HB0; exact: E.
  by have E : adj A *m row_mx u B = 0 :> 'M_(k, 1 + d) by rewrite mul_mx_row Hu1 HB3 row_mx0.
suff E : adj (row_mx u B) *m row_mx u B = 1%:M :> 'M_(1 + d) by exact: E.
rewrite adj_row_mx mul_col_row Hu2 HB4 HB2 (_ : adj B *m u = 0); last by rewrite -[LHS]adjK adjM adjK HB4 adj0.
by rewrite -scalar_mx_block.
Qed.
Lemma real_spectral n (M : 'M[C]_n) : hermitian M -> real_mx M ->
  exists (V : 'M[C]_n) (d : 'rV[C]_n), [/\ real_mx V, adj V *m V = 1%:M & M *m V = V *m diag_mx d].
Proof.
elim: n M => [|n IH] M HM HR; first by exists 1%:M, 0; split; [by move=> []|by apply/matrixP => [] []|by apply/matrixP => [] []].
have [L [W [[HW1 HW2] _]]] := herm_eigenbasis HM.
have Hn0 : col ord0 W != 0.
  apply/eqP => E; have := HW2 ord0; rewrite big1 => [/esym/eqP|i _]; first by rewrite oner_eq0.
  by have := congr1 (fun M : 'cV_(_) => M i 0) E; rewrite !mxE => ->; rewrite normr0 expr0n.
have HL : L 0 ord0 \is Num.real.
  have HMa := proj1 (hermP M) HM; apply/CrealP.
  have E1 : adj (col ord0 W) *m (M *m col ord0 W) = L 0 ord0 *: (adj (col ord0 W) *m col ord0 W) by rewrite HW1 scalemxAr.
  have E2 : adj (adj (col ord0 W) *m (M *m col ord0 W)) = adj (col ord0 W) *m (M *m col ord0 W) by rewrite !adjM !adjK HMa mulmxA.
  move: E2; rewrite E1 adjZ adjM adjK => /(congr1 (fun M : 'M_1 => M 0 0)); rewrite !mxE => /mulIf; apply.
  have := normsq_gt0 Hn0; rewrite -(adj_normsq) mxE; exact: lt0r_neq0.
have [|||v [Hv0 Hv1 Hv]] := @real_kernel n.+1 n.+1 (M - (L 0 ord0)%:M) (col ord0 W).
- by move=> i j; rewrite !mxE rpredB // rpredMn.
- by rewrite mulmxBl HW1 mul_scalar_mx subrr.
- exact: Hn0.
have Ev : M *m v = L 0 ord0 *: v by move: Hv1; rewrite mulmxBl mul_scalar_mx => /eqP; rewrite subr_eq0 => /eqP.
have [|B [HB0 HB1 HB2]] := @real_complement n.+1 n 1 v Hv0 Hv; first by rewrite add1n.
move/hermP: (HM) => HMa.
have HN : hermitian (adj B *m M *m B) by apply/hermP; rewrite !adjM adjK HMa mulmxA.
have HNr : real_mx (adj B *m M *m B).
  by apply: real_mul => //; apply: real_mul => //; rewrite real_adj //; apply: real_tr.
have [V [d [HV0 HV1 HV2]]] := IH _ HN HNr.
have HBv : adj B *m v = 0 by rewrite -[LHS]adjK adjM adjK HB1 adj0.
have Hfull : v *m adj v + B *m adj B = 1%:M.
  have Hi : adj (row_mx v B : 'M_(n.+1, 1 + n)) *m row_mx v B = 1%:M.
    by rewrite adj_row_mx mul_col_row Hv HB1 HBv HB2 -scalar_mx_block.
  by have := mulmx1C Hi; rewrite adj_row_mx mul_row_col.
have HMB : M *m B = B *m (adj B *m M *m B).
  rewrite -[LHS]mul1mx -Hfull mulmxDl -!mulmxA.
  rewrite [adj v *m (M *m B)](_ : _ = 0) ?mulmx0 ?add0r //.
  by rewrite mulmxA -[adj v *m M]adjK adjM adjK HMa Ev adjZ -scalemxAl HB1 scaler0.
exists (row_mx v (B *m V) : 'M_(n.+1, 1 + n)), (row_mx (L 0 ord0)%:M d : 'rV_(1 + n)); split.
- have E : real_mx (row_mx v (B *m V)) by apply: real_row_mx => //; apply: real_mul.
  exact: E.
- suff E : adj (row_mx v (B *m V)) *m row_mx v (B *m V) = 1%:M :> 'M_(1 + n) by exact: E.
  rewrite adj_row_mx mul_col_row Hv mulmxA HB1 mul0mx adjM -mulmxA HBv mulmx0.
  by rewrite -mulmxA [adj B *m _]mulmxA HB2 mul1mx HV1 -scalar_mx_block.
suff E : M *m row_mx v (B *m V) = row_mx v (B *m V) *m diag_mx (row_mx (L 0 ord0)%:M d) :> 'M_(n.+1, 1 + n) by exact: E.
rewrite mul_mx_row Ev mulmxA HMB -mulmxA HV2 mulmxA.
apply/matrixP => i j; rewrite mul_diagE.
case: (@splitP 1 n j) => j' Ej.
  have -> : j = lshift n j' by apply: val_inj.
  by rewrite !row_mxEl ord1 !mxE mulrC.
have -> : j = rshift 1 j' by apply: val_inj.
by rewrite !row_mxEr mul_diagE.
Qed.
Definition reigb n (M : 'M[C]_n) (t : 'rV[C]_n * 'M[C]_n) : bool :=
  [&& [forall i, forall j, t.2 i j \is Num.real], adj t.2 *m t.2 == 1%:M & M *m t.2 == t.2 *m diag_mx t.1].
Lemma real_eig_exists n : exists eig, @real_eig_ok C n eig /\
  forall M, hermitian M -> real_mx M -> adj (eig M).2 *m (eig M).2 = 1%:M.
Proof.
pose cond (M : 'M[C]_n) := [forall i, forall j, M i j == (M j i)^*] && [forall i, forall j, M i j \is Num.real].
have condP M : reflect (hermitian M /\ real_mx M) (cond M).
  apply: (iffP andP) => [[/forallP H1 /forallP H2]|[H1 H2]]; split.
  - by move=> i j; apply/eqP; move/forallP: (H1 i); apply.
  - by move=> i j; move/forallP: (H2 i); apply.
  - by apply/forallP => i; apply/forallP => j; apply/eqP.
  - by apply/forallP => i; apply/forallP => j.
have H (M : 'M[C]_n) : exists t, cond M ==> reigb M t.
  case: (condP M) => [[H1 H2]|_]; last by exists (0, 0).
  have [V [d [h0 h1 h2]]] := real_spectral H1 H2; exists (d, V); apply/implyP => _; apply/and3P; split=> /=.
  - by apply/forallP => i; apply/forallP => j.
  - by rewrite h1.
  - by rewrite h2.
have E M : hermitian M -> real_mx M -> let t := xchoose (H M) in [/\ real_mx t.2, adj t.2 *m t.2 = 1%:M & M *m t.2 = t.2 *m diag_mx t.1].
  move=> H1 H2 t; have := xchooseP (H M); rewrite -/t => /implyP /(_ (introT (condP M) (conj H1 H2))) /and3P [/forallP h1 /eqP h2 /eqP h3].
  by split=> // i j; move/forallP: (h1 i); apply.
exists (fun M => xchoose (H M)); split; last by move=> M H1 H2; have [] := E M H1 H2.
move=> M H1 H2; have := E M H1 H2; move: (xchoose (H M)) => [d V] /= [h0 h1 h2]; split=> //.
- split=> k.
    have := congr1 (fun A : 'M_n => col k A) h2; rewrite !colE -mulmxA => ->; rewrite -mulmxA; apply/matrixP => i j.
    by rewrite [j]ord1 mulmxA -colE [LHS]mxE mul_diagE [RHS]mxE -colE mxE mulrC.
  transitivity ((adj V *m V) k k); last by rewrite h1 mxE eqxx.
  by rewrite mxE; apply: eq_bigr => i _; rewrite mxE -normCKC.
- by have [] := mulmx1_unit h1.
Qed.
End R.
