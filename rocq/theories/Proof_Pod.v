From mathcomp Require Import all_ssreflect all_algebra.
From Verif Require Import Base_CRing Model_Spod Spec_Spod Spec_Coeffs Spec_Pod Model_Pod Proof_Spod Proof_Spectral Proof_StreamAlg Proof_StreamNum3 Proof_Svd Proof_RealSpectral.
Set Implicit Arguments.
Unset Strict Implicit.
Unset Printing Implicit Defensive.
Import GRing.Theory Num.Theory Order.TTheory.
Local Open Scope ring_scope.

Section Ranks.
Variable C : numClosedFieldType.
Variables (size n nt : nat).
Variable nloc : 'I_size -> nat.
Variable own : forall r : 'I_size, 'I_(nloc r) -> 'I_n.
Variable w : 'cV[C]_n.
Variable data : 'M[C]_(nt, n).
Variable longtime : bool.
(* the fluctuation of the real part *)
Definition Dg : 'M[C]_(n, nt) := \matrix_(x, t) ('Re (data t x) - (if longtime then time_mean (rpart data) x else 0)).
Lemma bufE r (i : 'I_(nloc r)) (t : 'I_nt) : buf own data t i = 'Re (data t (own i)).
Proof. by rewrite /buf valK. Qed.
Lemma sum_buf r (i : 'I_(nloc r)) : \sum_(0 <= t < nt) buf own data t i = \sum_t 'Re (data t (own i)).
Proof. by rewrite big_mkord; apply: eq_bigr => t _; rewrite bufE. Qed.
Lemma long_t_meanE r (i : 'I_(nloc r)) : long_t_mean own data i = (\sum_t 'Re (data t (own i))) / nt%:R.
Proof.
rewrite /long_t_mean -sum_buf; congr (_ / _).
have E := odd_double_half nt; rewrite -addnn in E.
rewrite -big_cat_nat ?leq_addr //; case Ho: (odd nt) E => /= E.
  have E' : (nt - true = nt./2 + nt./2)%N by rewrite -{1}E addnC addnK.
  by rewrite E' [RHS](@big_cat_nat _ _ _ (nt./2 + nt./2)) //= -[X in (_ <= X)%N]E leq_addl.
by rewrite addr0; congr (\sum_(0 <= t < _) _); rewrite -[RHS]E add0n.
Qed.
Lemma t_meanE r (i : 'I_(nloc r)) : t_mean_pod own data longtime i = if longtime then time_mean (rpart data) (own i) else 0.
Proof.
rewrite /t_mean_pod; case: longtime => //; rewrite long_t_meanE /time_mean; congr (_ / _).
by apply: eq_bigr => t _; rewrite mxE.
Qed.
Lemma d_matE r i t : d_mat own data longtime r i t = Dg (own i) t.
Proof. by rewrite !mxE bufE t_meanE. Qed.
Definition Qg : 'M[C]_nt := adj Dg *m wmul w Dg.
Hypothesis Hown : partition_of own.
Lemma pod_QE : pod_Q own w data longtime = Qg.
Proof.
apply/matrixP => a b; rewrite /pod_Q summxE mxE -(sum_ranks Hown (fun i => adj Dg a i * wmul w Dg i b)).
by apply: eq_bigr => r _; rewrite mxE; apply: eq_bigr => i _; rewrite ![adj _ _ _]mxE ![wmul _ _ _ _]mxE !d_matE [(\col__ _) _ _]mxE.
Qed.
Variable eig : 'M[C]_nt -> 'rV[C]_nt * 'M[C]_nt.
Lemma pod_phiE r (i : 'I_(nloc r)) j : pod_phi own w data longtime eig i j =
  if (eig Qg).1 0 j == 0 then None else Some ('Re ((Dg *m (eig Qg).2) (own i) j) / sqrtC ((eig Qg).1 0 j)).
Proof.
rewrite /pod_phi /pod_w /pod_v pod_QE; case: ifP => // _; congr (Some ('Re _ / _)); rewrite !mxE; apply: eq_bigr => t _.
by rewrite d_matE.
Qed.
End Ranks.

Section Coef.
Variable C : numClosedFieldType.
Variables (size n nt k : nat).
Variable nloc : 'I_size -> nat.
Variable own : forall r : 'I_size, 'I_(nloc r) -> 'I_n.
Hypothesis Hown : partition_of own.
Variable Phi : 'M[C]_(n, k).
Variable data : 'M[C]_(nt, n).
Lemma pod_coeffsE j t : pod_coeffs own Phi data j t = \sum_x Phi x j * fluctuation data t x.
Proof.
rewrite /pod_coeffs summxE -(sum_ranks Hown (fun x => Phi x j * fluctuation data t x)); apply: eq_bigr => r _.
by rewrite mxE; apply: eq_bigr => i _; rewrite !mxE.
Qed.
Lemma pod_recE r (i : 'I_(nloc r)) t :
  pod_rec own Phi data i t = \sum_j Phi (own i) j * (\sum_x Phi x j * fluctuation data t x) + time_mean data (own i).
Proof. by rewrite /pod_rec; congr (_ + _); apply: eq_bigr => j _; rewrite pod_coeffsE. Qed.
End Coef.

Section Alg.
Variable C : numClosedFieldType.
Add Ring Cring : (cr_th C). Ltac cring := cr_norm C; ring.
Variables (n nt : nat) (w : 'cV[C]_n) (D : 'M[C]_(n, nt)).
Hypothesis Hw : forall x, 0 <= w x 0.
Hypothesis HD : real_mx D.
Notation Q := (adj D *m wmul w D).
Lemma wmulE m p (u : 'cV[C]_m) (A : 'M[C]_(m, p)) : wmul u A = diag_mx u^T *m A.
Proof. by apply/matrixP => i j; rewrite diag_mulE !mxE mulrC. Qed.
Lemma Q_herm : hermitian Q.
Proof.
apply/hermP; rewrite wmulE !adjM adjK mulmxA adj_diag; congr (_ *m _ *m _); congr diag_mx.
by apply/matrixP => i j; rewrite !mxE [i]ord1 real_conj.
Qed.
Lemma Q_real : real_mx Q.
Proof.
apply: real_mul; first by rewrite real_adj //; apply: real_tr.
by move=> i j; rewrite mxE rpredM // ger0_real.
Qed.
Lemma Q_psd : psd Q.
Proof.
move=> u; pose v : 'cV[C]_nt := \col_i u i.
have -> : \sum_i \sum_j (u i)^* * Q i j * u j = \sum_x w x 0 * `|(D *m v) x 0| ^+ 2.
  transitivity ((adj v *m Q *m v) 0 0).
    rewrite -mulmxA mxE; apply: eq_bigr => i _; rewrite [adj v _ _]mxE [v _ _]mxE [(Q *m v) _ _]mxE mulr_sumr.
    by apply: eq_bigr => j _; rewrite [v _ _]mxE mulrA.
  rewrite !mulmxA -adjM -mulmxA mxE; apply: eq_bigr => x _; rewrite normCKC [adj _ _ _]mxE wmulE -mulmxA diag_mulE [w^T _ _]mxE.
  by rewrite mulrCA.
by rewrite sumr_ge0 // => x _; rewrite mulr_ge0 ?exprn_ge0.
Qed.
Variables (L : 'rV[C]_nt) (V : 'M[C]_nt).
Hypothesis HE : eigenpairs Q L V.
Lemma L_ge0 j : 0 <= L 0 j.
Proof. exact: eigenpair_ge0 Q_psd HE j. Qed.
Lemma QV : Q *m V = V *m diag_mx L.
Proof.
apply/matrixP => i j; rewrite mul_diagE; have := congr1 (fun M : 'cV_nt => M i 0) (HE.1 j).
set P := Q; clearbody P; have -> : P *m col j V = col j (P *m V) by rewrite !colE mulmxA.
set R := P *m V; clearbody R; by rewrite !mxE mulrC.
Qed.
Lemma VQV i j : (adj V *m Q *m V) i j = (\sum_l (V l i)^* * V l j) * L 0 j.
Proof.
by rewrite -mulmxA QV mulmxA mul_diagE; congr (_ * _); rewrite mxE; apply: eq_bigr => l _; rewrite mxE.
Qed.
(* null directions *)
Lemma null_dir (Hw1 : forall x, 0 < w x 0) j : L 0 j = 0 -> forall x, (D *m V) x j = 0.
Proof.
move=> HL x; have := VQV j j; rewrite HL mulr0 !mulmxA -adjM -mulmxA mxE => /eqP.
rewrite psumr_eq0; last first.
  by move=> y _; rewrite [adj _ _ _]mxE wmulE -mulmxA diag_mulE [w^T _ _]mxE mulrCA -normCKC mulr_ge0 ?exprn_ge0.
move=> /allP /(_ x (mem_index_enum x)); rewrite [adj _ _ _]mxE wmulE -mulmxA diag_mulE [w^T _ _]mxE mulrCA -normCKC.
by rewrite /= mulf_eq0 (gt_eqF (Hw1 x)) /= expf_eq0 /= normr_eq0 => /eqP.
Qed.
Lemma lead_orth k : leading_ok k L V -> forall i j : 'I_nt, (i < k)%N -> (j < k)%N -> \sum_l (V l i)^* * V l j = (i == j)%:R.
Proof.
case=> H i j Hi Hj; last exact: H.
have [<-|Hne] := altP (i =P j).
  by rewrite -[RHS](HE.2 i); apply: eq_bigr => l _; rewrite normCKC.
have HLr m : (L 0 m)^* = L 0 m by apply: real_conj; exact: L_ge0.
have e1 : (adj V *m Q *m V) i j = (\sum_l (V l i)^* * V l j) * L 0 j by exact: VQV.
have e2 : (adj V *m Q *m V) i j = (\sum_l (V l i)^* * V l j) * L 0 i.
  have -> : adj V *m Q *m V = adj (adj V *m Q *m V) by have := proj1 (hermP _) Q_herm; set P := Q => HP; clearbody P; rewrite !adjM !adjK HP !mulmxA.
  rewrite [LHS]mxE VQV rmorphM /= HLr; congr (_ * _); rewrite rmorph_sum; apply: eq_bigr => l _.
  by rewrite rmorphM /= conjCK mulrC.
have : (\sum_l (V l i)^* * V l j) * (L 0 j - L 0 i) = 0 by rewrite mulrBr -e1 -e2 subrr.
move/eqP; rewrite mulf_eq0 subr_eq0 => /orP [/eqP -> //|/eqP E].
by case/eqP: Hne; apply: H.
Qed.
Variable k : nat.
Hypothesis Hk : (k <= nt)%N.
Hypothesis HVr : real_mx V.
Hypothesis Hpos : forall j : 'I_nt, (j < k)%N -> L 0 j != 0.
Hypothesis Hlead : leading_ok k L V.
Variable Phi : 'M[C]_(n, k).
Hypothesis HPhi : forall x j, Phi x j = (D *m V) x (widen_ord Hk j) / sqrtC (L 0 (widen_ord Hk j)).
Lemma Phi_real : real_mx Phi.
Proof.
move=> x j; rewrite HPhi rpred_div //; first by apply: real_mul.
by rewrite ger0_real // sqrtC_ge0 L_ge0.
Qed.
(* orthonormal in the weighted inner product *)
Lemma Phi_orth i j : wip w Phi Phi i j = (i == j)%:R.
Proof.
have E : wip w Phi Phi i j = (adj V *m Q *m V) (widen_ord Hk i) (widen_ord Hk j) / sqrtC (L 0 (widen_ord Hk i)) / sqrtC (L 0 (widen_ord Hk j)).
  rewrite !mulmxA -adjM -mulmxA mxE mulr_suml mulr_suml; apply: eq_bigr => x _; rewrite [adj _ _ _]mxE wmulE -mulmxA diag_mulE [w^T _ _]mxE !HPhi.
  rewrite rmorphM /= fmorphV [(sqrtC _)^*]real_conj ?sqrtC_ge0 ?L_ge0 //.
  set a := ((D *m V) x _)^*; set b := (D *m V) x _; set c := _^-1; set d := _^-1.
  cring.
rewrite E VQV (lead_orth Hlead) /= ?ltn_ord // (_ : (widen_ord Hk i == widen_ord Hk j) = (i == j)) //; have [->|_] := eqVneq i j; last by rewrite !mul0r.
have Hn : L 0 (widen_ord Hk j) != 0 by apply: Hpos; rewrite /= ltn_ord.
by rewrite mul1r -mulrA -invfM -expr2 sqrtCK mulfV.
Qed.
(* constant weights *)
Lemma Phi_rec (c : C) : 0 < c -> (forall x, w x 0 = c) -> V \in unitmx -> (forall j : 'I_nt, (k <= j)%N -> L 0 j = 0) ->
  Phi *m (Phi^T *m D) = c^-1 *: D.
Proof.
move=> Hc Hwc HV Hz.
have HPP : Phi^T *m Phi = (c^-1)%:M.
  apply/matrixP => i j; have := Phi_orth i j; rewrite /wip; under eq_bigr do rewrite Hwc (real_conjE (Phi_real _ _)).
  rewrite -mulr_suml => /(canRL (mulfK (lt0r_neq0 Hc))) => E; rewrite !mxE.
  transitivity (\sum_x Phi x i * Phi x j); first by apply: eq_bigr => x _; rewrite mxE.
  by rewrite E; case: (i == j); rewrite ?mul1r ?mul0r.
suff HDV : Phi *m (Phi^T *m (D *m V)) = c^-1 *: (D *m V).
  by rewrite -[D](mulmxK HV) !mulmxA scalemxAl -HDV !mulmxA.
have Hcol (j : 'I_nt) : exists b : 'cV[C]_k, col j (D *m V) = Phi *m b.
  case: (ltnP j k) => Hj; last first.
    exists 0; rewrite mulmx0; apply/matrixP => x y; rewrite mxE [RHS]mxE null_dir ?Hz // => z; by rewrite Hwc.
  exists (sqrtC (L 0 j) *: delta_mx (Ordinal Hj) 0); rewrite -scalemxAr -colE; apply/matrixP => x y.
  have Ew : widen_ord Hk (Ordinal Hj) = j by apply: val_inj.
  by rewrite mxE [RHS]mxE [col _ _ _ _]mxE HPhi Ew mulrC divfK // sqrtC_eq0 Hpos.
apply/matrixP => x j; have [b Hb] := Hcol j.
have -> : (Phi *m (Phi^T *m (D *m V))) x j = (Phi *m (Phi^T *m col j (D *m V))) x 0.
  by rewrite [in RHS]colE !mulmxA -colE [RHS]mxE.
rewrite Hb [Phi^T *m _]mulmxA HPP mul_scalar_mx -scalemxAr -Hb [LHS]mxE [RHS]mxE; congr (_ * _); by rewrite mxE.
Qed.
End Alg.
