(* missing values in coefficients, reconstructions and POD *)
From Verif Require Import Base_List Model_Select.
From mathcomp Require Import all_ssreflect all_algebra.
From Verif Require Import Model_Spod Spec_Spod Proof_Spod Model_Coeffs Model_Pod Model_Nan Proof_Nan Model_NanCoef.
Set Implicit Arguments.
Unset Strict Implicit.
Unset Printing Implicit Defensive.
Import GRing.Theory Num.Theory Order.TTheory.
Local Open Scope ring_scope.

Lemma own_onto (size n : nat) (nloc : 'I_size -> nat) (own : forall r : 'I_size, 'I_(nloc r) -> 'I_n) :
  partition_of own -> forall y, exists r (i : 'I_(nloc r)), own r i = y.
Proof. by move=> [g Hg1 Hg2] y; case E: (g y) => [r i]; exists r, i; rewrite -(Hg2 y) E. Qed.
Section Sums2.
Variable C : numClosedFieldType.
Lemma nsum_some2 size (nloc : 'I_size -> nat) (F : forall r : 'I_size, 'I_(nloc r) -> option C) (G : forall r : 'I_size, 'I_(nloc r) -> C) :
  (forall r i, F r i = Some (G r i)) -> nsum (enum 'I_size) (fun r => nsum (enum 'I_(nloc r)) (F r)) = Some (\sum_r \sum_i G r i).
Proof. by move=> H; rewrite (nsum_enum_some (G := fun r => \sum_i G r i)) // => r; apply: nsum_enum_some. Qed.
Lemma nsum_none2 size (nloc : 'I_size -> nat) (F : forall r : 'I_size, 'I_(nloc r) -> option C) r i :
  F r i = None -> nsum (enum 'I_size) (fun r => nsum (enum 'I_(nloc r)) (F r)) = None.
Proof. by move=> H; apply: (nsum_none (i := r)); rewrite ?mem_enum //; apply: (nsum_none (i := i)); rewrite ?mem_enum. Qed.
Lemma nsum_all_none (I : finType) (F : I -> option C) : (0 < #|I|)%N -> (forall i, F i = None) -> nsum (enum I) F = None.
Proof. by move=> /card_gt0P [i _] H; apply: (nsum_none (i := i)); rewrite ?mem_enum. Qed.
End Sums2.

Section Op.
Variable C : numClosedFieldType.
Variables (size n nt p : nat).
Variable nloc : 'I_size -> nat.
Variable own : forall r : 'I_size, 'I_(nloc r) -> 'I_n.
Hypothesis Hown : partition_of own.
Hypothesis Hnt : (0 < nt)%N.
Variable w : 'cV[C]_n.
Variable data : 'I_nt -> 'I_n -> option C.
Variable dc : 'M[C]_(nt, n).
Hypothesis Hd : forall t i v, data t i = Some v -> dc t i = v.
Lemma d_some t i : data t i <> None -> data t i = Some (dc t i).
Proof. by case E: (data t i) => [v|] // _; rewrite (Hd E). Qed.
Lemma c_mean_none i t : data t i = None -> c_mean data i = None.
Proof. by move=> E; rewrite /c_mean (nsum_none (i := t)) ?mem_enum. Qed.
Lemma c_mean_some i : (forall t, data t i <> None) -> c_mean data i = Some ((\sum_t dc t i) / nt%:R).
Proof.
move=> H; rewrite /c_mean (nsum_enum_some (G := fun t => dc t i)) => [|t]; last exact: d_some.
by rewrite ndiv_some // pnatr_eq0 -lt0n.
Qed.
Lemma c_cent_none i t s : data t i = None -> c_cent data s i = None.
Proof. by move=> E; rewrite /c_cent (c_mean_none E) nsub_None. Qed.
Lemma c_cent_some i t : (forall t, data t i <> None) -> c_cent data t i = Some (dc t i - (\sum_t dc t i) / nt%:R).
Proof. by move=> H; rewrite /c_cent c_mean_some // d_some. Qed.
Variable Phi : 'I_n -> 'I_p -> option C.
Variable Pc : 'M[C]_(n, p).
Hypothesis HP : forall i j v, Phi i j = Some v -> Pc i j = v.
Lemma P_some i j : Phi i j <> None -> Phi i j = Some (Pc i j).
Proof. by case E: (Phi i j) => [v|] // _; rewrite (HP E). Qed.
Lemma c_M_none j k i : Phi i j = None \/ Phi i k = None -> c_M own w Phi j k = None.
Proof.
move=> H; have [r [q Eq]] := own_onto Hown i; subst i.
by apply: (@nsum_none2 _ size nloc _ r q); case: H => -> //; rewrite !nmul_None.
Qed.
Lemma c_M_some j k : (forall i, Phi i j <> None) -> (forall i, Phi i k <> None) -> c_M own w Phi j k = Some (M_red own w Pc j k).
Proof.
move=> Hj Hk; rewrite /c_M (@nsum_some2 _ size nloc _ (fun r (i : 'I_(nloc r)) => (Pc (own i) j)^* * (w (own i) 0 * Pc (own i) k))).
  congr Some; rewrite /M_red summxE; apply: eq_bigr => r _; rewrite [RHS]mxE; apply: eq_bigr => i _.
  by rewrite !mxE.
by move=> r i; rewrite (P_some (Hj (own i))) (P_some (Hk (own i))).
Qed.
Lemma c_Q_none k t i s : data s i = None -> c_Q own w Phi data k t = None.
Proof.
move=> H; have [r [q Eq]] := own_onto Hown i; subst i.
by apply: (@nsum_none2 _ size nloc _ r q); rewrite (c_cent_none _ H) !nmul_None.
Qed.
Lemma c_Q_some k t : (forall i, Phi i k <> None) -> (forall t i, data t i <> None) -> c_Q own w Phi data k t = Some (Q_red own w Pc dc k t).
Proof.
move=> Hk HD; rewrite /c_Q (@nsum_some2 _ size nloc _ (fun r (i : 'I_(nloc r)) => (Pc (own i) k)^* * (w (own i) 0 * (dc t (own i) - (\sum_t dc t (own i)) / nt%:R)))).
  congr Some; rewrite /Q_red summxE; apply: eq_bigr => r _; rewrite [RHS]mxE; apply: eq_bigr => i _.
  by rewrite !mxE; congr (_ * (_ * (_ - _ / _))); apply: eq_bigr => s _; rewrite mxE.
by move=> r i; rewrite P_some // c_cent_some.
Qed.
Variable svd : 'M[C]_p -> 'M[C]_p * 'rV[C]_p * 'M[C]_p.
Variable tol : C.
Lemma c_inv_some : (forall i j, Phi i j <> None) -> c_inv own w Phi svd tol = Returned (m_inv svd tol (M_red own w Pc)).
Proof.
move=> H; rewrite /c_inv (_ : [forall j, _]); last by apply/forallP => j; apply/forallP => k; rewrite c_M_some.
by congr (Returned (m_inv _ _ _)); apply/matrixP => j k; rewrite mxE c_M_some.
Qed.
Lemma c_inv_none i j : Phi i j = None -> c_inv own w Phi svd tol = LinAlgError.
Proof.
move=> H; rewrite /c_inv ifN //; apply/negP => /forallP /(_ j) /forallP /(_ j).
by rewrite (@c_M_none j j i) //; left.
Qed.
End Op.

Section PodFit.
Variable C : numClosedFieldType.
Variables (size n nt : nat).
Variable nloc : 'I_size -> nat.
Variable own : forall r : 'I_size, 'I_(nloc r) -> 'I_n.
Hypothesis Hown : partition_of own.
Variable w : 'cV[C]_n.
Variable data : 'I_nt -> 'I_n -> option C.
Variable dc : 'M[C]_(nt, n).
Hypothesis Hd : forall t i v, data t i = Some v -> dc t i = v.
Variable longtime : bool.
Lemma p_d_none i t : data t i = None -> p_d data longtime i t = None.
Proof. by move=> E; rewrite /p_d /p_buf valK /= E. Qed.
Lemma p_Q_none t s i : data t i = None \/ data s i = None -> p_Q own w data longtime t s = None.
Proof.
move=> H; have [r [q Eq]] := own_onto Hown i; subst i.
by apply: (@nsum_none2 _ size nloc _ r q); case: H => /p_d_none -> //; rewrite nmul_None.
Qed.
Hypothesis HD : forall t i, data t i <> None.
Lemma p_buf_some r (i : 'I_(nloc r)) t : p_buf data t (own i) = Some (buf own dc t i).
Proof. by rewrite /p_buf /buf; case: insubP => [t' _ _|//]; rewrite (d_some Hd). Qed.
Lemma nsum_iota2 a b (F : nat -> option C) G : (forall t, F t = Some (G t)) -> nsum (iota a b) F = Some (\sum_(a <= t < a + b) G t).
Proof. by move=> H; rewrite (nsum_some (G := G)) // /index_iota addKn. Qed.
Lemma p_mean_some r (i : 'I_(nloc r)) : (0 < nt)%N -> p_mean data longtime (own i) = Some (t_mean_pod own dc longtime i).
Proof.
move=> Hnt; rewrite /p_mean /t_mean_pod; case: longtime => //; rewrite /long_t_mean.
have H := fun a b => @nsum_iota2 a b _ _ (fun t => p_buf_some i t).
have H0 : nt%:R != 0 :> C by rewrite pnatr_eq0 -lt0n.
rewrite !H add0n; case Eo: (odd nt); rewrite ?H (ndiv_some _ H0) //=.
by rewrite subnK.
Qed.
Lemma p_d_some r (i : 'I_(nloc r)) t : p_d data longtime (own i) t = Some (d_mat own dc longtime r i t).
Proof. by rewrite /p_d p_buf_some p_mean_some ?mxE //; case: t => [t Ht]; apply: leq_ltn_trans Ht. Qed.
Lemma p_Q_some t s : p_Q own w data longtime t s = Some (pod_Q own w dc longtime t s).
Proof.
rewrite /p_Q (@nsum_some2 _ size nloc _ (fun r (i : 'I_(nloc r)) => (d_mat own dc longtime r i t)^* * (d_mat own dc longtime r i s * w (own i) 0))) => [|r i]; last by rewrite !p_d_some.
congr Some; rewrite /pod_Q summxE; apply: eq_bigr => r _; rewrite [RHS]mxE; apply: eq_bigr => i _.
by rewrite !mxE; do ?congr (_ * _).
Qed.
End PodFit.
