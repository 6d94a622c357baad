(* DFT over a numClosedFieldType: Parseval, conjugate symmetry for real sequences, one-sided sums. *)
From mathcomp Require Import all_ssreflect all_algebra.
From Verif Require Import Base_CRing Model_Spod Spec_Spod Proof_Spod.
Set Implicit Arguments.
Unset Strict Implicit.
Unset Printing Implicit Defensive.
Import GRing.Theory Num.Theory Order.TTheory.
Local Open Scope ring_scope.

Section Dft.
Variable C : numClosedFieldType.
Add Ring Cring : (cr_th C).
Ltac cring := cr_norm C; ring.
Variables (w : C) (n : nat).
Hypothesis Hw : n.-primitive_root w.

Lemma n_gt0 : (0 < n)%N. Proof. exact: prim_order_gt0 Hw. Qed.
Lemma w_norm : `|w| = 1.
Proof.
apply/eqP; rewrite -(@pexpr_eq1 _ _ n) ?n_gt0 // -normrX (prim_expr_order Hw) normr1 //.
Qed.
Lemma w_neq0 : w != 0.
Proof. by rewrite -normr_eq0 w_norm oner_eq0. Qed.
Lemma w_conj : w^* = w^-1.
Proof. by rewrite invC_norm w_norm expr1n invr1 mul1r. Qed.
Lemma geom (z : C) : z ^+ n = 1 -> z != 1 -> \sum_(f < n) z ^+ f = 0.
Proof.
move=> Hz Hne; have := subrX1 z n; rewrite Hz subrr => /esym/eqP.
by rewrite mulf_eq0 subr_eq0 (negbTE Hne) /= => /eqP.
Qed.
Lemma w_orth (k l : 'I_n) : \sum_(f < n) w ^+ (f * k) * (w ^+ (f * l))^* = (if k == l then n%:R else 0).
Proof.
have E f : w ^+ (f * k) * (w ^+ (f * l))^* = (w ^+ k * (w ^+ l)^-1) ^+ f.
  by rewrite rmorphX w_conj exprMn exprVn exprVn -!exprM ![(_ * f)%N]mulnC.
under eq_bigr do rewrite E.
case: eqVneq => [->|Hne].
  rewrite divff ?expf_neq0 ?w_neq0 //; under eq_bigr do rewrite expr1n.
  by rewrite sumr_const card_ord.
apply: geom.
  by rewrite exprMn exprVn -!exprM ![(_ * n)%N]mulnC !exprM (prim_expr_order Hw) !expr1n invr1 mulr1.
apply: contra Hne => /eqP H1; apply/eqP/val_inj => /=.
have : w ^+ k = w ^+ l by rewrite -[LHS]mulr1 -(@mulVf _ (w ^+ l)) ?expf_neq0 ?w_neq0 // mulrA H1 mul1r.
move/eqP; rewrite (eq_prim_root_expr Hw) => /eqP; by rewrite !modn_small.
Qed.
Lemma parseval q : \sum_(f < n) `|dft w n q f| ^+ 2 = n%:R * \sum_(k < n) `|q k| ^+ 2.
Proof.
transitivity (\sum_(k < n) \sum_(l < n) q k * (q l)^* * \sum_(f < n) w ^+ (f * k) * (w ^+ (f * l))^*).
  rewrite [RHS](eq_bigr (fun k : 'I_n => \sum_(f < n) \sum_(l < n) q k * (q l)^* * (w ^+ (f * k) * (w ^+ (f * l))^*))); last first.
    by move=> k _; rewrite exchange_big; apply: eq_bigr => l _; rewrite mulr_sumr.
  rewrite exchange_big /=; apply: eq_bigr => f _.
  rewrite normCK /dft rmorph_sum big_distrlr /=; apply: eq_bigr => k _; apply: eq_bigr => l _.
  rewrite rmorphM; cring.
rewrite mulr_sumr; apply: eq_bigr => k _; under eq_bigr do rewrite w_orth.
rewrite (bigD1 k) //= eqxx big1 ?addr0 => [|l Hl]; last by rewrite eq_sym (negbTE Hl) mulr0.
by rewrite normCK mulrC.
Qed.
Lemma dft_sym q f : (forall k, (k < n)%N -> q k \is Num.real) -> (f <= n)%N -> `|dft w n q (n - f)| = `|dft w n q f|.
Proof.
move=> Hq Hf; rewrite -[RHS]norm_conjC; congr (`|_|); rewrite /dft rmorph_sum; apply: eq_bigr => k _.
rewrite rmorphM (CrealP (Hq k (ltn_ord k))) rmorphX w_conj; congr (_ * _).
apply: (mulIf (expf_neq0 (f * k) w_neq0)); rewrite exprVn mulVf ?expf_neq0 ?w_neq0 //.
by rewrite -exprD -mulnDl subnK // exprM (prim_expr_order Hw) expr1n.
Qed.
End Dft.

Section OneSided.
Variable C : numClosedFieldType.
Add Ring Cring2 : (cr_th C).
Ltac cring := cr_norm C; ring.
Variable E : nat -> C.
Definition os (nf f : nat) : C := if (0 < f)%N && (f < nf.-1)%N then 2 else 1.
(* doubling the interior *)
Lemma os_sum nf : (1 < nf)%N -> \sum_(f < nf) os nf f * E f = 2 * (\sum_(f < nf) E f) - E 0 - E nf.-1.
Proof.
case: nf => [|[|m]] // _.
rewrite big_ord_recl [X in _ = _ * X - _ - _]big_ord_recl.
rewrite big_ord_recr [X in _ = _ * (_ + X) - _ - _]big_ord_recr /= /os /= /bump /= !add1n ltnn /=.
have -> : \sum_(i < m) (if (0 < bump 0 i)%N && (bump 0 i < m.+1)%N then 2 else 1) * E (bump 0 i) = 2 * \sum_(i < m) E (bump 0 i).
  by rewrite mulr_sumr; apply: eq_bigr => i _; rewrite /bump /= !add1n ltnS ltn_ord.
move: (\sum_(i < m) _) => S.
have -> : (2 : C) = 1 + 1 by [].
by rewrite /bump /=; cring.
Qed.
Variable n : nat.
Hypothesis Hsym : forall f, (f <= n)%N -> E (n - f) = E f.
Lemma even_sum h : (0 < h)%N -> n = h.*2 -> \sum_(f < h.+1) os h.+1 f * E f = \sum_(f < n) E f.
Proof.
move=> Hh En; rewrite os_sum ?ltnS //=.
have -> : \sum_(f < n) E f = \sum_(f < h) E f + \sum_(f < h) E (h + f)%N.
  by rewrite En -addnn big_split_ord /=.
have -> : \sum_(f < h) E (h + f)%N = \sum_(f < h) E f - E 0 + E h.
  rewrite (reindex_inj rev_ord_inj) /=.
  transitivity (\sum_(f < h) E f.+1).
    apply: eq_bigr => f _; rewrite -(Hsym (f := f.+1)); last by rewrite En -addnn (leq_trans (ltn_ord f)) ?leq_addr.
    by congr E; rewrite En -addnn addnBA.
  case: h Hh {En} => // h _; rewrite big_ord_recr [X in _ = X - _ + _]big_ord_recl /=.
  by rewrite addrC; cring.
rewrite big_ord_recr /=; move: (\sum_(f < h) _) => S.
have -> : (2 : C) = 1 + 1 by [].
cring.
Qed.
Lemma odd_sum h : (0 < h)%N -> n = h.*2.+1 -> \sum_(f < h.+1) os h.+1 f * E f = \sum_(f < n) E f - E h.
Proof.
move=> Hh En; rewrite os_sum ?ltnS //=.
have -> : \sum_(f < n) E f = \sum_(f < h.+1) E f + \sum_(f < h) E (h.+1 + f)%N.
  by rewrite En -addnn -addSn big_split_ord /=.
have -> : \sum_(f < h) E (h.+1 + f)%N = \sum_(f < h.+1) E f - E 0.
  rewrite (reindex_inj rev_ord_inj) /= [X in _ = X - _]big_ord_recl.
  transitivity (\sum_(f < h) E f.+1); last by cring.
  apply: eq_bigr => f _; rewrite -(Hsym (f := f.+1)); last by rewrite En ltnS -addnn (leq_trans _ (leq_addr _ _)) // ltnW.
  by congr E; rewrite En -addnn addnBA // addSn.
move: (\sum_(f < h.+1) _) => S.
have -> : (2 : C) = 1 + 1 by [].
cring.
Qed.
End OneSided.
