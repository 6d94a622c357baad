(* Concrete cases meeting the hypotheses of C109-C111, C113, C114 (theorems in Prop_Optimal, Prop_Optimal2). *)
From mathcomp Require Import all_ssreflect all_algebra.
From Verif Require Import Base_CRing Model_Spod Spec_Spod Spec_Stream Proof_Spod Proof_Spectral Proof_StreamAlg Proof_Svd Proof_Dft Proof_Spod2 Proof_Optimal Proof_Optimal2 Prop_Optimal Prop_Optimal2 Prop_Spectrum.
Set Implicit Arguments.
Unset Strict Implicit.
Unset Printing Implicit Defensive.
Import GRing.Theory Num.Theory Order.TTheory.
Local Open Scope ring_scope.
(* ---- concrete cases for C109-C111: one entry of weight one, two snapshots equal to one, two blocks of one snapshot.  Any
   solver and sorting routine as required report the eigenvalues 1 and 0: distinct, the second one beyond the number of entries ---- *)
Section Cases.
Variable C : numClosedFieldType.
Definition one_point : config C := Config 2 1 0 2 1 2 Zero false 0 (fun _ => 1) true 1 0 (fun _ x => x).
Definition ones : nat -> 'I_1 -> C := fun _ _ => 1.
Lemma one_point_hat b f : block_hat one_point (fun t => ones t 0) b f = 1.
Proof.
rewrite /block_hat /win_weight /dft !big_ord1 /=.
rewrite /block_windowed /block_normalized /block_centred /= subr0 /ones.
by rewrite ?muln0 ?expr0 ?expr1n ?mulr1 ?divr1 ?invr1 ?mul1r.
Qed.
Lemma one_point_gram f : gram (q_hat one_point ones f) (const_mx 1) = const_mx 2%:R^-1.
Proof.
apply/matrixP => i j; rewrite /gram !mxE big_ord1 !mxE.
by rewrite [X in block_hat _ X _ _]/= one_point_hat one_point_hat conjC1 !mulr1.
Qed.
Example C109_C110_C111_nonvacuous eig argsort : eig_ok eig -> eig_basis eig -> argsort_ok argsort ->
  let lam k := run_L (c := one_point) eig argsort (size := 1) (fun _ (i : 'I_1) => i) ones (const_mx 1) 0 0 k in
  lam ord0 = 1 /\ lam ord_max = 0 /\ (forall j k, j != k -> lam j != lam k) /\
  (#|[pred i | (0 < (const_mx 1 : 'cV[C]_1) i 0)%R]| <= (ord_max : 'I_2))%N.
Proof.
move=> He Hb Hs lam.
have Hw (i : 'I_1) : 0 <= (const_mx 1 : 'cV[C]_1) i 0 by rewrite mxE ler01.
pose V : 'M[C]_2 := \matrix_(i, j) (if (i == ord_max) && (j == ord_max) then -1 else 1).
pose d : 'rV[C]_2 := \row_k (k == ord0)%:R.
have H2 : (2%:R : C) != 0 by rewrite pnatr_eq0.
have E : run_L (c := one_point) eig argsort (size := 1) (fun _ (i : 'I_1) => i) ones (const_mx 1) 0 = d.
  apply: (run_L_unique (c := one_point) (@serial_partition 1) (X := ones) Hw He Hb Hs (f := 0%N) (V := V) (d := d)).
  - rewrite unitmxE (expand_det_row _ ord0) !big_ord_recl big_ord0 /cofactor !det_mx11 !mxE /= unitfE.
    rewrite (_ : (0 + bump 0 0)%N = 1%N) // (_ : (0 + 0)%N = 0%N) // expr0 expr1 addr0 !mul1r mulr1.
    by rewrite -opprD oppr_eq0 -[1 + 1]/(2%:R).
  - rewrite one_point_gram; apply/matrixP => i j; rewrite mul_mx_diag !mxE !big_ord_recl big_ord0 !mxE /= addr0.
    rewrite -mulrDr; case: (unliftP ord0 j) => [k ->|->]; rewrite ?ord1 /= ?andbF /=.
    + by rewrite subrr !mulr0.
    + by rewrite -[1 + 1]/(2%:R) mulVf // mulr1.
  - move=> i j Hij; rewrite !mxE; case: (unliftP ord0 j) Hij => [k ->|->]; first by rewrite /= ler0n.
    by rewrite leqn0 => /eqP Hi; have -> : i = ord0 by apply: val_inj.
have L0 : lam ord0 = 1 by rewrite /lam E mxE.
have L1 : lam ord_max = 0 by rewrite /lam E mxE.
split=> //; split=> //; split.
- have H01 k : k = ord0 \/ k = ord_max :> 'I_2.
    by case: k => [[|[|k]] Hk] //; [left|right]; apply: val_inj.
  have N : lam ord0 != lam ord_max by rewrite L0 L1 oner_neq0.
  by move=> j k; case: (H01 j) => ->; case: (H01 k) => -> //; rewrite ?eqxx // => _; rewrite eq_sym.
- by rewrite (leq_trans (max_card _)) // card_ord.
Qed.

(* C113: the long-time mean of a record of two blocks; C114: four real snapshots in one block, every frequency requested *)
Example C113_nonvacuous : let c : config C := Config 2 1 0 2 1 2 Longtime false 0 (fun _ => 1) true 1 0 (fun _ x => x) in
  (0 < n_dft c)%N /\ (0 < nt c)%N /\ mean_type c <> Zero.
Proof. by []. Qed.
Example C114_nonvacuous : exists c : config C,
  [/\ (n_dft c).-primitive_root (omega c), forall k, Model_Spod.window c k \is Num.real, isrealx c, n_freq c = n_dft c & (2 < n_dft c)%N] /\
  forall t (x : 'I_2), ((t + x)%:R : C) \is Num.real.
Proof.
have [w Hw] := prim_root_exists C (isT : (0 < 4)%N).
exists (Config 4 4 0 1 4 1 Zero false 0 (fun _ => 1) true w 0 (fun _ x => x)); split; first split=> //=.
- by move=> k; exact: real1.
- by move=> t x; exact: realn.
Qed.
End Cases.
