(* Proofs about Model_Spod: independence of the communicator, Hermitian positive semidefinite matrix,
   orthonormal modes, ordering. *)
From mathcomp Require Import all_ssreflect all_algebra.
From Verif Require Import Base_CRing Model_Spod Spec_Spod.
Set Implicit Arguments.
Unset Strict Implicit.
Unset Printing Implicit Defensive.
Import GRing.Theory Num.Theory Order.TTheory.
Local Open Scope ring_scope.

Section LA.
Variable C : numClosedFieldType.
Add Ring Cring : (cr_th C).
Ltac cring := cr_norm C; ring.

Lemma gramE m nb (Q : 'M[C]_(m, nb)) w a b :
  gram Q w a b = (nb%:R)^-1 * \sum_i ((Q i a)^* * Q i b * w i 0).
Proof.
rewrite /gram !mxE; congr (_ * _); apply: eq_bigr => i _.
by rewrite /adj /wmul !mxE mulrA.
Qed.

Section Ranks.
Variables (size n : nat) (nloc : 'I_size -> nat) (own : forall r : 'I_size, 'I_(nloc r) -> 'I_n).
Hypothesis Hown : partition_of own.
Lemma sum_ranks (F : 'I_n -> C) : \sum_(r < size) \sum_(k < nloc r) F (own k) = \sum_i F i.
Proof.
rewrite (reindex (fun p : {r : 'I_size & 'I_(nloc r)} => own (tagged p))) /=; last exact: onW_bij.
rewrite (sig_big_dep (fun _ => true) (fun _ _ => true) (fun r k => F (own k))) /=.
by apply: eq_bigl.
Qed.
Lemma gram_ranks nb (Q : 'M[C]_(n, nb)) (w : 'cV[C]_n) :
  \sum_(r < size) gram (rowsub (@own r) Q) (\col_i w (own i) 0) = gram Q w.
Proof.
apply/matrixP => a b; rewrite summxE gramE -(sum_ranks (fun i => (Q i a)^* * Q i b * w i 0)) mulr_sumr.
by apply: eq_bigr => r _; rewrite gramE; congr (_ * _); apply: eq_bigr => i _; rewrite !mxE.
Qed.
Lemma q_hat_local (c : config C) X r f :
  q_hat c (@local_X C size n nloc own X r) f = rowsub (@own r) (q_hat c X f).
Proof. by apply/matrixP => i b; rewrite !mxE. Qed.
Lemma reduced_gram (c : config C) X w f : reduced_M c own X w f = gram (q_hat c X f) w.
Proof. by rewrite /reduced_M -gram_ranks; apply: eq_bigr => r _; rewrite q_hat_local. Qed.
End Ranks.

Lemma serial_partition n : partition_of (size := 1) (fun _ (i : 'I_n) => i).
Proof.
exists (fun i => existT (fun _ : 'I_1 => 'I_n) ord0 i) => // [[r i]] /=.
by rewrite (ord1 r).
Qed.

Lemma gram_herm m nb (Q : 'M[C]_(m, nb)) (w : 'cV[C]_m) : (forall i, 0 <= w i 0) -> hermitian (gram Q w).
Proof.
move=> Hw a b; rewrite !gramE rmorphM fmorphV rmorph_nat rmorph_sum; congr (_ * _).
apply: eq_bigr => i _; rewrite !rmorphM conjCK [in RHS](CrealP (ger0_real (Hw i))) //.
by rewrite [(Q i a)^* * _]mulrC.
Qed.
Lemma quad_gram m nb (Q : 'M[C]_(m, nb)) (w : 'cV[C]_m) (u : 'I_nb -> C) :
  \sum_i \sum_j (u i)^* * gram Q w i j * u j
  = (nb%:R)^-1 * \sum_x `|\sum_j Q x j * u j| ^+ 2 * w x 0.
Proof.
transitivity (\sum_i \sum_j \sum_x (nb%:R)^-1 * ((Q x i * u i)^* * (Q x j * u j) * w x 0)).
  apply: eq_bigr => i _; apply: eq_bigr => j _; rewrite gramE mulr_sumr mulr_sumr mulr_suml.
  apply: eq_bigr => x _; rewrite rmorphM /=.
  by rewrite mulrCA -!mulrA; congr (_ * _); rewrite !mulrA [(u i)^* * _]mulrC -!mulrA; congr (_ * (_ * _));
     congr (_ * _); rewrite mulrC.
rewrite mulr_sumr; under eq_bigr do rewrite exchange_big /=.
rewrite exchange_big /=; apply: eq_bigr => x _.
rewrite normCK [X in X * w x 0]mulrC rmorph_sum big_distrlr /= mulr_suml mulr_sumr.
by apply: eq_bigr => i _; rewrite mulr_suml mulr_sumr; apply: eq_bigr => j _.
Qed.
Lemma gram_psd m nb (Q : 'M[C]_(m, nb)) (w : 'cV[C]_m) : (forall i, 0 <= w i 0) -> psd (gram Q w).
Proof.
move=> Hw u; rewrite quad_gram mulr_ge0 ?invr_ge0 ?ler0n ?sumr_ge0 // => x _.
by rewrite mulr_ge0 ?exprn_ge0.
Qed.
(* u^H M v *)
Definition form n (M : 'M[C]_n) (u v : 'I_n -> C) : C := \sum_i \sum_j (u i)^* * M i j * v j.
Lemma form_eigen n (M : 'M[C]_n) (u v : 'cV[C]_n) lam : M *m v = lam *: v ->
  form M (fun i => u i 0) (fun i => v i 0) = lam * \sum_i (u i 0)^* * v i 0.
Proof.
move=> E; rewrite /form mulr_sumr; apply: eq_bigr => i _.
have := congr1 (fun A : 'cV[C]_n => A i 0) E; rewrite !mxE => Ei.
rewrite mulrCA -Ei mulr_sumr; by apply: eq_bigr => j _; rewrite mulrA.
Qed.
Lemma form_herm n (M : 'M[C]_n) u v : hermitian M -> form M u v = (form M v u)^*.
Proof.
move=> H; rewrite /form rmorph_sum /= exchange_big /=; apply: eq_bigr => i _.
rewrite rmorph_sum /=; apply: eq_bigr => j _.
by rewrite !rmorphM conjCK -(H j i) mulrC [X in _ * X]mulrC mulrA.
Qed.
Lemma normsq n (v : 'I_n -> C) : \sum_i (v i)^* * v i = \sum_i `|v i| ^+ 2.
Proof. by apply: eq_bigr => i _; rewrite normCK mulrC. Qed.
Lemma normsq_gt0 n (v : 'cV[C]_n) : v != 0 -> 0 < \sum_i `|v i 0| ^+ 2.
Proof.
move=> Hv; rewrite lt_neqAle sumr_ge0 ?andbT; last by move=> i _; exact: exprn_ge0.
apply: contra Hv; rewrite eq_sym psumr_eq0; last by move=> i _; exact: exprn_ge0.
move/allP => H; apply/eqP/matrixP => i j; rewrite (ord1 j) mxE.
by have := H i (mem_index_enum i); rewrite sqrf_eq0 normr_eq0 => /eqP.
Qed.
Lemma psd_eigen n (M : 'M[C]_n) (v : 'cV[C]_n) lam : psd M -> v != 0 -> M *m v = lam *: v -> 0 <= lam.
Proof.
move=> Hp Hv E; have := Hp (fun i => v i 0); rewrite -/(form M _ _) (form_eigen v E) normsq.
by rewrite pmulr_lge0 ?normsq_gt0.
Qed.
Lemma herm_orth n (M : 'M[C]_n) (u v : 'cV[C]_n) lu lv : hermitian M ->
  M *m u = lu *: u -> M *m v = lv *: v -> lu \is Num.real -> lv != lu -> \sum_i (u i 0)^* * v i 0 = 0.
Proof.
move=> H Eu Ev Hr Hne; have := form_herm (fun i => u i 0) (fun i => v i 0) H.
rewrite (form_eigen u Ev) (form_eigen v Eu) rmorphM (CrealP Hr).
have -> : (\sum_i (v i 0)^* * u i 0)^* = \sum_i (u i 0)^* * v i 0.
  by rewrite rmorph_sum; apply: eq_bigr => i _; rewrite rmorphM conjCK mulrC.
move/eqP; rewrite -subr_eq0 -mulrBl mulf_eq0 subr_eq0 (negbTE Hne) /= => /eqP //.
Qed.
(* modes *)
Lemma wip_modes m nb (Q : 'M[C]_(m, nb)) (w : 'cV[C]_m) (L : 'rV[C]_nb) (V : 'M[C]_nb) j k : (0 < nb)%N ->
  0 <= L 0 j -> 0 <= L 0 k ->
  wip w (all_modes Q L V) (all_modes Q L V) j k
  = form (gram Q w) (fun a => V a j) (fun b => V b k) / (sqrtC (L 0 j) * sqrtC (L 0 k)).
Proof.
move=> Hnb Hj Hk; set sn := sqrtC (nb%:R : C).
have Hsn : sn ^+ 2 = nb%:R by rewrite sqrtCK.
have Hsn0 : sn != 0 by rewrite sqrtC_eq0 pnatr_eq0 -lt0n.
have Hsr : sn^* = sn by apply/CrealP/ger0_real; rewrite sqrtC_ge0 ler0n.
have Hr l : 0 <= L 0 l -> (sqrtC (L 0 l))^* = sqrtC (L 0 l).
  by move=> Hl; apply/CrealP/ger0_real; rewrite sqrtC_ge0.
pose d l := (sn * sqrtC (L 0 l))^-1.
have Hd : (d j)^* = d j by rewrite /d fmorphV rmorphM Hsr Hr.
transitivity ((d j * d k) * \sum_a \sum_b \sum_i (V a j)^* * ((Q i a)^* * Q i b * w i 0) * V b k).
  rewrite /wip.
  transitivity (\sum_i \sum_a \sum_b d j * d k * ((V a j)^* * ((Q i a)^* * Q i b * w i 0) * V b k)).
    apply: eq_bigr => i _; rewrite /all_modes !mxE rmorph_sum big_distrlr /= mulr_suml.
    apply: eq_bigr => a _; rewrite mulr_suml; apply: eq_bigr => b _.
    rewrite !mxE !rmorphM -/(d k) -/(d j) Hd.
    cring.
  rewrite exchange_big /= mulr_sumr; apply: eq_bigr => a _.
  rewrite exchange_big /= mulr_sumr; apply: eq_bigr => b _.
  by rewrite mulr_sumr.
rewrite /form.
have -> : \sum_a \sum_b \sum_i (V a j)^* * ((Q i a)^* * Q i b * w i 0) * V b k
   = nb%:R * \sum_i \sum_j0 (V i j)^* * gram Q w i j0 * V j0 k.
  rewrite mulr_sumr; apply: eq_bigr => a _; rewrite mulr_sumr; apply: eq_bigr => b _.
  rewrite gramE -mulr_suml -mulr_sumr.
  have Hn : (nb%:R : C) * nb%:R^-1 = 1 by rewrite mulfV ?pnatr_eq0 -?lt0n.
  move: (\sum_i _) => S0.
  transitivity ((nb%:R * nb%:R^-1) * ((V a j)^* * S0 * V b k)); first by rewrite Hn mul1r.
  cring.
move: (\sum_i _) => S0; rewrite /d invfM invfM -Hsn.
have Hn : sn * sn^-1 = 1 by rewrite mulfV.
rewrite expr2 [in RHS]mulrC invfM.
transitivity ((sn * sn^-1) * (sn * sn^-1) * S0 * ((sqrtC (L 0 j))^-1 * (sqrtC (L 0 k))^-1)); first cring.
by rewrite Hn !mul1r mulrC.
Qed.

Lemma eigenpair_ge0 n (M : 'M[C]_n) L V : psd M -> eigenpairs M L V -> forall k, 0 <= L 0 k.
Proof.
move=> Hp [He Hu] k; apply: (psd_eigen Hp _ (He k)); apply/eqP => E0.
move: (Hu k); rewrite big1 ?(eqxx, oner_neq0) => [/eqP|i _]; first by rewrite eq_sym oner_eq0.
by have := congr1 (fun A : 'cV[C]_n => A i 0) E0; rewrite !mxE => ->; rewrite normr0 expr0n.
Qed.

Section RunProofs.
Variables (size : nat) (c : config C).
Variable eig : 'M[C]_(n_blocks c) -> 'rV[C]_(n_blocks c) * 'M[C]_(n_blocks c).
Variable argsort : 'rV[C]_(n_blocks c) -> 'I_(n_blocks c) -> 'I_(n_blocks c).
Variables (n : nat) (nloc : 'I_size -> nat) (own : forall r : 'I_size, 'I_(nloc r) -> 'I_n).
Hypothesis Hown : partition_of own.
Variable X : nat -> 'I_n -> C.
Variable w : 'cV[C]_n.

Lemma reduced_serial f : reduced_M c own X w f = serial_M c X w f.
Proof. by rewrite (reduced_gram Hown) /serial_M (reduced_gram (@serial_partition n)). Qed.
Lemma run_L_serial f : run_L eig argsort own X w f = run_L eig argsort (size := 1) (fun _ (i : 'I_n) => i) X w f.
Proof. by rewrite /run_L reduced_serial. Qed.
Lemma run_V_serial f : run_V eig argsort own X w f = run_V eig argsort (size := 1) (fun _ (i : 'I_n) => i) X w f.
Proof. by rewrite /run_V reduced_serial. Qed.
Lemma eigs_serial f : run_eigs eig argsort own X w f = serial_eigs eig argsort X w f.
Proof. by rewrite /run_eigs run_L_serial. Qed.
Lemma modes_serial r f H (i : 'I_(nloc r)) k :
  run_modes eig argsort own X w r f H i k = serial_modes eig argsort X w ord0 f H (own i) k.
Proof.
rewrite /serial_modes /run_modes /kept_modes !mxE run_L_serial run_V_serial.
by apply: eq_bigr => b _; rewrite !mxE.
Qed.

Hypothesis Hw : forall i, 0 <= w i 0.
Hypothesis Heig : eig_ok eig.
Hypothesis Hsort : argsort_ok argsort.
Notation M f := (serial_M c X w f).
Lemma serial_gram f : M f = gram (q_hat c X f) w.
Proof. exact: reduced_gram (@serial_partition n) _ _ _ _. Qed.
Lemma raw_ge0 f k : 0 <= (eig (M f)).1 0 k.
Proof. by apply: eigenpair_ge0 (Heig _) _; rewrite serial_gram; [exact: gram_psd|exact: gram_herm]. Qed.
Lemma sorted_ok f : let L := (eig (M f)).1 in
  injective (order argsort L) /\ forall i j : 'I_(n_blocks c), (i <= j)%N -> sort_L argsort L 0 j <= sort_L argsort L 0 i.
Proof.
move=> L; have [Hi Hs] := Hsort (fun k => ger0_real (raw_ge0 f k)).
split; first by move=> a b /Hi /rev_ord_inj.
move=> i j Hij; rewrite !mxE; apply: Hs => /=.
by rewrite leq_sub2l.
Qed.
Lemma run_L_ge0 f k : 0 <= run_L eig argsort own X w f 0 k.
Proof. by rewrite /run_L reduced_serial mxE raw_ge0. Qed.
Lemma run_eigenpairs f : eigenpairs (M f) (run_L eig argsort own X w f) (run_V eig argsort own X w f).
Proof.
rewrite /run_L /run_V reduced_serial; have HM : hermitian (M f) by rewrite serial_gram; apply: gram_herm.
have [He Hu] := Heig HM.
split=> k.
  rewrite mxE; have -> : col k (sort_V argsort (eig (M f)).1 (eig (M f)).2) = col (order argsort (eig (M f)).1 k) (eig (M f)).2.
    by apply/matrixP => i j; rewrite !mxE.
  exact: He.
rewrite -(Hu (order argsort (eig (M f)).1 k)); apply: eq_bigr => i _; by rewrite mxE.
Qed.
Lemma one_sided_gt0 f : 0 < one_sided c f.
Proof. by rewrite /one_sided; case: ifP => _; rewrite ?ltr0n ?ltr01. Qed.
Lemma run_eigsE f k : run_eigs eig argsort own X w f 0 k = one_sided c f * run_L eig argsort own X w f 0 k.
Proof. by rewrite /run_eigs mxE ger0_norm // mulr_ge0 ?run_L_ge0 ?ltW ?one_sided_gt0. Qed.
Lemma run_L_sorted f (i j : 'I_(n_blocks c)) : (i <= j)%N -> run_L eig argsort own X w f 0 j <= run_L eig argsort own X w f 0 i.
Proof. by rewrite /run_L reduced_serial; case: (sorted_ok f) => _; apply. Qed.
End RunProofs.

Lemma form_unit n (M : 'M[C]_n) (V : 'M[C]_n) (L : 'rV[C]_n) j k : eigenpairs M L V ->
  form M (fun a => V a j) (fun b => V b k) = L 0 k * \sum_a (V a j)^* * V a k.
Proof.
case=> He _; have := form_eigen (col j V) (He k); rewrite /form.
under eq_bigr do under eq_bigr do rewrite !mxE.
by move=> ->; congr (_ * _); apply: eq_bigr => i _; rewrite !mxE.
Qed.
Lemma modes_orth m nb (Q : 'M[C]_(m, nb)) (w : 'cV[C]_m) (L : 'rV[C]_nb) (V : 'M[C]_nb) j k : (0 < nb)%N ->
  (forall i, 0 <= w i 0) -> eigenpairs (gram Q w) L V -> 
  0 < L 0 j -> 0 < L 0 k -> (j = k \/ L 0 j != L 0 k) ->
  wip w (all_modes Q L V) (all_modes Q L V) j k = (j == k)%:R.
Proof.
move=> Hnb Hw He Hj Hk Hjk; rewrite (wip_modes _ _ _ Hnb) ?ltW // (form_unit _ _ He).
case: (eqVneq j k) Hjk => [<-|Hne] Hjk.
  rewrite normsq (proj2 He j) mulr1 -expr2 sqrtCK divff //; exact: lt0r_neq0.
case: Hjk => [/eqP|Hl]; first by rewrite (negbTE Hne).
have H0 : \sum_a (V a j)^* * V a k = 0.
  have := herm_orth (gram_herm Q Hw) (proj1 He j) (proj1 He k) (gtr0_real Hj).
  rewrite eq_sym => /(_ Hl); under eq_bigr do rewrite !mxE.
  by [].
by rewrite H0 mulr0 mul0r.
Qed.
(* the modes are eigenvectors of the weighted cross-spectral density Q Q^H W / nb *)
Lemma modes_csd m nb (Q : 'M[C]_(m, nb)) (w : 'cV[C]_m) (L : 'rV[C]_nb) (V : 'M[C]_nb) k : (0 < nb)%N ->
  eigenpairs (gram Q w) L V ->
  forall x, \sum_y (nb%:R)^-1 * (\sum_b Q x b * (Q y b)^* ) * w y 0 * all_modes Q L V y k = L 0 k * all_modes Q L V x k.
Proof.
move=> Hnb [He _] x.
transitivity ((Q *m (gram Q w *m col k V)) x 0 * (sqrtC nb%:R * sqrtC (L 0 k))^-1); last first.
  rewrite He -scalemxAr mxE -mulrA; congr (_ * _); rewrite /all_modes !mxE mulr_suml.
  by apply: eq_bigr => b _; rewrite !mxE mulrA.
rewrite !mxE mulr_suml; under [RHS]eq_bigr do rewrite !mxE mulr_sumr mulr_suml.
rewrite /all_modes; set d := (sqrtC nb%:R * _)^-1.
transitivity (\sum_y \sum_b \sum_a (nb%:R)^-1 * Q x b * (Q y b)^* * w y 0 * Q y a * V a k * d).
  apply: eq_bigr => y _; rewrite mxE mulr_sumr exchange_big /= ; apply: eq_bigr => a _.
  rewrite !mxE -/d mulr_sumr !mulr_suml; apply: eq_bigr => b _; cring.
rewrite exchange_big /=; apply: eq_bigr => b _; rewrite exchange_big /=; apply: eq_bigr => a _.
rewrite gramE mulr_sumr mulr_suml mulr_sumr mulr_suml; apply: eq_bigr => y _.
rewrite mxE; cring.
Qed.
End LA.
