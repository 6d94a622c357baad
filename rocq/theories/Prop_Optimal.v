(* Property theorems C108-C114: what the SPOD eigenvalues and modes mean, and how they respond to the data. *)
From mathcomp Require Import all_ssreflect all_algebra.
From Verif Require Import Base_CRing Model_Spod Spec_Spod Spec_Stream Proof_Spod Proof_Spectral Proof_StreamAlg Proof_Svd Proof_Dft Proof_Spod2 Proof_Optimal Proof_Optimal2.
Set Implicit Arguments.
Unset Strict Implicit.
Unset Printing Implicit Defensive.
Import GRing.Theory Num.Theory Order.TTheory.
Local Open Scope ring_scope.

(* energy of the realizations q_0..q_(nb-1) (columns of Q) captured by the vectors psi_0..psi_(m-1):
   the average over the realizations of the sum of the squared moduli of their components *)
Definition captured (C : numClosedFieldType) n nb m (w : 'cV[C]_n) (Q : 'M[C]_(n, nb)) (psi : 'M[C]_(n, m)) : C :=
  nb%:R^-1 * \sum_(j < m) \sum_(b < nb) `|wip w psi Q j b| ^+ 2.
Definition realizations (C : numClosedFieldType) (c : config C) n (X : nat -> 'I_n -> C) f : 'M[C]_(n, n_blocks c) :=
  \matrix_(i, b) block_hat c (fun t => X t i) b f.

(* ---- C108 ---- *)
(* no m orthonormal fields capture more energy than the sum of the m leading eigenvalues *)
Theorem C108_no_orthonormal_set_captures_more : forall (C : numClosedFieldType) (size : nat) (c : config C) eig argsort n
    (nloc : 'I_size -> nat) (own : forall r, 'I_(nloc r) -> 'I_n) X (w : 'cV[C]_n) f m (psi : 'M[C]_(n, m)),
  partition_of own -> (0 < n_blocks c)%N -> (forall i, 0 <= w i 0) -> eig_ok eig -> eig_basis eig -> argsort_ok argsort ->
  (forall j k, wip w psi psi j k = (j == k)%:R) ->
  captured w (realizations c X f) psi <= \sum_(k < n_blocks c | (k < m)%N) run_L eig argsort own X w f 0 k.
Proof.
move=> C size c eig argsort n nloc own X w f m psi Hown Hnb Hw Heig Hinv Hsort Hpsi.
have HZ : adj (sw w psi) *m sw w psi = 1%:M by apply/matrixP => j k; rewrite sw_wip // Hpsi mxE.
have EV := run_diag argsort Hown X Hw Heig f; rewrite sw_gram // in EV.
have Ha : 0 < (n_blocks c)%:R^-1 :> C by rewrite invr_gt0 ltr0n.
have := ky_fan Ha HZ (run_V_unit Hown X Hw Heig Hinv Hsort f) EV (run_desc Hown X Hw Heig Hsort f).
rewrite /captured; under eq_bigr do under eq_bigr do rewrite sw_wip //.
by [].
Qed.
Print Assumptions C108_no_orthonormal_set_captures_more.
Section Captured.
Variable C : numClosedFieldType.
Add Ring Cring : (cr_th C).
Ltac cring := cr_norm C; ring.
Lemma captured_mode n nb (Q : 'M[C]_(n, nb)) (w : 'cV[C]_n) L V K :
  (0 < nb)%N -> (forall i, 0 <= w i 0) -> eigenpairs (gram Q w) L V -> 0 < L 0 K ->
  captured w Q (col K (all_modes Q L V)) = L 0 K.
Proof.
move=> Hnb Hw [He Hu]; set lam := L 0 K => Hlam; set s := sqrtC nb%:R * sqrtC lam.
have Hs2 : s * s = nb%:R * lam by rewrite mulrACA -!expr2 !sqrtCK.
have Hs0 : 0 < s by rewrite mulr_gt0 // sqrtC_gt0 ?ltr0n.
have Hsr : s^* = s by apply/CrealP/gtr0_real.
have Ephi i : all_modes Q L V i K = \sum_b Q i b * V b K / s.
  by rewrite /all_modes !mxE; apply: eq_bigr => b _; rewrite [in LHS]mxE mulrA.
have Hlr : lam^* = lam by apply/CrealP/gtr0_real.
have Ewip b : wip w (col K (all_modes Q L V)) Q 0 b = s^-1 * (nb%:R * lam) * (V b K)^*.
  have Hgc : \sum_a (V a K)^* * gram Q w a b = lam * (V b K)^*.
    have := congr1 (fun A : 'cV[C]_nb => (A b 0)^*) (He K); rewrite /= mxE [in RHS]mxE [in RHS]mxE rmorphM -/lam Hlr.
    move=> <-; rewrite rmorph_sum; apply: eq_bigr => a _; rewrite [col K V a 0]mxE rmorphM mulrC; congr (_ * _).
    exact: gram_herm.
  rewrite -mulrA -[nb%:R * lam * _]mulrA -Hgc /wip.
  under eq_bigr do rewrite mxE Ephi rmorph_sum !mulr_suml.
  rewrite exchange_big /= !mulr_sumr; apply: eq_bigr => a _.
  have Hn : (nb%:R : C) * nb%:R^-1 = 1 by rewrite mulfV ?pnatr_eq0 -?lt0n.
  rewrite gramE; transitivity (nb%:R * nb%:R^-1 * (s^-1 * ((V a K)^* * \sum_i (Q i a)^* * Q i b * w i 0))); last first.
    move: (\sum_i _) => S0; cring.
  rewrite Hn mul1r !mulr_sumr; apply: eq_bigr => i _; rewrite !rmorphM fmorphV Hsr.
  cring.
rewrite /captured big_ord1; under eq_bigr do rewrite Ewip normrM exprMn.
rewrite -mulr_sumr.
have -> : \sum_b `|(V b K)^*| ^+ 2 = 1 by rewrite -(Hu K); apply: eq_bigr => b _; rewrite norm_conjC.
have Es : s^-1 * (nb%:R * lam) = s by rewrite -Hs2 mulrA mulVf ?mul1r ?gt_eqF.
rewrite mulr1 Es ger0_norm ?ltW // expr2 Hs2 mulrA mulVf ?mul1r //.
by rewrite pnatr_eq0 -lt0n.
Qed.

(* a mode of zero eigenvalue vanishes where the weight is positive *)
Lemma zero_mode n nb (Q : 'M[C]_(n, nb)) (w : 'cV[C]_n) (v : 'cV[C]_nb) x :
  (0 < nb)%N -> (forall i, 0 <= w i 0) -> gram Q w *m v = 0 -> 0 < w x 0 -> (Q *m v) x 0 = 0.
Proof.
move=> Hnb Hw; rewrite sw_gram // -scalemxAl => /eqP; rewrite scaler_eq0 invr_eq0 pnatr_eq0 -[nb == 0%N]negbK -lt0n Hnb /=.
move/eqP => E; have E2 : adj (sw w Q *m v) *m (sw w Q *m v) = 0.
  by rewrite adjM -mulmxA (mulmxA (adj (sw w Q))) E mulmx0.
move=> Hx; have := congr1 (fun A : 'cV[C]_n => A x 0) (adj_mul_eq0 E2).
have -> : (sw w Q *m v) x 0 = sqrtC (w x 0) * (Q *m v) x 0.
  by rewrite !mxE mulr_sumr; apply: eq_bigr => b _; rewrite mxE mulrA.
by rewrite /= [RHS]mxE => /eqP; rewrite mulf_eq0 sqrtC_eq0 gt_eqF //= => /eqP.
Qed.
Lemma csd_expand n nb (Q : 'M[C]_(n, nb)) (w : 'cV[C]_n) L V x y :
  (0 < nb)%N -> (forall i, 0 <= w i 0) -> eigenpairs (gram Q w) L V -> adj V *m V = 1%:M -> 0 < w x 0 -> 0 < w y 0 ->
  nb%:R^-1 * (\sum_b Q x b * (Q y b)^* ) = \sum_(k < nb | 0 < L 0 k) L 0 k * all_modes Q L V x k * (all_modes Q L V y k)^*.
Proof.
move=> Hnb Hw He HV Hx Hy; have HV' : V *m adj V = 1%:M by apply: mulmx1C.
have HL := eigenpair_ge0 (gram_psd Q Hw) He.
have -> : \sum_b Q x b * (Q y b)^* = \sum_k (Q *m V) x k * ((Q *m V) y k)^*.
  transitivity ((Q *m adj Q) x y); first by rewrite mxE; apply: eq_bigr => b _; rewrite [in RHS]mxE.
  transitivity ((Q *m V *m adj (Q *m V)) x y); last by rewrite mxE; apply: eq_bigr => b _; rewrite [in RHS]mxE; congr (_ * _); rewrite [LHS]mxE.
  by rewrite adjM mulmxA -(mulmxA Q) HV' mulmx1.
rewrite mulr_sumr [RHS]big_mkcond /=; apply: eq_bigr => k _.
case: ifP => Hk.
  set s := sqrtC nb%:R * sqrtC (L 0 k).
  have Hs2 : s * s = nb%:R * L 0 k by rewrite mulrACA -!expr2 !sqrtCK.
  have Hs0 : 0 < s by rewrite mulr_gt0 // sqrtC_gt0 ?ltr0n.
  have Hsr : s^* = s by apply/CrealP/gtr0_real.
  have Ephi i : all_modes Q L V i k = (Q *m V) i k / s.
    by rewrite /all_modes !mxE mulr_suml; apply: eq_bigr => b _; rewrite [in LHS]mxE mulrA.
  rewrite !Ephi rmorphM fmorphV Hsr.
  have El : L 0 k = nb%:R^-1 * (s * s) by rewrite Hs2 mulrA mulVf ?mul1r ?pnatr_eq0 -?lt0n.
  have Hss : s * s^-1 = 1 by rewrite mulfV ?gt_eqF.
  rewrite El; move: ((Q *m V) x k) (((Q *m V) y k)^* ) => p q.
  transitivity (s * s^-1 * (s * s^-1) * (nb%:R^-1 * (p * q))); first by rewrite Hss !mul1r.
  cring.
have El : L 0 k = 0 by apply/eqP; have := HL k; rewrite le_eqVlt Hk orbF eq_sym.
have E0 : gram Q w *m col k V = 0 by rewrite (proj1 He) El scale0r.
have -> : (Q *m V) x k = 0.
  by rewrite -[RHS](zero_mode Hnb Hw E0 Hx) !mxE; apply: eq_bigr => b _; rewrite mxE.
by rewrite mul0r mulr0.
Qed.
Lemma distinct_unitary nb (M : 'M[C]_nb) (L : 'rV[C]_nb) (V : 'M[C]_nb) : hermitian M -> (forall k, L 0 k \is Num.real) -> eigenpairs M L V ->
  (forall j k, j != k -> L 0 j != L 0 k) -> adj V *m V = 1%:M.
Proof.
move=> HM HL [He Hu] Hd; apply/matrixP => j k; rewrite !mxE.
case: (eqVneq j k) => [<-|Hjk].
  by rewrite -[RHS](Hu j); apply: eq_bigr => i _; rewrite mxE normCKC.
have Hkj : L 0 k != L 0 j by rewrite eq_sym Hd.
have := herm_orth HM (He j) (He k) (HL j) Hkj; under eq_bigr do rewrite !mxE.
by move=> E; rewrite -[RHS]E; apply: eq_bigr => i _; rewrite mxE.
Qed.
End Captured.
(* ... and each computed mode captures exactly its eigenvalue, so that the leading modes attain the maximum *)
Theorem C108_mode_captures_its_eigenvalue : forall (C : numClosedFieldType) (c : config C) eig argsort n
    X (w : 'cV[C]_n) f H (k : 'I_(n_modes_save c)),
  (0 < n_blocks c)%N -> (forall i, 0 <= w i 0) -> eig_ok eig ->
  let lam := run_L eig argsort (size := 1) (fun _ i => i) X w f 0 (widen_ord H k) in
  let phi := serial_modes eig argsort X w ord0 f H in
  0 < lam -> captured w (realizations c X f) (col k phi) = lam.
Proof.
move=> C c eig argsort n X w f H k Hnb Hw Heig lam phi Hlam.
have He := run_eigenpairs argsort (@serial_partition n) X Hw Heig f; rewrite (serial_gram c X w f) in He.
rewrite -[RHS](captured_mode Hnb Hw He Hlam); congr captured; apply/matrixP => i j.
by rewrite /phi /serial_modes /run_modes /kept_modes !mxE.
Qed.
Print Assumptions C108_mode_captures_its_eigenvalue.
(* with unit weights the coordinate fields are such a set; the oracles exist (Prop_Spod.oracles_exist) *)
Example C108_nonvacuous (C : numClosedFieldType) n :
  (forall i, 0 <= (const_mx 1 : 'cV[C]_n) i 0) /\
  forall j k, wip (const_mx 1 : 'cV[C]_n) (1%:M : 'M[C]_n) 1%:M j k = (j == k)%:R.
Proof.
split=> [i|j k]; first by rewrite mxE ler01.
rewrite /wip (bigD1 j) //= big1 => [|i Hi]; rewrite !mxE ?eqxx ?(negbTE Hi) ?mulr1 ?conjC1 ?conjC0 ?mul1r ?mul0r ?addr0 //.
Qed.

(* ---- C109 ---- *)
(* the reported eigenvalues do not depend on the eigensolver, nor on how ties are sorted *)
Theorem C109_eigenvalues_solver_independent : forall (C : numClosedFieldType) (size : nat) (c : config C) eig eig' argsort argsort' n
    (nloc : 'I_size -> nat) (own : forall r, 'I_(nloc r) -> 'I_n) X (w : 'cV[C]_n) f,
  partition_of own -> (forall i, 0 <= w i 0) ->
  eig_ok eig -> eig_basis eig -> argsort_ok argsort -> eig_ok eig' -> eig_basis eig' -> argsort_ok argsort' ->
  run_eigs (c := c) eig argsort own X w f = run_eigs eig' argsort' own X w f.
Proof.
move=> C size c eig eig' argsort argsort' n nloc own X w f Hown Hw H1 H2 H3 H1' H2' H3'.
rewrite /run_eigs; congr eigs_of.
apply: (run_L_unique Hown Hw H1 H2 H3 (V := run_V eig' argsort' own X w f)).
- exact: run_V_unit.
- exact: run_diag.
- exact: run_desc.
Qed.
Print Assumptions C109_eigenvalues_solver_independent.
(* they are the roots of the characteristic polynomial of the SPOD matrix, with multiplicity, in descending order *)
Theorem C109_characteristic_roots : forall (C : numClosedFieldType) (size : nat) (c : config C) eig argsort n
    (nloc : 'I_size -> nat) (own : forall r, 'I_(nloc r) -> 'I_n) X (w : 'cV[C]_n) f,
  partition_of own -> (forall i, 0 <= w i 0) -> eig_ok eig -> eig_basis eig -> argsort_ok argsort ->
  char_poly (reduced_M c own X w f) = \prod_k ('X - (run_L (c := c) eig argsort own X w f 0 k)%:P).
Proof.
move=> C size c eig argsort n nloc own X w f Hown Hw H1 H2 H3.
have HV := run_V_unit Hown X Hw H1 H2 H3 f; have EV := run_diag argsort Hown X Hw H1 f.
rewrite (reduced_gram Hown); set M := gram _ _ in EV *; set V := run_V _ _ _ _ _ _ in HV EV; set L := run_L _ _ _ _ _ _ in EV *.
have EM : M = V *m diag_mx L *m invmx V by rewrite -EV -mulmxA mulmxV // mulmx1.
have Ep : char_poly_mx M *m map_mx polyC V = map_mx polyC V *m char_poly_mx (diag_mx L).
  by rewrite /char_poly_mx mulmxBl mulmxBr -!map_mxM EV scalar_mxC.
have := congr1 determinant Ep; rewrite !det_mulmx mulrC [LHS in _ -> LHS = _]/char_poly => /mulfI ->.
  rewrite -/(char_poly (diag_mx L)) char_poly_trig; last by apply/is_trig_mxP => i j Hij; rewrite !mxE; case: eqP => [E|] //; rewrite E ltnn in Hij.
  by apply: eq_bigr => k _; rewrite mxE eqxx mulr1n.
by rewrite det_map_mx polyC_eq0 -unitfE -unitmxE.
Qed.
Print Assumptions C109_characteristic_roots.

(* ---- C110 ---- *)
(* when all modes are kept and the eigenvalues differ, eigenvalues and modes reproduce the estimated
   cross-spectral density between any two points of positive weight *)
Theorem C110_modes_reproduce_the_csd : forall (C : numClosedFieldType) (c : config C) eig argsort n
    X (w : 'cV[C]_n) f H (E : n_modes_save c = n_blocks c) x y,
  (0 < n_blocks c)%N -> (forall i, 0 <= w i 0) -> eig_ok eig ->
  let lam k := run_L eig argsort (size := 1) (fun _ i => i) X w f 0 (widen_ord H k) in
  (forall j k, j != k -> lam j != lam k) -> 0 < w x 0 -> 0 < w y 0 ->
  let phi := serial_modes eig argsort X w ord0 f H in
  let q b x := block_hat c (fun t => X t x) b f in
  (n_blocks c)%:R^-1 * (\sum_(b < n_blocks c) q b x * (q b y)^*)
  = \sum_(k < n_modes_save c | 0 < lam k) lam k * phi x k * (phi y k)^*.
Proof.
move=> C c eig argsort n X w f H E x y Hnb Hw Heig lam Hd Hx Hy phi q.
have He := run_eigenpairs argsort (@serial_partition n) X Hw Heig f; rewrite (serial_gram c X w f) in He.
have HL := eigenpair_ge0 (gram_psd _ Hw) He.
have Hwid : bijective (widen_ord H).
  by exists (widen_ord (eq_leq (esym E))) => k; apply: val_inj.
have Hdist j k : j != k -> run_L eig argsort (size := 1) (fun _ i => i) X w f 0 j != run_L eig argsort (size := 1) (fun _ i => i) X w f 0 k.
  case: Hwid => g Hg1 Hg2 Hjk; rewrite -(Hg2 j) -(Hg2 k); apply: Hd.
  by apply: contra Hjk => /eqP Ejk; rewrite -(Hg2 j) Ejk Hg2.
have HV := distinct_unitary (gram_herm _ Hw) (fun k => ger0_real (HL k)) He Hdist.
have := csd_expand Hnb Hw He HV Hx Hy.
transitivity ((n_blocks c)%:R^-1 * (\sum_b (q_hat c X f) x b * ((q_hat c X f) y b)^* )).
  by congr (_ * _); apply: eq_bigr => b _; rewrite !mxE.
rewrite {}H0 (reindex (widen_ord H)) /=; last exact: onW_bij.
by apply: eq_bigr => k _; rewrite /lam /phi /serial_modes /run_modes /kept_modes !(mxE _ _ x) !mxE.
Qed.
Print Assumptions C110_modes_reproduce_the_csd.
