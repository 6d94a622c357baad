(* Property theorem C151: how much the spectrum can move when the data move a little. *)
From mathcomp Require Import all_ssreflect all_algebra all_fingroup.
From Verif Require Import Base_CRing Model_Spod Spec_Spod Spec_Stream Proof_Spod Proof_Spectral Proof_StreamAlg Proof_Svd Proof_Dft Proof_Spod2 Proof_Optimal Proof_Optimal2 Proof_Weyl Prop_Components Prop_Spectrum.
Set Implicit Arguments.
Unset Strict Implicit.
Unset Printing Implicit Defensive.
Import GRing.Theory Num.Theory Order.TTheory.
Local Open Scope ring_scope.

Section Herm.
Variable C : numClosedFieldType.
Lemma herm_real n (M : 'M[C]_n) L V k : hermitian M -> eigenpairs M L V -> L 0 k \is Num.real.
Proof.
move=> HM [HE HU]; have E := form_eigen (col k V) (HE k).
have Hn : \sum_i ((col k V) i 0)^* * (col k V) i 0 = 1.
  by rewrite -(HU k) normsq; apply: eq_bigr => i _; rewrite mxE.
rewrite Hn mulr1 in E; rewrite -E; apply/CrealP.
by rewrite [RHS](form_herm _ _ HM).
Qed.
(* what the code does with any Hermitian matrix: eigenvalues and vectors in decreasing order *)
Lemma sorted_herm n (M : 'M[C]_n) eig argsort : hermitian M -> eig_ok eig -> eig_basis eig -> argsort_ok argsort ->
  let L := sort_L argsort (eig M).1 in let V := sort_V argsort (eig M).1 (eig M).2 in
  [/\ M *m V = V *m diag_mx L, V \in unitmx, (forall k, L 0 k \is Num.real) & desc L].
Proof.
move=> HM Heig Hinv Hsort L V; have Hr k := herm_real k HM (Heig M HM).
have [Hi Hs] := Hsort _ Hr; have Hinj : injective (order argsort (eig M).1) by move=> a b /Hi /rev_ord_inj.
split.
- have [He _] := Heig M HM; apply/matrixP => i k; rewrite mul_mx_diag [RHS]mxE.
  have := congr1 (fun A : 'cV[C]_n => A i 0) (He (order argsort (eig M).1 k)); rewrite [X in _ = X -> _]mxE [X in _ = _ * X -> _]mxE.
  by rewrite [V i k]mxE [L 0 k]mxE mulrC => <-; rewrite !mxE; apply: eq_bigr => j _; rewrite !mxE.
- have -> : V = col_perm (perm Hinj) (eig M).2 by apply/matrixP => i j; rewrite !mxE permE.
  by rewrite col_permE unitmx_mul unitmx_perm andbT; apply: Hinv.
- by move=> k; rewrite mxE Hr.
- by move=> i j Hij; rewrite !mxE; apply: Hs; rewrite /= leq_sub2l.
Qed.
Lemma weyl_two n (M M' : 'M[C]_n) eig argsort eig' argsort' d k : hermitian M -> hermitian M' ->
  eig_ok eig -> eig_basis eig -> argsort_ok argsort -> eig_ok eig' -> eig_basis eig' -> argsort_ok argsort' ->
  (forall a b, `|M a b - M' a b| <= d) ->
  `|sort_L argsort (eig M).1 0 k - sort_L argsort' (eig' M').1 0 k| <= n%:R * d.
Proof.
move=> HM HM' H1 H2 H3 H1' H2' H3' Hd.
have [E1 V1 R1 D1] := sorted_herm HM H1 H2 H3; have [E2 V2 R2 D2] := sorted_herm HM' H1' H2' H3'.
have Q x : quad M x - quad M' x \is Num.real.
  by rewrite rpredB // /quad; apply/CrealP; rewrite [RHS]form_herm.
have Hb x : `|quad M x - quad M' x| <= n%:R * d * nrm x.
  by rewrite -quad_sub; apply: quad_small => a b; rewrite !mxE.
rewrite real_ler_distl ?rpredB // ler_subl_addr; apply/andP; split.
- apply: (weyl_up k HM' HM E2 E1) => // x.
  by apply: le_trans (Hb x); rewrite -opprB -normrN real_ler_norm ?rpredN.
- by apply: (weyl_up k HM HM' E1 E2) => // x; apply: le_trans (Hb x); rewrite real_ler_norm.
Qed.
End Herm.

Section Bound.
Variable C : numClosedFieldType.
Variable c : config C.
Hypothesis Hnorm : normalize_data c = false.
Hypothesis Hom : (n_dft c).-primitive_root (omega c).
Hypothesis Hwin : forall k, (k < n_dft c)%N -> 0 <= window c k.
Hypothesis Hsum : 0 < \sum_(k < n_dft c) window c k.
Hypothesis Hnt : (n_dft c <= nt c)%N.
Lemma omega_norm : `|omega c| = 1.
Proof.
have H := prim_expr_order Hom; apply/eqP; rewrite -(@eqr_expn2 _ (n_dft c)) ?(prim_order_gt0 Hom) //.
by rewrite -normrX H normr1 expr1n.
Qed.
Lemma avg_small N (x : nat -> C) e : (0 < N)%N -> (forall t, (t < N)%N -> `|x t| <= e) -> `|(\sum_(t < N) x t) / N%:R| <= e.
Proof.
move=> HN Hx; have HN' : (0 : C) < N%:R by rewrite ltr0n.
rewrite normrM normfV normr_nat ler_pdivr_mulr //.
apply: le_trans (ler_norm_sum _ _ _) _.
by rewrite mulr_natr -[in X in _ <= X](card_ord N) -sumr_const; apply: ler_sum => i _; exact: Hx.
Qed.
Lemma offset_lt b k : (k < n_dft c)%N -> (block_offset c b + k < nt c)%N.
Proof.
move=> Hk; rewrite /block_offset; apply: (@leq_trans (minn (b * (n_dft c - n_overlap c) + n_dft c) (nt c) - n_dft c + n_dft c)).
  by rewrite ltn_add2l.
by rewrite subnK ?geq_minr // leq_min leq_addl.
Qed.
Lemma centred_small (x : nat -> C) e b k : (forall t, (t < nt c)%N -> `|x t| <= e) -> (k < n_dft c)%N ->
  `|block_centred c x b k| <= 2%:R * e.
Proof.
move=> Hx Hk; have Hn := prim_order_gt0 Hom.
have e0 : 0 <= e by apply: le_trans (Hx 0%N (leq_trans Hn Hnt)).
have H1 : e + e = 2%:R * e by rewrite mulrS mulr1n mulrDl mul1r.
rewrite -H1 /block_centred /t_mean; case: (mean_type c).
- apply: le_trans (ler_norm_sub _ _) _; apply: ler_add; first exact/Hx/offset_lt.
  by apply: avg_small => //; exact: leq_trans Hn Hnt.
- apply: le_trans (ler_norm_sub _ _) _; apply: ler_add; first by rewrite subr0; apply/Hx/offset_lt.
  by apply: (@avg_small _ (fun j => x (block_offset c b + j)%N - 0)) => // t Ht; rewrite subr0; apply/Hx/offset_lt.
- by rewrite subr0 -[`|_|]addr0; apply: ler_add => //; apply/Hx/offset_lt.
Qed.
Lemma hat_small (x : nat -> C) e b f : (forall t, (t < nt c)%N -> `|x t| <= e) -> `|block_hat c x b f| <= 2%:R * e.
Proof.
move=> Hx; have Hn := prim_order_gt0 Hom; have HN : (0 : C) < (n_dft c)%:R by rewrite ltr0n.
have Ew : win_weight c / (n_dft c)%:R = (\sum_(k < n_dft c) window c k)^-1.
  by rewrite /win_weight invf_div mulrAC mulfV ?mul1r // gt_eqF.
rewrite /block_hat Ew normrM normfV (ger0_norm (ltW Hsum)) ler_pdivr_mull // mulrC mulr_sumr.
apply: le_trans (ler_norm_sum _ _ _) _; apply: ler_sum => k _.
rewrite normrM normrX omega_norm expr1n mulr1 /block_windowed /block_normalized Hnorm normrM (ger0_norm (Hwin (ltn_ord k))).
by apply: ler_wpmul2r; [exact: Hwin|exact: centred_small].
Qed.
Lemma lead_small m (X : nat -> 'I_m -> C) (w : 'cV[C]_m) (L : 'rV[C]_(n_blocks c)) V e f k : (forall i, 0 <= w i 0) ->
  (forall t i, (t < nt c)%N -> `|X t i| <= e) -> V \in unitmx -> gram (q_hat c X f) w *m V = V *m diag_mx L -> (forall j, 0 <= L 0 j) ->
  L 0 k <= (2%:R * e) ^+ 2 * \sum_i w i 0.
Proof.
move=> Hw HX HV EV H0; have HB : (0 < n_blocks c)%N by apply: leq_ltn_trans (ltn_ord k).
have HBp : (0 : C) < (n_blocks c)%:R by rewrite ltr0n.
apply: (@le_trans _ _ (\sum_j L 0 j)); first by rewrite (bigD1 k) //= ler_addl sumr_ge0.
rewrite -(trace_listed HV EV) /mxtrace.
apply: (@le_trans _ _ (\sum_(b < n_blocks c) (n_blocks c)%:R^-1 * ((2%:R * e) ^+ 2 * \sum_i w i 0))).
  apply: ler_sum => b _; rewrite gramE; apply: ler_wpmul2l; first by rewrite invr_ge0 ltW.
  rewrite mulr_sumr; apply: ler_sum => i _; apply: ler_wpmul2r => //.
  rewrite mulrC -normCK [q_hat _ _ _ _ _]mxE; have H := hat_small b f (fun t Ht => HX t i Ht).
  by apply: ler_expn2r => //; rewrite nnegrE //; apply: le_trans H.
by rewrite sumr_const card_ord -mulr_natl mulVKf ?gt_eqF.
Qed.
End Bound.

(* ---- C151 ---- *)
(* a matrix computed with an error of at most d in every entry (rounding, another order of summation, other hardware: C148 bounds it) gives
   eigenvalues that are off by at most the number of blocks times d, for any two solvers and sorting routines *)
Theorem C151_errors_in_the_matrix : forall (C : numClosedFieldType) (size : nat) (c : config C) eig argsort eig' argsort' n
    (nloc : 'I_size -> nat) (own : forall r, 'I_(nloc r) -> 'I_n) X (w : 'cV[C]_n) f (Mt : 'M[C]_(n_blocks c)) d k,
  partition_of own -> (forall i, 0 <= w i 0) -> eig_ok eig -> eig_basis eig -> argsort_ok argsort -> eig_ok eig' -> eig_basis eig' -> argsort_ok argsort' ->
  hermitian Mt -> (forall a b, `|Mt a b - reduced_M c own X w f a b| <= d) ->
  `|eigs_of c f (sort_L argsort' (eig' Mt).1) 0 k - run_eigs eig argsort own X w f 0 k| <= one_sided c f * (n_blocks c)%:R * d.
Proof.
move=> C size c eig argsort eig' argsort' n nloc own X w f Mt d k Hown Hw H1 H2 H3 H1' H2' H3' HM Hd.
have HR : hermitian (reduced_M c own X w f) by rewrite (reduced_gram Hown); exact: gram_herm.
have H := weyl_two k HM HR H1' H2' H3' H1 H2 H3 Hd; have Ho := one_sided_gt0 c f.
rewrite /run_eigs /eigs_of /run_L !mxE !normrM !(gtr0_norm Ho) -mulrBr normrM (gtr0_norm Ho) -mulrA ler_pmul2l //.
by apply: le_trans (ler_dist_dist _ _) _; move: H; rewrite !mxE.
Qed.
Print Assumptions C151_errors_in_the_matrix.
(* two runs: other data, other weights, other process grids, the same parameters *)
Theorem C151_two_runs : forall (C : numClosedFieldType) (size size' : nat) (c : config C) eig argsort eig' argsort' n n'
    (nloc : 'I_size -> nat) (own : forall r, 'I_(nloc r) -> 'I_n) (nloc' : 'I_size' -> nat) (own' : forall r, 'I_(nloc' r) -> 'I_n') X X' (w : 'cV[C]_n) (w' : 'cV[C]_n') f d k,
  partition_of own -> partition_of own' -> (forall i, 0 <= w i 0) -> (forall i, 0 <= w' i 0) ->
  eig_ok eig -> eig_basis eig -> argsort_ok argsort -> eig_ok eig' -> eig_basis eig' -> argsort_ok argsort' ->
  (forall a b : 'I_(n_blocks c), `|wip w (q_hat c X f) (q_hat c X f) a b - wip w' (q_hat c X' f) (q_hat c X' f) a b| <= d) ->
  `|run_eigs (c := c) eig argsort own X w f 0 k - run_eigs (c := c) eig' argsort' own' X' w' f 0 k| <= one_sided c f * d.
Proof.
move=> C size size' c eig argsort eig' argsort' n n' nloc own nloc' own' X X' w w' f d k Hown Hown' Hw Hw' H1 H2 H3 H1' H2' H3' Hd.
have HB : (0 < n_blocks c)%N by apply: leq_ltn_trans (ltn_ord k).
have HBp : (0 : C) < (n_blocks c)%:R by rewrite ltr0n.
have HR : hermitian (reduced_M c own X w f) by rewrite (reduced_gram Hown); exact: gram_herm.
have E := C151_errors_in_the_matrix (c := c) (d := (n_blocks c)%:R^-1 * d) k Hown' Hw' H1' H2' H3' H1 H2 H3 HR.
have -> : one_sided c f * d = one_sided c f * (n_blocks c)%:R * ((n_blocks c)%:R^-1 * d) by rewrite -mulrA mulVKf ?gt_eqF.
apply: E => a b.
rewrite (reduced_gram Hown) (reduced_gram Hown') !gramE -mulrBr normrM normfV (gtr0_norm HBp) ler_pmul2l ?invr_gt0 //.
exact: Hd.
Qed.
Print Assumptions C151_two_runs.
(* adding a disturbance to the data moves the square root of every eigenvalue by at most the square root of the leading eigenvalue of the disturbance *)
Theorem C151_disturbance : forall (C : numClosedFieldType) (size : nat) (c : config C) eig argsort n
    (nloc : 'I_size -> nat) (own : forall r, 'I_(nloc r) -> 'I_n) (X N : nat -> 'I_n -> C) (w : 'cV[C]_n) f (k0 k : 'I_(n_blocks c)),
  partition_of own -> (forall i, 0 <= w i 0) -> eig_ok eig -> eig_basis eig -> argsort_ok argsort -> normalize_data c = false -> k0 = 0%N :> nat ->
  `|sqrtC (run_eigs eig argsort own (fun t i => X t i + N t i) w f 0 k) - sqrtC (run_eigs eig argsort own X w f 0 k)|
  <= sqrtC (run_eigs eig argsort own N w f 0 k0).
Proof.
move=> C size c eig argsort n nloc own X N w f k0 k Hown Hw Heig Hinv Hsort Hn H0.
pose Y := fun t i => X t i + N t i.
have EQ : q_hat c Y f = q_hat c X f + q_hat c N f.
  apply/matrixP => i b; rewrite !mxE (hat_lin Hn (P := 2) (a := fun p => if p == ord0 then fun t => X t i else fun t => N t i) (g := fun=> 1)) => [|t].
    by rewrite !big_ord_recl big_ord0 /= !mul1r addr0.
  by rewrite !big_ord_recl big_ord0 /= !mulr1 addr0.
have EN : gram (- q_hat c N f) w = gram (q_hat c N f) w.
  apply/matrixP => a b; rewrite !gramE; congr (_ * _); apply: eq_bigr => i _.
  by rewrite !mxE rmorphN mulrNN.
have R1 := run_V_unit Hown X Hw Heig Hinv Hsort f; have R2 := run_V_unit Hown Y Hw Heig Hinv Hsort f; have R3 := run_V_unit Hown N Hw Heig Hinv Hsort f.
have E1 := run_diag argsort Hown X Hw Heig f; have E2 := run_diag argsort Hown Y Hw Heig f; have E3 := run_diag argsort Hown N Hw Heig f.
have D1 := run_desc Hown X Hw Heig Hsort f; have D2 := run_desc Hown Y Hw Heig Hsort f; have D3 := run_desc Hown N Hw Heig Hsort f.
have G1 := run_L_ge0 argsort Hown X Hw Heig f; have G2 := run_L_ge0 argsort Hown Y Hw Heig f; have G3 := run_L_ge0 argsort Hown N Hw Heig f.
have Ho := one_sided_gt0 c f; have Hs : 0 < sqrtC (one_sided c f) by rewrite sqrtC_gt0.
rewrite !run_eigsE // !(rootCMl _ _ (ltW Ho)) -mulrBr normrM (gtr0_norm Hs) ler_pmul2l //.
have Rl (z : C) : 0 <= z -> sqrtC z \is Num.real by move=> Hz; rewrite ger0_real // sqrtC_ge0.
rewrite real_ler_distl ?rpredB ?Rl // ler_subl_addr; apply/andP; split.
- apply: (@root_stable _ _ _ (q_hat c Y f) (- q_hat c N f) w _ _ _ _ _ _ k0 k H0 Hw _ E2 _ R1 R2 R3) => //.
    by rewrite EQ addrK.
  by rewrite EN.
- rewrite EQ in E2; exact: (root_stable k H0 Hw E2 E1 E3).
Qed.
Print Assumptions C151_disturbance.
(* in units of the data: a disturbance of at most e at every sample moves the square root of every eigenvalue by at most 2 e times the square root of the
   total weight (twice the total weight at the frequencies that are doubled), whatever the record, its length, the overlap and the window *)
Theorem C151_small_disturbance : forall (C : numClosedFieldType) (size : nat) (c : config C) eig argsort n
    (nloc : 'I_size -> nat) (own : forall r, 'I_(nloc r) -> 'I_n) (X N : nat -> 'I_n -> C) (w : 'cV[C]_n) e f (k : 'I_(n_blocks c)),
  partition_of own -> (forall i, 0 <= w i 0) -> eig_ok eig -> eig_basis eig -> argsort_ok argsort -> normalize_data c = false ->
  (n_dft c).-primitive_root (omega c) -> (forall j, (j < n_dft c)%N -> 0 <= window c j) -> 0 < \sum_(j < n_dft c) window c j -> (n_dft c <= nt c)%N ->
  0 <= e -> (forall t i, (t < nt c)%N -> `|N t i| <= e) ->
  `|sqrtC (run_eigs eig argsort own (fun t i => X t i + N t i) w f 0 k) - sqrtC (run_eigs eig argsort own X w f 0 k)|
  <= 2%:R * e * sqrtC (one_sided c f * \sum_i w i 0).
Proof.
move=> C size c eig argsort n nloc own X N w e f k Hown Hw Heig Hinv Hsort Hn Hom Hwin Hsum Hnt He HN.
have HB : (0 < n_blocks c)%N by apply: leq_ltn_trans (ltn_ord k).
apply: le_trans (@C151_disturbance _ _ _ _ _ _ _ _ X N w f (Ordinal HB) k Hown Hw Heig Hinv Hsort Hn erefl) _.
have S0 : 0 <= \sum_i w i 0 by apply: sumr_ge0. have Ho := ltW (one_sided_gt0 c f).
have e0 : 0 <= 2%:R * e by rewrite mulr_ge0 ?ler0n.
rewrite run_eigsE // -[2%:R * e](sqrCK e0) -rootCMl ?exprn_ge0 // ler_sqrtC ?nnegrE ?mulr_ge0 ?exprn_ge0 ?run_L_ge0 //.
rewrite mulrCA; apply: ler_wpmul2l => //.
exact: (lead_small Hn Hom Hwin Hsum Hnt _ Hw HN (run_V_unit Hown N Hw Heig Hinv Hsort f) (run_diag argsort Hown N Hw Heig f) (run_L_ge0 argsort Hown N Hw Heig f)).
Qed.
Print Assumptions C151_small_disturbance.
(* the hypotheses are met by a record of eight samples of two entries in blocks of four, half overlapping, disturbed by an alternating signal *)
Example C151_nonvacuous (C : numClosedFieldType) : exists om : C, exists eig argsort,
  let c : config C := Config 8 4 2 3 3 2 Longtime false 0 (fun _ => 1) true om 1 (fun _ x => x) in
  let N : nat -> 'I_2 -> C := fun t i => (-1) ^+ (t + i) in
  [/\ (n_dft c).-primitive_root (omega c), eig_ok (eig : 'M[C]_(n_blocks c) -> _), eig_basis eig, argsort_ok (argsort : 'rV[C]_(n_blocks c) -> _) &
   [/\ forall j, (j < n_dft c)%N -> 0 <= window c j, 0 < \sum_(j < n_dft c) window c j, (n_dft c <= nt c)%N, forall t i, (t < nt c)%N -> `|N t i| <= 1 & N 0%N ord0 != 0]].
Proof.
have [om Hom] := prim_root_exists C (isT : (0 < 4)%N).
have [eig [H1 H2]] := eig_exists C 3; have [argsort H3] := argsort_exists C 3.
exists om, eig, argsort; split=> //; split=> /= [j _||||] //; first exact: ler01.
- by rewrite !big_ord_recl big_ord0 addr0 !addr_gt0 ?ltr01.
- by move=> t i _; rewrite normrX normrN normr1 expr1n.
- by rewrite expr0 oner_eq0.
Qed.
