(* Property theorem C153: how much the modes can move when the data move a little. *)
From mathcomp Require Import all_ssreflect all_algebra all_fingroup.
From Verif Require Import Base_CRing Model_Spod Spec_Spod Spec_Stream Spec_Align Proof_Spod Proof_Spectral Proof_StreamAlg Proof_Svd Proof_Dft Proof_Spod2 Proof_Optimal Proof_Optimal2 Proof_Weyl Prop_Components Prop_Spectrum Prop_Stable Proof_Kahan Proof_Align.
Set Implicit Arguments.
Unset Strict Implicit.
Unset Printing Implicit Defensive.
Import GRing.Theory Num.Theory Order.TTheory.
Local Open Scope ring_scope.

Section Core.
Variable C : numClosedFieldType.
Add Ring Cring_palign : (cr_th C). Ltac cring := cr_norm C; ring.
Lemma bound_scaled (o l nu l' e g : C) : 0 < o -> 0 <= l -> 0 <= nu -> 0 <= l' ->
  (sqrtC (o * l) * (o * e / (o * g - o * e)) + sqrtC (o * nu)) / sqrtC (o * l') = (sqrtC l * (e / (g - e)) + sqrtC nu) / sqrtC l'.
Proof.
move=> o0 l0 nu0 l'0; have s0 : sqrtC o != 0 by rewrite sqrtC_eq0 gt_eqF.
rewrite !(rootCMl _ _ (ltW o0)) -mulrBr -mulf_div divff ?gt_eqF // mul1r -[sqrtC o * sqrtC l * _]mulrA -mulrDr.
by rewrite -mulf_div divff // mul1r.
Qed.
Lemma dist_scaled (o a b g : C) : 0 < o -> (`|o * a - o * b| < o * g) = (`|a - b| < g).
Proof. by move=> o0; rewrite -mulrBr normrM (gtr0_norm o0) ltr_pmul2l. Qed.
Lemma weyl_form n (M M' : 'M[C]_n) (L L' : 'rV[C]_n) (V V' : 'M[C]_n) (k : 'I_n) e : hermitian M -> hermitian M' ->
  M *m V = V *m diag_mx L -> M' *m V' = V' *m diag_mx L' -> V \in unitmx -> V' \in unitmx ->
  (forall i, L 0 i \is Num.real) -> (forall i, L' 0 i \is Num.real) -> desc L -> desc L' ->
  (forall x, `|quad (M' - M) x| <= e * nrm x) -> `|L' 0 k - L 0 k| <= e.
Proof.
move=> HM HM' EV EV' HV HV' Lr Lr' HL HL' He.
have Q x : quad M' x - quad M x \is Num.real by rewrite rpredB // /quad; apply/CrealP; rewrite [RHS]form_herm.
rewrite real_ler_distl ?rpredB // ler_subl_addr; apply/andP; split.
- apply: (weyl_up k HM HM' EV EV') => // x; apply: le_trans (He x).
  by rewrite -opprB quad_sub -normrN real_ler_norm ?rpredN.
- by apply: (weyl_up k HM' HM EV' EV) => // x; apply: le_trans (He x); rewrite quad_sub real_ler_norm.
Qed.
(* the saved modes near the k-th computed mode *)
Lemma saved_near (c : config C) m (H : (n_modes_save c <= n_blocks c)%N) (P P' : 'M[C]_(m, n_blocks c)) (w : 'cV[C]_m) (L : 'rV[C]_(n_blocks c)) (k : 'I_(n_modes_save c)) g b :
  (forall j : 'I_(n_blocks c), `|L 0 j - L 0 (widen_ord H k)| < g -> (j < n_modes_save c)%N) ->
  (exists z : 'I_(n_blocks c) -> C, (forall j, z j != 0 -> `|L 0 j - L 0 (widen_ord H k)| < g /\ 0 < L 0 j) /\
     wlen w (fun i => P' i (widen_ord H k) - \sum_j z j * P i j) <= b) ->
  exists z : 'I_(n_modes_save c) -> C, (forall j, z j != 0 -> `|L 0 (widen_ord H j) - L 0 (widen_ord H k)| < g /\ 0 < L 0 (widen_ord H j)) /\
     wlen w (fun i => kept_modes H P' i k - \sum_j z j * kept_modes H P i j) <= b.
Proof.
move=> Hs [z [Hz Hb]]; exists (fun j => z (widen_ord H j)); split=> [j|]; first exact: Hz.
apply: le_trans Hb; rewrite le_eqVlt /wlen; apply/orP; left; apply/eqP; congr sqrtC; apply: eq_bigr => i _; congr (_ * `|_ - _| ^+ 2); first by rewrite mxE.
rewrite [RHS](bigID (fun j : 'I_(n_blocks c) => (j < n_modes_save c)%N)) /= [X in _ = _ + X]big1 ?addr0 => [|j Hj]; last first.
  by case: (eqVneq (z j) 0) => [->|/Hz [/Hs]]; rewrite ?mul0r // (negbTE Hj).
by rewrite big_ord_narrow; apply: eq_bigr => j _; rewrite mxE.
Qed.
Section Two.
Variable c : config C.
Variables eig eig' : 'M[C]_(n_blocks c) -> 'rV[C]_(n_blocks c) * 'M[C]_(n_blocks c).
Variables argsort argsort' : 'rV[C]_(n_blocks c) -> 'I_(n_blocks c) -> 'I_(n_blocks c).
Hypothesis Heig : eig_ok eig.
Hypothesis Hinv : eig_basis eig.
Hypothesis Hsort : argsort_ok argsort.
Hypothesis Heig' : eig_ok eig'.
Hypothesis Hinv' : eig_basis eig'.
Hypothesis Hsort' : argsort_ok argsort'.
Variable n : nat.
Variable w : 'cV[C]_n.
Hypothesis Hw : forall i, 0 <= w i 0.
Notation SP := (@serial_partition n).
Notation Ls := (run_L eig argsort (size := 1) (fun _ (i : 'I_n) => i)).
Notation Vs := (run_V eig argsort (size := 1) (fun _ (i : 'I_n) => i)).
Variable X : nat -> 'I_n -> C.
Variable f : nat.
(* any matrix Mt in place of the one of the first run, any blocks R added to those of the first run *)
Lemma core (R : 'M[C]_(n, n_blocks c)) (Mt : 'M[C]_(n_blocks c)) (k0 k : 'I_(n_blocks c)) nu e g : k0 = 0%N :> nat ->
  let o := one_sided c f in let L' := sort_L argsort' (eig' Mt).1 in let V' := sort_V argsort' (eig' Mt).1 (eig' Mt).2 in
  hermitian Mt -> 0 < L' 0 k -> 0 <= nu -> 0 <= e -> e < g ->
  (forall x, quad (gram R w) x <= nu * nrm x) -> (forall x, `|quad (Mt - gram (q_hat c X f) w) x| <= e * nrm x) ->
  exists z : 'I_(n_blocks c) -> C, (forall j, z j != 0 -> `|Ls X w f 0 j - Ls X w f 0 k| < g /\ 0 < Ls X w f 0 j) /\
    wlen w (fun i => all_modes (q_hat c X f + R) L' V' i k - \sum_j z j * all_modes (q_hat c X f) (Ls X w f) (Vs X w f) i j)
    <= (sqrtC (o * Ls X w f 0 k0) * (o * e / (o * g - o * e)) + sqrtC (o * nu)) / sqrtC (o * L' 0 k).
Proof.
move=> H0 o L' V' HMt Lk nu0 e0 eg HR HE; have o0 : 0 < o := one_sided_gt0 c f.
have R1 := run_V_unit SP X Hw Heig Hinv Hsort f; have E1 := run_diag argsort SP X Hw Heig f.
have D1 := run_desc SP X Hw Heig Hsort f; have G1 := run_L_ge0 argsort SP X Hw Heig f.
have [E2 R2 L2 D2] := sorted_herm HMt Heig' Hinv' Hsort'.
have HG := gram_herm (q_hat c X f) Hw.
rewrite bound_scaled // ?(ltW Lk) //.
have [He Hu] := Heig' HMt.
apply: (mode_near (Mt := Mt)) => //.
- have -> : col k V' = col (order argsort' (eig' Mt).1 k) (eig' Mt).2 by apply/matrixP => i j; rewrite !mxE.
  by rewrite He [L' 0 k]mxE.
- by rewrite -(Hu (order argsort' (eig' Mt).1 k)); apply: eq_bigr => i _; rewrite !mxE.
- by move=> x; apply: (quad_top x H0 HG E1 R1) => // i; rewrite ger0_real.
- by apply: (weyl_form k HG HMt E1 E2) => // i; rewrite ger0_real.
Qed.
End Two.
Lemma serial_kept (c : config C) (eig : 'M[C]_(n_blocks c) -> 'rV[C]_(n_blocks c) * 'M[C]_(n_blocks c)) argsort n (X : nat -> 'I_n -> C) w f H :
  serial_modes eig argsort X w ord0 f H
  = kept_modes H (all_modes (q_hat c X f) (run_L eig argsort (size := 1) (fun _ (i : 'I_n) => i) X w f) (run_V eig argsort (size := 1) (fun _ (i : 'I_n) => i) X w f)).
Proof. by []. Qed.
Lemma modes_unit (c : config C) (eig : 'M[C]_(n_blocks c) -> 'rV[C]_(n_blocks c) * 'M[C]_(n_blocks c)) argsort n (X : nat -> 'I_n -> C) (w : 'cV[C]_n) f H (k : 'I_(n_modes_save c)) :
  (forall i, 0 <= w i 0) -> eig_ok eig -> 0 < serial_eigs eig argsort X w f 0 (widen_ord H k) ->
  wip w (serial_modes eig argsort X w ord0 f H) (serial_modes eig argsort X w ord0 f H) k k = 1.
Proof.
move=> Hw Heig Hk; have SP := @serial_partition n; have HB : (0 < n_blocks c)%N by apply: leq_ltn_trans (ltn_ord (widen_ord H k)).
have He := run_eigenpairs argsort SP X Hw Heig f; rewrite serial_gram in He.
have Hp : 0 < run_L eig argsort (size := 1) (fun _ (i : 'I_n) => i) X w f 0 (widen_ord H k).
  by move: Hk; rewrite /serial_eigs run_eigsE // pmulr_rgt0 // one_sided_gt0.
have E := modes_orth HB Hw He Hp Hp (or_introl erefl); rewrite eqxx in E; apply: etrans E.
by apply: eq_bigr => i _; rewrite serial_kept !mxE.
Qed.
Lemma hat_sum (c : config C) n (X N : nat -> 'I_n -> C) f : normalize_data c = false -> q_hat c (fun t i => X t i + N t i) f = q_hat c X f + q_hat c N f.
Proof.
move=> Hn; apply/matrixP => i b; rewrite !mxE (hat_lin Hn (P := 2) (a := fun p => if p == ord0 then fun t => X t i else fun t => N t i) (g := fun=> 1)) => [|t].
  by rewrite !big_ord_recl big_ord0 /= !mul1r addr0.
by rewrite !big_ord_recl big_ord0 /= !mulr1 addr0.
Qed.
End Core.

(* ---- C153 ---- *)
(* the disturbed mode is close to a combination of the undisturbed modes whose eigenvalues are within g of its own; nu bounds the leading eigenvalue of the disturbance *)
Theorem C153_disturbed_modes : forall (C : numClosedFieldType) (c : config C) eig argsort eig' argsort' n (X N : nat -> 'I_n -> C) (w : 'cV[C]_n) f H
    (k0 : 'I_(n_blocks c)) (k : 'I_(n_modes_save c)) nu g,
  (forall i, 0 <= w i 0) -> eig_ok eig -> eig_basis eig -> argsort_ok argsort -> eig_ok eig' -> eig_basis eig' -> argsort_ok argsort' ->
  normalize_data c = false -> k0 = 0%N :> nat ->
  let Y := fun t i => X t i + N t i in
  let lam j := serial_eigs eig argsort X w f 0 j in
  let lam' := serial_eigs eig' argsort' Y w f 0 (widen_ord H k) in
  let phi := serial_modes eig argsort X w ord0 f H in
  let phi' := serial_modes eig' argsort' Y w ord0 f H in
  let e := 2%:R * sqrtC (lam k0 * nu) + nu in
  serial_eigs eig argsort N w f 0 k0 <= nu -> e < g -> 0 < lam' ->
  (forall j : 'I_(n_blocks c), `|lam j - lam (widen_ord H k)| < g -> (j < n_modes_save c)%N) ->
  exists z : 'I_(n_modes_save c) -> C, (forall j, z j != 0 -> `|lam (widen_ord H j) - lam (widen_ord H k)| < g /\ 0 < lam (widen_ord H j)) /\
    wlen w (fun i => phi' i k - \sum_j z j * phi i j) <= (sqrtC (lam k0) * (e / (g - e)) + sqrtC nu) / sqrtC lam'.
Proof.
move=> C c eig argsort eig' argsort' n X N w f H k0 k nu g Hw H1 H2 H3 H1' H2' H3' Hn H0 Y lam lam' phi phi' e Hnu eg l'0 Hs.
have SP := @serial_partition n; pose o := one_sided c f; have o0 : 0 < o := one_sided_gt0 c f.
have El j : lam j = o * run_L eig argsort (size := 1) (fun _ (i : 'I_n) => i) X w f 0 j by rewrite /lam /serial_eigs run_eigsE.
have El' : lam' = o * run_L eig' argsort' (size := 1) (fun _ (i : 'I_n) => i) Y w f 0 (widen_ord H k) by rewrite /lam' /serial_eigs run_eigsE.
have oU : o * o^-1 = 1 by rewrite mulfV ?gt_eqF.
have Hg t : t = o * (t / o) by rewrite mulrCA oU mulr1.
have G1 := run_L_ge0 argsort SP X Hw H1 f; have GN := run_L_ge0 argsort SP N Hw H1 f.
have nu0 : 0 <= nu / o.
  apply: divr_ge0; last exact: ltW.
  apply: le_trans Hnu; rewrite /serial_eigs run_eigsE //; apply: mulr_ge0 => //; exact: ltW.
pose e1 := 2%:R * sqrtC (run_L eig argsort (size := 1) (fun _ (i : 'I_n) => i) X w f 0 k0 * (nu / o)) + nu / o.
have Ee : e = o * e1.
  rewrite /e /e1 El mulrDr -(Hg nu); congr (_ + _).
  by rewrite {1}(Hg nu) mulrACA -expr2 (rootCMl _ _ (exprn_ge0 2 (ltW o0))) (sqrCK (ltW o0)) mulrCA.
have EM : reduced_M c (fun (_ : 'I_1) (i : 'I_n) => i) Y w f = gram (q_hat c X f + q_hat c N f) w by rewrite (reduced_gram SP) (hat_sum _ _ _ Hn).
have HM : hermitian (reduced_M c (fun (_ : 'I_1) (i : 'I_n) => i) Y w f) by rewrite (reduced_gram SP); exact: gram_herm.
have HN x : quad (gram (q_hat c N f) w) x <= nu / o * nrm x.
  have T := quad_top x H0 (gram_herm (q_hat c N f) Hw) (run_diag argsort SP N Hw H1 f) (run_V_unit SP N Hw H1 H2 H3 f) (fun i => ger0_real (GN i)) (run_desc SP N Hw H1 H3 f).
  apply: le_trans T _; apply: ler_wpmul2r; first exact: nrm_ge0.
  by rewrite ler_pdivl_mulr // mulrC; apply: le_trans Hnu; rewrite /serial_eigs run_eigsE.
have HX x : quad (gram (q_hat c X f) w) x <= run_L eig argsort (size := 1) (fun _ (i : 'I_n) => i) X w f 0 k0 * nrm x.
  exact: (quad_top x H0 (gram_herm (q_hat c X f) Hw) (run_diag argsort SP X Hw H1 f) (run_V_unit SP X Hw H1 H2 H3 f) (fun i => ger0_real (G1 i)) (run_desc SP X Hw H1 H3 f)).
have e10 : 0 <= e1 by rewrite addr_ge0 // mulr_ge0 ?ler0n // sqrtC_ge0 mulr_ge0.
have := core (f := f) (X := X) (R := q_hat c N f) (Mt := reduced_M c (fun (_ : 'I_1) (i : 'I_n) => i) Y w f) (k0 := k0) (k := widen_ord H k) (nu := nu / o) (e := e1) (g := g / o) H1 H2 H3 H1' H2' H3' Hw H0 HM.
rewrite -/o -/(run_L eig' argsort' (size := 1) (fun _ (i : 'I_n) => i) Y w f) -/(run_V eig' argsort' (size := 1) (fun _ (i : 'I_n) => i) Y w f).
rewrite -El' -Ee -(Hg nu) -(Hg g) -El => /(_ _ nu0 e10 _ HN) HC.
have {HC} HC : exists z : 'I_(n_blocks c) -> C, (forall j, z j != 0 -> `|run_L eig argsort (size := 1) (fun _ (i : 'I_n) => i) X w f 0 j - run_L eig argsort (size := 1) (fun _ (i : 'I_n) => i) X w f 0 (widen_ord H k)| < g / o /\ 0 < run_L eig argsort (size := 1) (fun _ (i : 'I_n) => i) X w f 0 j) /\
    wlen w (fun i => all_modes (q_hat c X f + q_hat c N f) (run_L eig' argsort' (size := 1) (fun _ (i : 'I_n) => i) Y w f) (run_V eig' argsort' (size := 1) (fun _ (i : 'I_n) => i) Y w f) i (widen_ord H k) - \sum_j z j * all_modes (q_hat c X f) (run_L eig argsort (size := 1) (fun _ (i : 'I_n) => i) X w f) (run_V eig argsort (size := 1) (fun _ (i : 'I_n) => i) X w f) i j)
    <= (sqrtC (lam k0) * (e / (g - e)) + sqrtC nu) / sqrtC lam'.
  apply: HC.
  - by move: l'0; rewrite El' pmulr_rgt0.
  - by rewrite -(ltr_pmul2l o0) -Ee -Hg.
  - by move=> x; rewrite EM; apply: form_moves.
have Hs' (j : 'I_(n_blocks c)) : `|run_L eig argsort (size := 1) (fun _ (i : 'I_n) => i) X w f 0 j - run_L eig argsort (size := 1) (fun _ (i : 'I_n) => i) X w f 0 (widen_ord H k)| < g / o -> (j < n_modes_save c)%N.
  by move=> Hj; apply: Hs; rewrite !El (Hg g) dist_scaled.
have [z [Hz Hb]] := saved_near Hs' HC.
exists z; split=> [j /Hz [A B]|].
  by rewrite !El (Hg g) dist_scaled // pmulr_rgt0.
by rewrite /phi' /phi !serial_kept (hat_sum _ _ _ Hn).
Qed.
Print Assumptions C153_disturbed_modes.
(* a mode whose eigenvalue is at least g away from all others: its correlation with the disturbed one *)
Theorem C153_isolated_mode : forall (C : numClosedFieldType) (c : config C) eig argsort eig' argsort' n (X N : nat -> 'I_n -> C) (w : 'cV[C]_n) f H
    (k0 : 'I_(n_blocks c)) (k : 'I_(n_modes_save c)) nu g,
  (forall i, 0 <= w i 0) -> eig_ok eig -> eig_basis eig -> argsort_ok argsort -> eig_ok eig' -> eig_basis eig' -> argsort_ok argsort' ->
  normalize_data c = false -> k0 = 0%N :> nat ->
  let Y := fun t i => X t i + N t i in
  let lam j := serial_eigs eig argsort X w f 0 j in
  let lam' := serial_eigs eig' argsort' Y w f 0 (widen_ord H k) in
  let phi := serial_modes eig argsort X w ord0 f H in
  let phi' := serial_modes eig' argsort' Y w ord0 f H in
  let e := 2%:R * sqrtC (lam k0 * nu) + nu in
  serial_eigs eig argsort N w f 0 k0 <= nu -> e < g -> 0 < lam (widen_ord H k) -> 0 < lam' ->
  (forall j : 'I_(n_blocks c), j != widen_ord H k -> g <= `|lam j - lam (widen_ord H k)|) ->
  1 - ((sqrtC (lam k0) * (e / (g - e)) + sqrtC nu) / sqrtC lam') ^+ 2 <= `|wip w phi phi' k k| ^+ 2.
Proof.
move=> C c eig argsort eig' argsort' n X N w f H k0 k nu g Hw H1 H2 H3 H1' H2' H3' Hn H0 Y lam lam' phi phi' e Hnu eg l0 l'0 Hs.
have SP := @serial_partition n; have o0 : 0 < one_sided c f := one_sided_gt0 c f.
have HB : (0 < n_blocks c)%N by apply: leq_ltn_trans (ltn_ord k0).
have Hk j : `|lam j - lam (widen_ord H k)| < g -> j = widen_ord H k.
  move=> Hj; apply/eqP; apply: contraTT Hj => /Hs Hj; by rewrite -real_leNgt // ?normr_real // (ler_real Hj) normr_real.
have Hsave (j : 'I_(n_blocks c)) : `|lam j - lam (widen_ord H k)| < g -> (j < n_modes_save c)%N by move=> /Hk ->; rewrite /= ltn_ord.
have [z [Hz Hb]] := C153_disturbed_modes Hw H1 H2 H3 H1' H2' H3' Hn H0 Hnu eg l'0 Hsave.
have Ez i : \sum_j z j * phi i j = z k * phi i k.
  rewrite (bigD1 k) //= big1 ?addr0 // => j Hj; case: (eqVneq (z j) 0) => [->|/Hz [/Hk /(congr1 val) /= Ej _]]; first by rewrite mul0r.
  by case/eqP: Hj; apply: val_inj.
have P1 : wip w phi phi k k = 1.
  exact: modes_unit.
have P2 : wip w phi' phi' k k = 1.
  exact: modes_unit.
rewrite ler_subl_addr -ler_subl_addl.
apply: le_trans (best_multiple (z k) Hw P1 P2) _.
have -> : wlen w (fun i => phi' i k - z k * phi i k) = wlen w (fun i => phi' i k - \sum_j z j * phi i j).
  by rewrite /wlen; congr sqrtC; apply: eq_bigr => i _; rewrite Ez.
apply: ler_expn2r => //; rewrite nnegrE; last by apply: le_trans Hb; rewrite sqrtC_ge0 sumr_ge0 // => i _; rewrite mulr_ge0 ?exprn_ge0.
by rewrite sqrtC_ge0 sumr_ge0 // => i _; rewrite mulr_ge0 ?exprn_ge0.
Qed.
Print Assumptions C153_isolated_mode.
(* in units of the data: every sample disturbed by at most s *)
Theorem C153_small_disturbance : forall (C : numClosedFieldType) (c : config C) eig argsort eig' argsort' n (X N : nat -> 'I_n -> C) (w : 'cV[C]_n) f H
    (k0 : 'I_(n_blocks c)) (k : 'I_(n_modes_save c)) s g,
  (forall i, 0 <= w i 0) -> eig_ok eig -> eig_basis eig -> argsort_ok argsort -> eig_ok eig' -> eig_basis eig' -> argsort_ok argsort' ->
  normalize_data c = false -> k0 = 0%N :> nat ->
  (n_dft c).-primitive_root (omega c) -> (forall j, (j < n_dft c)%N -> 0 <= window c j) -> 0 < \sum_(j < n_dft c) window c j -> (n_dft c <= nt c)%N ->
  (forall t i, (t < nt c)%N -> `|N t i| <= s) ->
  let Y := fun t i => X t i + N t i in
  let lam j := serial_eigs eig argsort X w f 0 j in
  let lam' := serial_eigs eig' argsort' Y w f 0 (widen_ord H k) in
  let phi := serial_modes eig argsort X w ord0 f H in
  let phi' := serial_modes eig' argsort' Y w ord0 f H in
  let nu := one_sided c f * ((2%:R * s) ^+ 2 * \sum_i w i 0) in
  let e := 2%:R * sqrtC (lam k0 * nu) + nu in
  e < g -> 0 < lam (widen_ord H k) -> 0 < lam' ->
  (forall j : 'I_(n_blocks c), j != widen_ord H k -> g <= `|lam j - lam (widen_ord H k)|) ->
  1 - ((sqrtC (lam k0) * (e / (g - e)) + sqrtC nu) / sqrtC lam') ^+ 2 <= `|wip w phi phi' k k| ^+ 2.
Proof.
move=> C c eig argsort eig' argsort' n X N w f H k0 k s g Hw H1 H2 H3 H1' H2' H3' Hn H0 Hom Hwin Hsum Hnt HN Y lam lam' phi phi' nu e eg l0 l'0 Hs.
have SP := @serial_partition n; have o0 : 0 < one_sided c f := one_sided_gt0 c f.
have Hnu : serial_eigs eig argsort N w f 0 k0 <= nu.
  rewrite /serial_eigs run_eigsE // /nu ler_pmul2l //.
  exact: (lead_small Hn Hom Hwin Hsum Hnt _ Hw HN (run_V_unit SP N Hw H1 H2 H3 f) (run_diag argsort SP N Hw H1 f) (run_L_ge0 argsort SP N Hw H1 f)).
exact: (C153_isolated_mode Hw H1 H2 H3 H1' H2' H3' Hn H0 Hnu eg l0 l'0 Hs).
Qed.
Print Assumptions C153_small_disturbance.
(* the same data, but the matrix of the blocks computed with an error of at most d in every entry: what the code does from that matrix on *)
Theorem C153_errors_in_the_matrix : forall (C : numClosedFieldType) (c : config C) eig argsort eig' argsort' n (X : nat -> 'I_n -> C) (w : 'cV[C]_n) f (H : (n_modes_save c <= n_blocks c)%N)
    (k0 : 'I_(n_blocks c)) (k : 'I_(n_modes_save c)) (Mt : 'M[C]_(n_blocks c)) d g,
  (forall i, 0 <= w i 0) -> eig_ok eig -> eig_basis eig -> argsort_ok argsort -> eig_ok eig' -> eig_basis eig' -> argsort_ok argsort' -> k0 = 0%N :> nat ->
  hermitian Mt -> (forall a b, `|Mt a b - serial_M c X w f a b| <= d) ->
  let Lt := sort_L argsort' (eig' Mt).1 in
  let Vt := sort_V argsort' (eig' Mt).1 (eig' Mt).2 in
  let lam j := serial_eigs eig argsort X w f 0 j in
  let lamt := eigs_of c f Lt 0 (widen_ord H k) in
  let phi := serial_modes eig argsort X w ord0 f H in
  let phit := kept_modes H (all_modes (q_hat c X f) Lt Vt) in
  let e := one_sided c f * (n_blocks c)%:R * d in
  e < g -> 0 < Lt 0 (widen_ord H k) ->
  (forall j : 'I_(n_blocks c), j != widen_ord H k -> g <= `|lam j - lam (widen_ord H k)|) ->
  exists z, wlen w (fun i => phit i k - z * phi i k) <= sqrtC (lam k0) * (e / (g - e)) / sqrtC lamt.
Proof.
move=> C c eig argsort eig' argsort' n X w f H k0 k Mt d g Hw H1 H2 H3 H1' H2' H3' H0 HM Hd Lt Vt lam lamt phi phit e eg l0 Hs.
have SP := @serial_partition n; pose o := one_sided c f; have o0 : 0 < o := one_sided_gt0 c f.
have El j : lam j = o * run_L eig argsort (size := 1) (fun _ (i : 'I_n) => i) X w f 0 j by rewrite /lam /serial_eigs run_eigsE.
have Elt : lamt = o * Lt 0 (widen_ord H k) by rewrite /lamt mxE ger0_norm // mulr_ge0 ?ltW.
have oU : o * o^-1 = 1 by rewrite mulfV ?gt_eqF.
have Hg t : t = o * (t / o) by rewrite mulrCA oU mulr1.
have d0 : 0 <= d by apply: le_trans (Hd k0 k0).
have EM : serial_M c X w f = gram (q_hat c X f) w by rewrite serial_gram.
have HE x : `|quad (Mt - gram (q_hat c X f) w) x| <= (n_blocks c)%:R * d * nrm x.
  by apply: quad_small => a b; rewrite mxE [X in _ + X]mxE -EM.
have HR x : quad (gram (0 : 'M[C]_(n, n_blocks c)) w) x <= 0 * nrm x.
  by rewrite mul0r quad_gramE big1 ?mulr0 // => i _; rewrite mul0mx mxE normr0 expr0n mulr0.
have eg' : (n_blocks c)%:R * d < g / o by rewrite -(ltr_pmul2l o0) -Hg mulrA.
have e0 : 0 <= (n_blocks c)%:R * d by rewrite mulr_ge0 ?ler0n.
have [z [Hz Hb]] := core (f := f) (X := X) (k0 := k0) (k := widen_ord H k) H1 H2 H3 H1' H2' H3' Hw H0 HM l0 (lexx 0) e0 eg' HR HE.
exists (z (widen_ord H k)); rewrite -/o in Hb.
have Ef : o * ((n_blocks c)%:R * d) = e by rewrite /e -/o mulrA.
rewrite Ef -Hg -El -Elt mulr0 sqrtC0 !addr0 in Hb; apply: le_trans Hb.
rewrite le_eqVlt; apply/orP; left; apply/eqP; rewrite /wlen; congr sqrtC; apply: eq_bigr => i _; congr (_ * `|_ - _| ^+ 2).
  by rewrite /phit mxE.
rewrite /phi serial_kept mxE (bigD1 (widen_ord H k)) //= big1 ?addr0 // => j Hj.
case: (eqVneq (z j) 0) => [->|/Hz [A _]]; first by rewrite mul0r.
have := Hs j Hj; rewrite !El (Hg g) => B; move: A; rewrite -(dist_scaled _ _ _ o0) => A.
by have := le_lt_trans B A; rewrite ltxx.
Qed.
Print Assumptions C153_errors_in_the_matrix.
(* the hypotheses are met: eight samples of two points in two blocks of four; a different point is active in each block (amplitudes 2 and 1); a disturbance
   of 1/10 of the first point. The eigenvalues at frequency 0 are 2 and 1/2; e = 41/200 < g = 3/2, and the bound on the correlation is about 0.96 *)
Section Example_C153.
Variable C : numClosedFieldType.
Variable om : C.
Let c : config C := Config 8 4 0 2 3 2 Zero false 0 (fun _ => 1) true om 1 (fun _ x => x).
Let record (A : 'I_2 -> C) : nat -> 'I_2 -> C := fun t i => if (t %/ 4 == i)%N then A i else 0.
Let w : 'cV[C]_2 := const_mx 1.
Variables (X : nat -> 'I_2 -> C) (A : 'I_2 -> C).
Hypothesis HX : forall t i, X t i = record A t i.
Lemma ex_hat : q_hat c X 0 = diag_mx (\row_i A i).
Proof.
apply/matrixP => i b; rewrite [LHS]mxE /block_hat /dft.
have Eo (k : 'I_4) : ((block_offset c b + k) %/ 4 = b)%N.
  by case: (b) => [[|[|]]] //= Hb; case: k => [[|[|[|[|]]]]].
have E (k : 'I_4) : block_windowed c (fun t => X t i) b k * omega c ^+ (0 * k) = if b == i then A i else 0.
  by rewrite mul0n expr0 mulr1 /block_windowed /block_normalized /block_centred /t_mean [window c k]/= mulr1 [mean_type c]/= /= subr0 HX /record Eo.
rewrite (eq_bigr _ (fun k _ => E k)) /win_weight /= !sumr_const card_ord.
have H4 : (4%:R : C) != 0 by rewrite pnatr_eq0.
rewrite divff // invr1 mul1r; set y := (if _ then _ else _); rewrite -(mulr_natl y 4) mulKf // /y mxE mxE.
by rewrite [b == i]eq_sym; case: (eqVneq i b) => [E2|_]; rewrite ?mulr1n ?mulr0n.
Qed.
Hypothesis HA : forall i, 0 <= A i.
Hypothesis H01 : A ord_max <= A ord0.
Lemma ex_gram : gram (q_hat c X 0) w = diag_mx (\row_i (A i ^+ 2 / 2%:R)).
Proof.
rewrite ex_hat; apply/matrixP => a b; rewrite gramE [RHS]mxE [in RHS]mxE.
rewrite (bigD1 a) //= big1 ?addr0 => [|i Hi]; last by rewrite [diag_mx _ i a]mxE (negbTE Hi) mulr0n rmorph0 !mul0r.
rewrite ![diag_mx _ _ _]mxE eqxx mulr1n ![(\row_i A i) _ _]mxE [w _ _]mxE mulr1 (CrealP (ger0_real (HA a))).
by case: (a =P b) => [_|_]; rewrite ?mulr1n ?mulr0n ?mulr0 // mulrC expr2.
Qed.
Lemma ex_eigs (eig : 'M[C]_(n_blocks c) -> 'rV[C]_(n_blocks c) * 'M[C]_(n_blocks c)) argsort k : eig_ok eig -> eig_basis eig -> argsort_ok argsort ->
  serial_eigs eig argsort X w 0 0 k = A k ^+ 2 / 2%:R.
Proof.
move=> H1 H2 H3; have Hw i : 0 <= w i 0 by rewrite mxE ler01.
have E : run_L eig argsort (size := 1) (fun _ (i : 'I_2) => i) X w 0 = \row_i (A i ^+ 2 / 2%:R).
  apply: (run_L_unique (@serial_partition 2) Hw H1 H2 H3 (V := 1%:M)); rewrite ?unitmx1 //.
    by rewrite mul1mx mulmx1 ex_gram.
  move=> i j Hij; rewrite !mxE ler_pmul2r ?invr_gt0 ?ltr0n // ler_sqr ?nnegrE //.
  case: (eqVneq i j) => [->|Hne] //.
  have -> : i = ord0 by apply: val_inj; case: (i) (j) Hij Hne => [[|[|]] //= Hi] [[|[|]] //= Hj].
  have -> // : j = ord_max by apply: val_inj; case: (i) (j) Hij Hne => [[|[|]] //= Hi] [[|[|]] //= Hj].
rewrite /serial_eigs run_eigsE //; last exact: (@serial_partition 2).
by rewrite E mxE /one_sided /= mul1r.
Qed.
End Example_C153.
Definition amp (C : numClosedFieldType) (a b : C) : nat -> 'I_2 -> C := fun t i => if (t %/ 4 == i)%N then (if i == ord0 then a else b) else 0.
Example C153_nonvacuous (C : numClosedFieldType) (om : C) : exists eig argsort,
  let c : config C := Config 8 4 0 2 3 2 Zero false 0 (fun _ => 1) true om 1 (fun _ x => x) in
  let w : 'cV[C]_2 := const_mx 1 in
  let X := amp 2%:R 1 in let N := amp 10%:R^-1 0 in
  let lam j := serial_eigs (c := c) eig argsort X w 0 0 j in
  let nu := serial_eigs (c := c) eig argsort N w 0 0 ord0 in
  let e := 2%:R * sqrtC (lam ord0 * nu) + nu in let g := 3%:R / 2%:R in
  [/\ eig_ok eig, eig_basis eig, argsort_ok argsort, 0 < nu & e < g] /\
  [/\ 0 < lam ord0, 0 < serial_eigs (c := c) eig argsort (fun t i => X t i + N t i) w 0 0 ord0 & forall j : 'I_(n_blocks c), j != ord0 -> g <= `|lam j - lam ord0|].
Proof.
have [eig [H1 H2]] := eig_exists C 2; have [argsort H3] := argsort_exists C 2.
exists eig, argsort => c w X N lam nu.
have p10 : (0 : C) < 10%:R^-1 by rewrite invr_gt0 ltr0n.
have p2 : (0 : C) < 2%:R by rewrite ltr0n.
have EX j : lam j = (if j == ord0 then 2%:R else 1) ^+ 2 / 2%:R.
  by apply: (@ex_eigs _ om X (fun i => if i == ord0 then 2%:R else 1)) => // [i|]; [case: ifP; rewrite ?ler0n ?ler01|rewrite /= ler1n].
have EN : nu = 10%:R^-1 ^+ 2 / 2%:R.
  by apply: (@ex_eigs _ om N (fun i => if i == ord0 then 10%:R^-1 else 0) _ _ _ eig argsort ord0) => // [i|]; [case: ifP; rewrite ?lexx ?ltW|rewrite /= ltW].
have ES : serial_eigs (c := c) eig argsort (fun t i => X t i + N t i) w 0 0 ord0 = (2%:R + 10%:R^-1) ^+ 2 / 2%:R.
  apply: (@ex_eigs _ om (fun t i => X t i + N t i) (fun i => if i == ord0 then 2%:R + 10%:R^-1 else 1) _ _ _ eig argsort ord0) => // [t i|i|] /=.
  - by rewrite /X /N /amp; case: (t %/ 4 == i)%N; case: (i == ord0); rewrite ?addr0.
  - by case: ifP => _; rewrite ?ler01 // addr_ge0 ?ltW.
  - by apply: (@le_trans _ _ 2%:R); rewrite ?ler1n // ler_addl ltW.
have E0 : lam ord0 = 2%:R by rewrite EX eqxx expr2 mulfK ?gt_eqF.
have En : nu = (200%:R)^-1 by rewrite EN exprVn -invfM -natrX -natrM.
have E32 : 3%:R / 2%:R = 1 + 2%:R^-1 :> C by rewrite -[3%N]/(2 + 1)%N natrD mulrDl divff ?gt_eqF // mul1r.
have Eh : 2%:R^-1 + 2%:R^-1 = 1 :> C by rewrite -mulr2n -(mulr_natl (2%:R^-1) 2) mulfV ?gt_eqF.
split; split=> //.
- by rewrite En invr_gt0 ltr0n.
- rewrite E0 En E32.
  have -> : 2%:R * (200%:R)^-1 = (10%:R^-1 : C) ^+ 2.
    by rewrite -[200%N]/(2 * 100)%N natrM invfM mulVKf ?gt_eqF // exprVn -natrX.
  rewrite sqrCK ?ltW //; apply: ltr_add; first by rewrite ltr_pdivr_mulr ?ltr0n // mul1r ltr_nat.
  by rewrite ltf_pinv ?posrE ?ltr0n // ltr_nat.
- by rewrite E0.
- by rewrite ES divr_gt0 // exprn_gt0 // addr_gt0.
- move=> j Hj; rewrite E0 EX (negbTE Hj) expr1n mul1r E32.
  have -> : 2%:R^-1 - 2%:R = - (1 + 2%:R^-1) :> C.
    by apply/eqP; rewrite -subr_eq0 opprK addrCA [2%:R^-1 - _ + _]addrAC Eh addrA -mulr2n subrr.
  by rewrite normrN ger0_norm // addr_ge0 ?ler01 // ltW // invr_gt0.
Qed.
