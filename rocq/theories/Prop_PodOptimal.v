(* C138: how much of the variance the saved POD modes capture. *)
From mathcomp Require Import all_ssreflect fingroup.perm all_algebra.
From Verif Require Import Base_CRing Model_Spod Spec_Spod Spec_Coeffs Spec_Pod Model_Pod Proof_Spod Proof_Spectral Proof_StreamAlg Proof_StreamNum3 Proof_Svd Proof_RealSpectral Proof_Pod Proof_Optimal Proof_Optimal2 Prop_Pod.
Set Implicit Arguments.
Unset Strict Implicit.
Unset Printing Implicit Defensive.
Import GRing.Theory Num.Theory Order.TTheory.
Local Open Scope ring_scope.

(* ---- specification ---- *)
(* variance of the record along the fields psi_0 .. psi_(k-1): sum over snapshots of the squared weighted components of the fluctuation *)
Definition variance_along (C : numClosedFieldType) n nt k (w : 'cV[C]_n) (data : 'M[C]_(nt, n)) (psi : 'M[C]_(n, k)) : C :=
  \sum_j \sum_t `|\sum_x (psi x j)^* * fluctuation data t x * w x 0| ^+ 2.
Definition orthonormal (C : numClosedFieldType) n k (w : 'cV[C]_n) (psi : 'M[C]_(n, k)) : Prop := forall j l, wip w psi psi j l = (j == l)%:R.

Section Capture.
Variable C : numClosedFieldType.
Add Ring Cring : (cr_th C).
Ltac cring := cr_norm C; ring.
Variables (n nt : nat) (w : 'cV[C]_n) (data : 'M[C]_(nt, n)).
Hypothesis Hw : forall x, 0 <= w x 0.
Hypothesis Hr : real_mx data.
Notation D := (Dg data true).
Lemma fluct_Dg t x : fluctuation data t x = D x t.
Proof.
rewrite mxE /fluctuation (Creal_ReP _ (Hr _ _)); congr (_ - _ / _); apply: eq_bigr => s _; by rewrite mxE (Creal_ReP _ (Hr _ _)).
Qed.
Lemma along_wip k (psi : 'M[C]_(n, k)) : variance_along w data psi = \sum_j \sum_t `|wip w psi D j t| ^+ 2.
Proof. by apply: eq_bigr => j _; apply: eq_bigr => t _; congr (`|_| ^+ 2); apply: eq_bigr => x _; rewrite fluct_Dg. Qed.
Variables (L : 'rV[C]_nt) (V : 'M[C]_nt).
Hypothesis HE : eig_answer (Qg w data true) L V.
(* the field of eigenvector l *)
Definition field l : 'M[C]_(n, 1) := \matrix_(x, j) ((D *m V) x l / sqrtC (L 0 l)).
Lemma field_wip l t : L 0 l != 0 -> wip w (field l) D 0 t = sqrtC (L 0 l) * (V t l)^*.
Proof.
have [HP HV HVr] := HE; have H0 := L_ge0 Hw HP l.
move=> Hl; have Hs : sqrtC (L 0 l) != 0 by rewrite sqrtC_eq0.
have Hq : sqrtC (L 0 l) \is Num.real by rewrite ger0_real // sqrtC_ge0.
have E : (Qg w data true *m V) t l = L 0 l * V t l.
  by have := congr1 (fun M : 'cV_nt => M t 0) (HP.1 l); rewrite !mxE => <-; apply: eq_bigr => s _; rewrite !mxE.
apply: (mulfI Hs); rewrite mulrA -expr2 sqrtCK.
have E2 : L 0 l * (V t l)^* = ((Qg w data true *m V) t l)^* by rewrite E rmorphM; congr (_ * _); rewrite conj_Creal // ger0_real.
rewrite E2.
rewrite /wip mulr_sumr [(Qg _ _ _ *m V) t l]mxE rmorph_sum.
transitivity (\sum_x \sum_s (D x s * V s l)^* * D x t * w x 0).
  apply: eq_bigr => x _; rewrite [field l x 0]mxE rmorphM fmorphV (conj_Creal Hq).
  rewrite mxE rmorph_sum !mulr_suml mulr_sumr; apply: eq_bigr => s _.
  move: ((D x s * V s l)^* ) (D x t) => u v; rewrite -[RHS]mul1r -(mulfV Hs).
  by move: ((sqrtC (L 0 l))^-1) (sqrtC (L 0 l)) (w x 0) => p q z; cring.
rewrite exchange_big; apply: eq_bigr => s _; rewrite rmorphM /Qg [(adj D *m _) t s]mxE rmorph_sum mulr_suml.
apply: eq_bigr => x _; rewrite [adj D t x]mxE [wmul w D x s]mxE !rmorphM conjCK (conj_Creal (ger0_real (Hw x))).
by move: (D x s) (D x t) => u v; cring.
Qed.
Lemma field_along l : L 0 l != 0 -> variance_along w data (field l) = L 0 l.
Proof.
have [HP HV HVr] := HE; have H0 := L_ge0 Hw HP l.
move=> Hl; rewrite along_wip big_ord1 (eq_bigr (fun t => L 0 l * `|V t l| ^+ 2)) => [|t _].
  by rewrite -mulr_sumr HP.2 mulr1.
by rewrite field_wip // normrM exprMn norm_conjC ger0_norm ?sqrtC_ge0 // sqrtCK.
Qed.
Lemma field_unit l : L 0 l != 0 -> orthonormal w (field l).
Proof.
have [HP HV HVr] := HE; have H0 := L_ge0 Hw HP l.
move=> Hl i j; rewrite [i]ord1 [j]ord1 eqxx.
have Hs : sqrtC (L 0 l) != 0 by rewrite sqrtC_eq0.
have -> : wip w (field l) (field l) 0 0 = \sum_t wip w (field l) D 0 t * V t l / sqrtC (L 0 l).
  rewrite /wip (eq_bigr (fun x => \sum_t (field l x 0)^* * D x t * w x 0 * V t l / sqrtC (L 0 l))) => [|x _].
    by rewrite exchange_big; apply: eq_bigr => t _; rewrite !mulr_suml.
  rewrite [X in _ * X * _ = _]mxE [(D *m V) x l]mxE !mulr_suml mulr_sumr mulr_suml; apply: eq_bigr => t _.
  by move: (field l x 0) (D x t) => u v; cring.
rewrite (eq_bigr (fun t => `|V t l| ^+ 2)) => [|t _]; first exact: HP.2.
rewrite field_wip // normCKC -[RHS]mulr1 -(mulfV Hs).
by move: ((sqrtC (L 0 l))^-1) (sqrtC (L 0 l)) (V t l) => p q z; cring.
Qed.
Lemma best k (psi : 'M[C]_(n, k)) : desc L -> orthonormal w psi -> variance_along w data psi <= \sum_(j < nt | (j < k)%N) L 0 j.
Proof.
have [HP HV HVr] := HE; move=> Hd Ho.
have HZ : adj (sw w psi) *m sw w psi = 1%:M by apply/matrixP => j l; rewrite sw_wip // Ho mxE.
have EQ : 1 *: (adj (sw w D) *m sw w D) = Qg w data true.
  rewrite scale1r; apply/matrixP => s t; rewrite sw_wip // /Qg [RHS]mxE; apply: eq_bigr => x _.
  by rewrite [adj D s x]mxE [wmul w D x t]mxE mulrA.
have EV : (1 *: (adj (sw w D) *m sw w D)) *m V = V *m diag_mx L by rewrite EQ; exact: (QV HP).
have := ky_fan ltr01 HZ HV EV Hd; rewrite mul1r along_wip.
by under eq_bigr do under eq_bigr do rewrite sw_wip //.
Qed.
End Capture.

(* Every saved mode captures exactly its eigenvalue of the variance; if the eigensolver happened to list its eigenvalues in descending order,
   no orthonormal set of as many fields captures more than the saved ones ... *)
Theorem C138_saved_modes_capture : forall (C : numClosedFieldType) size n nt (nloc : 'I_size -> nat)
    (own : forall r, 'I_(nloc r) -> 'I_n) (w : 'cV[C]_n) (data : 'M[C]_(nt, n)) eig k (H : (k <= nt)%N) (Phi : 'M[C]_(n, k)),
  real_eig_ok eig -> partition_of own -> (forall x, 0 <= w x 0) -> real_mx data -> (0 < n)%N -> modes_in_file own w data true eig H Phi ->
  (forall j, variance_along w data (col j Phi) = pod_w own w data true eig 0 (widen_ord H j)) /\
  ((forall i j : 'I_nt, (i <= j)%N -> pod_w own w data true eig 0 j <= pod_w own w data true eig 0 i) ->
   forall psi : 'M[C]_(n, k), orthonormal w psi -> variance_along w data psi <= variance_along w data Phi).
Proof.
move=> C size n nt nloc own w data eig k H Phi Heig Hown Hw Hr Hn HPhi.
have HE := answer data true Heig Hw; have Ew : pod_w own w data true eig = (eig (Qg w data true)).1 by rewrite /pod_w pod_QE.
have E x j := Phi_entry Heig Hown Hw HPhi x j.
have Hcol j : variance_along w data (col j Phi) = pod_w own w data true eig 0 (widen_ord H j).
  rewrite Ew -(field_along Hw Hr HE (E (Ordinal Hn) j).1); congr variance_along.
  by apply/matrixP => x i; rewrite !mxE (E x j).2 mxE.
split=> // Hd psi Hpsi; apply: le_trans (best Hw Hr HE _ Hpsi) _; first by rewrite -Ew.
rewrite -Ew (_ : variance_along w data Phi = \sum_j variance_along w data (col j Phi)); last first.
  by apply: eq_bigr => j _; rewrite /variance_along big_ord1; apply: eq_bigr => t _; congr (`|_| ^+ 2); apply: eq_bigr => x _; rewrite mxE.
rewrite (eq_bigr (fun j => pod_w own w data true eig 0 (widen_ord H j))) => [|j _]; last exact: Hcol.
pose F (j : nat) : C := if insub j is Some i then pod_w own w data true eig 0 i else 0.
have EF (i : 'I_nt) : pod_w own w data true eig 0 i = F i by rewrite /F valK.
rewrite (eq_bigr (fun i : 'I_nt => F i)) => [|i _]; last exact: EF.
rewrite -(big_ord_widen nt F H) le_eqVlt; apply/orP; left; apply/eqP; apply: eq_bigr => j _; by rewrite EF.
Qed.
Print Assumptions C138_saved_modes_capture.

(* ... but fit does not sort: for every record with one dominant eigenvalue there is an admissible eigensolver with which the single saved mode
   captures less than some other unit field. *)
Theorem C138_saved_mode_not_optimal_refuted : forall (C : numClosedFieldType) size n nt (nloc : 'I_size -> nat)
    (own : forall r, 'I_(nloc r) -> 'I_n) (w : 'cV[C]_n) (data : 'M[C]_(nt, n)) eig (b : 'I_nt) (H : (1 <= nt)%N),
  real_eig_ok eig -> partition_of own -> (forall x, 0 <= w x 0) -> real_mx data -> (0 < n)%N -> (1 < nt)%N ->
  (forall j, j != b -> pod_w own w data true eig 0 j < pod_w own w data true eig 0 b) ->
  exists eig', real_eig_ok eig' /\ exists psi : 'M[C]_(n, 1), orthonormal w psi /\
    forall Phi : 'M[C]_(n, 1), modes_in_file own w data true eig' H Phi -> variance_along w data Phi < variance_along w data psi.
Proof.
move=> C size n nt nloc own w data eig b H Heig Hown Hw Hr Hn Hnt Hb.
have [eig' [Heig' [m [Hm [Em Hlt]]]]] := C62_energy_order_refuted Heig Hw Hb Hnt.
have HE := answer data true Heig' Hw; have Ew : pod_w own w data true eig' = (eig' (Qg w data true)).1 by rewrite /pod_w pod_QE.
have Hz : 0 < pod_w own w data true eig' 0 m.
  apply: le_lt_trans (Hlt (Ordinal H) isT); rewrite Ew; have [HP _ _] := HE; exact: (L_ge0 Hw HP).
exists eig'; split=> //; exists (field data (eig' (Qg w data true)).1 (eig' (Qg w data true)).2 m); split.
  by apply: field_unit => //; rewrite -Ew lt0r_neq0.
move=> Phi HPhi; rewrite field_along // -?Ew ?lt0r_neq0 //.
have [Hc _] := C138_saved_modes_capture Heig' Hown Hw Hr Hn HPhi.
have -> : variance_along w data Phi = variance_along w data (col 0 Phi).
  by rewrite /variance_along !big_ord1; apply: eq_bigr => t _; congr (`|_| ^+ 2); apply: eq_bigr => x _; rewrite mxE.
by rewrite Hc; apply: Hlt.
Qed.
Print Assumptions C138_saved_mode_not_optimal_refuted.

(* the hypotheses of C138_saved_mode_not_optimal_refuted are met: one point, the two snapshots 1 and -1, one process *)
Example dominant_eigenvalue_met : forall C : numClosedFieldType,
  let own := (fun _ i => i) : forall r : 'I_1, 'I_1 -> 'I_1 in let w := const_mx 1 : 'cV[C]_1 in
  let data := \matrix_(t < 2, x < 1) (if t == 0 then 1 else -1) : 'M[C]_(2, 1) in
  exists eig b, real_eig_ok eig /\ partition_of own /\ (forall x, 0 <= w x 0) /\ real_mx data /\
    forall j, j != b -> pod_w own w data true eig 0 j < pod_w own w data true eig 0 b.
Proof.
move=> C own w data.
have Hw x : 0 <= w x 0 by rewrite mxE ler01.
have Hown : partition_of own := @serial_partition 1.
have Hr : real_mx data by move=> t x; rewrite mxE; case: eqP => _; rewrite ?rpredN rpred1.
have [eig [Heig _]] := real_eig_exists C 2.
have [HE HV HVr] := answer data true Heig Hw.
have Ew : pod_w own w data true eig = (eig (Qg w data true)).1 by rewrite /pod_w pod_QE.
have EQ := QV HE.
have HQ01 : Qg w data true 0 1 != 0.
  have E1 : 'Re (1 : C) = 1 by apply: Creal_ReP; exact: rpred1.
  have ED t : Dg data true 0 t = if t == 0 then 1 else -1.
    rewrite mxE; have Es : time_mean (rpart data) 0 = 0 by rewrite /time_mean !big_ord_recl big_ord0 !mxE /= raddfN /= E1 addr0 subrr mul0r.
    by rewrite Es subr0 !mxE; case: eqP => _; rewrite ?raddfN /= E1.
  rewrite /Qg mxE big_ord1 [adj _ _ _]mxE [wmul _ _ _ _]mxE !ED /= mxE.
  by rewrite rmorph1 !mul1r ?mulr1 oppr_eq0 oner_eq0.
set L := (eig _).1 in HE EQ Ew; set V := (eig _).2 in HE HV HVr EQ.
have HL j : 0 <= L 0 j by exact: (L_ge0 Hw HE).
have Hne : L 0 0 != L 0 1.
  apply: contra_neq HQ01 => E01.
  have : diag_mx L = (L 0 0)%:M.
    by apply/matrixP => i j; rewrite !mxE; case: eqP => [->|]; rewrite ?mulr0n // ?mulr1n; case/orP: (orbN (j == 0)) => [/eqP -> //|]; case: j => [[|[|//]] Hj] // _; rewrite E01; congr (L 0 _); apply: val_inj.
  move=> E; have EE : Qg w data true = (L 0 0)%:M.
    by rewrite -[LHS](mulmxK HV) EQ E mul_mx_scalar -scalemxAl mulmxV // scalemx1.
  by rewrite EE mxE.
have Hcmp : (L 0 0 < L 0 1) || (L 0 1 < L 0 0).
  by move: Hne; rewrite real_neqr_lt ?ger0_real.
case/orP: Hcmp => Hlt; [exists eig, 1|exists eig, 0]; rewrite Ew; (do !split=> //) => j Hj.
  by have -> : j = 0 by case: j Hj => [[|[|//]] Hj] // _; apply: val_inj.
by have -> : j = 1 by case: j Hj => [[|[|//]] Hj] // _; apply: val_inj.
Qed.
