(* Property theorems C59, C60, C62, C89-C93: POD. *)
From mathcomp Require Import all_ssreflect fingroup.perm all_algebra.
From Verif Require Import Base_CRing Model_Spod Spec_Spod Spec_Coeffs Spec_Pod Model_Pod Proof_Spod Proof_Spectral Proof_StreamAlg Proof_StreamNum3 Proof_Svd Proof_RealSpectral Proof_Pod Proof_Coeffs.
Set Implicit Arguments.
Unset Strict Implicit.
Unset Printing Implicit Defensive.
Import GRing.Theory Num.Theory Order.TTheory.
Local Open Scope ring_scope.

(* an eigen-solver as required exists, at every size; it can even be orthonormal *)
Example real_eig_routine_exists : forall (C : numClosedFieldType) n, exists eig, @real_eig_ok C n eig /\
  forall M, hermitian M -> real_mx M -> adj (eig M).2 *m (eig M).2 = 1%:M.
Proof. exact: real_eig_exists. Qed.

(* ---- C59 ---- *)
Theorem C59_rank_independence : forall (C : numClosedFieldType) size n nt (nloc : 'I_size -> nat)
    (own : forall r, 'I_(nloc r) -> 'I_n) (w : 'cV[C]_n) (data : 'M[C]_(nt, n)) longtime eig,
  partition_of own ->
  pod_w own w data longtime eig = pod_w (size := 1) (fun _ (i : 'I_n) => i) w data longtime eig /\
  (forall k (H : (k <= nt)%N) r i j, pod_saved own w data longtime eig H (r := r) i j = serial_pod_saved w data longtime eig H (own r i) j) /\
  (forall k (Phi : 'M[C]_(n, k)) r i t, pod_rec own Phi data (r := r) i t = serial_pod_rec Phi data (own r i) t).
Proof.
move=> C size n nt nloc own w data longtime eig Hown; split; [|split].
- by rewrite /pod_w pod_QE // (pod_QE _ _ _ (id_partition n)).
- by move=> k H r i j; rewrite /serial_pod_saved /pod_saved pod_phiE // (pod_phiE _ _ _ (id_partition n)).
- by move=> k Phi r i t; rewrite /serial_pod_rec pod_recE // (pod_recE (id_partition n)).
Qed.
Print Assumptions C59_rank_independence.

(* ---- C90 ---- *)
(* the mean computed in two halves plus a remainder is the mean, for every length *)
Theorem C90_pod_mean : forall (C : numClosedFieldType) size n nt (nloc : 'I_size -> nat)
    (own : forall r, 'I_(nloc r) -> 'I_n) (data : 'M[C]_(nt, n)) r (i : 'I_(nloc r)),
  real_mx data -> long_t_mean own data i = time_mean data (own r i).
Proof.
move=> C size n nt nloc own data r i Hr; rewrite long_t_meanE /time_mean; congr (_ / _); apply: eq_bigr => t _.
by rewrite (Creal_ReP _ (Hr _ _)).
Qed.
Print Assumptions C90_pod_mean.

(* ---- C91 ---- *)
(* complex records: everything fit computes is computed from the real part *)
Theorem C91_imaginary_part_lost_refuted : forall (C : numClosedFieldType) size n nt (nloc : 'I_size -> nat)
    (own : forall r, 'I_(nloc r) -> 'I_n) (w : 'cV[C]_n) (data data' : 'M[C]_(nt, n)) longtime eig,
  (forall t x, 'Re (data t x) = 'Re (data' t x)) ->
  pod_w own w data longtime eig = pod_w own w data' longtime eig /\
  forall k (H : (k <= nt)%N) r i j, pod_saved own w data longtime eig H (r := r) i j = pod_saved own w data' longtime eig H (r := r) i j.
Proof.
move=> C size n nt nloc own w data data' longtime eig Hre.
have Hb r t (i : 'I_(nloc r)) : buf own data t i = buf own data' t i by rewrite /buf; case: insub => // s.
have Hd r : d_mat own data longtime r = d_mat own data' longtime r.
  apply/matrixP => i t; rewrite !mxE Hb /t_mean_pod; case: longtime => //; rewrite /long_t_mean.
  by congr (_ - (_ + _ + _) / _); rewrite ?(eq_bigr _ (fun s _ => Hb r s i)).
have HQ : pod_Q own w data longtime = pod_Q own w data' longtime by rewrite /pod_Q; apply: eq_bigr => r _; rewrite Hd.
split; first by rewrite /pod_w HQ.
by move=> k H r i j; rewrite /pod_saved /pod_phi /pod_w /pod_v HQ Hd.
Qed.
Print Assumptions C91_imaginary_part_lost_refuted.

(* the modes that end up in the file are those of a matrix Phi *)
Definition modes_in_file (C : numClosedFieldType) size n nt (nloc : 'I_size -> nat) (own : forall r, 'I_(nloc r) -> 'I_n)
    (w : 'cV[C]_n) (data : 'M[C]_(nt, n)) longtime eig k (H : (k <= nt)%N) (Phi : 'M[C]_(n, k)) : Prop :=
  forall r i j, pod_saved own w data longtime eig H (r := r) i j = Some (Phi (own r i) j).
Definition eigs_of (C : numClosedFieldType) size n nt (nloc : 'I_size -> nat) (own : forall r, 'I_(nloc r) -> 'I_n)
    (w : 'cV[C]_n) (data : 'M[C]_(nt, n)) longtime eig := pod_w own w data longtime eig.

Section Common.
Variable C : numClosedFieldType.
Variables (size n nt : nat) (nloc : 'I_size -> nat) (own : forall r, 'I_(nloc r) -> 'I_n).
Variable w : 'cV[C]_n.
Variable data : 'M[C]_(nt, n).
Variable longtime : bool.
Lemma Dg_real : real_mx (Dg data longtime).
Proof.
move=> x t; rewrite mxE rpredB ?Creal_Re //; case: longtime => /=; last exact: rpred0.
by rewrite /time_mean rpred_div ?realn // rpred_sum // => s _; rewrite mxE Creal_Re.
Qed.
Variable eig : 'M[C]_nt -> 'rV[C]_nt * 'M[C]_nt.
Hypothesis Heig : real_eig_ok eig.
Hypothesis Hown : partition_of own.
Hypothesis Hw : forall x, 0 <= w x 0.
Lemma answer : eig_answer (Qg w data longtime) (eig (Qg w data longtime)).1 (eig (Qg w data longtime)).2.
Proof. by apply: Heig; [apply: Q_herm|apply: Q_real => //; apply: Dg_real]. Qed.
Variables (k : nat) (H : (k <= nt)%N) (Phi : 'M[C]_(n, k)).
Hypothesis HPhi : modes_in_file own w data longtime eig H Phi.
Lemma Phi_entry x j : (eig (Qg w data longtime)).1 0 (widen_ord H j) != 0 /\
  Phi x j = (Dg data longtime *m (eig (Qg w data longtime)).2) x (widen_ord H j) / sqrtC ((eig (Qg w data longtime)).1 0 (widen_ord H j)).
Proof.
have [r [i Ei]] := own_surj Hown x; have := HPhi i j; rewrite /pod_saved pod_phiE // Ei; case: ifP => // /negbT Hn [<-]; split=> //.
congr (_ / _); apply: Creal_ReP; apply: real_mul; first exact: Dg_real.
by have [_ _] := answer.
Qed.
End Common.

(* ---- C92 ---- *)
Theorem C92_orthonormal_modes : forall (C : numClosedFieldType) size n nt (nloc : 'I_size -> nat)
    (own : forall r, 'I_(nloc r) -> 'I_n) (w : 'cV[C]_n) (data : 'M[C]_(nt, n)) longtime eig k (H : (k <= nt)%N) (Phi : 'M[C]_(n, k)),
  real_eig_ok eig -> partition_of own -> (forall x, 0 <= w x 0) -> modes_in_file own w data longtime eig H Phi ->
  leading_ok k (pod_w own w data longtime eig) (pod_v own w data longtime eig) ->
  (forall x j, Phi x j \is Num.real) /\ (0 < n -> forall j l, wip w Phi Phi j l = (j == l)%:R)%N.
Proof.
move=> C size n nt nloc own w data longtime eig k H Phi Heig Hown Hw HPhi; rewrite /pod_w /pod_v pod_QE // => Hlead.
have [HE HV HVr] := answer data longtime Heig Hw.
have E x j := Phi_entry Heig Hown Hw HPhi x j.
split=> [x j|Hn j l].
  rewrite (E x j).2 rpred_div //; first by apply: real_mul => //; exact: Dg_real.
  by rewrite ger0_real // sqrtC_ge0 (L_ge0 Hw HE).
apply: (Phi_orth Hw HE _ Hlead (fun x j => (E x j).2)) => j' Hj'.
have := (E (Ordinal Hn) (Ordinal Hj')).1; by rewrite (_ : widen_ord H _ = j') //; apply: val_inj.
Qed.
Print Assumptions C92_orthonormal_modes.

(* ---- C60 ---- *)
Lemma fluct_D (C : numClosedFieldType) n nt (data : 'M[C]_(nt, n)) longtime : real_mx data ->
  \matrix_(x, t) fluctuation data t x = Dg data longtime *m (1%:M - const_mx (nt%:R^-1)).
Proof.
move=> Hr; have Hre t x : 'Re (data t x) = data t x by exact: Creal_ReP.
have Hm x : time_mean (rpart data) x = time_mean data x.
  by rewrite /time_mean; congr (_ / _); apply: eq_bigr => s _; rewrite mxE Hre.
apply/matrixP => x t; rewrite mulmxBr mulmx1 [LHS]mxE [RHS]mxE [X in _ = _ + X]mxE [X in _ = _ - X]mxE.
under eq_bigr do rewrite [const_mx _ _ _]mxE.
have Hnt : nt%:R != 0 :> C by case: nt t {data Hr Hre Hm} => [[]//|m] _; rewrite pnatr_eq0.
rewrite -mulr_suml [Dg _ _ _ _]mxE Hre Hm.
have -> : \sum_s Dg data longtime x s = \sum_s data s x - (if longtime then nt%:R * time_mean data x else 0).
  rewrite (eq_bigr (fun s => data s x - (if longtime then time_mean data x else 0))); last by move=> s _; rewrite mxE Hre Hm.
  rewrite sumrB sumr_const card_ord; case: longtime; by rewrite ?mul0rn // mulr_natl.
rewrite /fluctuation; case: longtime; last by rewrite !subr0.
by rewrite [X in _ = _ - X * _](_ : _ = 0) ?mul0r ?subr0 // /time_mean mulrC divfK // subrr.
Qed.
(* constant weights c, all modes of non-zero energy saved: the fluctuation comes back divided by c *)
Theorem C60_constant_weights : forall (C : numClosedFieldType) size n nt (nloc : 'I_size -> nat)
    (own : forall r, 'I_(nloc r) -> 'I_n) (w : 'cV[C]_n) (data : 'M[C]_(nt, n)) longtime eig k (H : (k <= nt)%N) (Phi : 'M[C]_(n, k)) c,
  real_eig_ok eig -> partition_of own -> real_mx data -> 0 < c -> (forall x, w x 0 = c) ->
  modes_in_file own w data longtime eig H Phi ->
  leading_ok k (pod_w own w data longtime eig) (pod_v own w data longtime eig) ->
  (forall j : 'I_nt, (k <= j)%N -> pod_w own w data longtime eig 0 j = 0) ->
  forall r (i : 'I_(nloc r)) t, pod_rec own Phi data i t = time_mean data (own r i) + fluctuation data t (own r i) / c.
Proof.
move=> C size n nt nloc own w data longtime eig k H Phi c Heig Hown Hr Hc Hwc HPhi.
have Hw x : 0 <= w x 0 by rewrite Hwc ltW.
rewrite /pod_w /pod_v pod_QE // => Hlead Hz r i t.
have [HE HV HVr] := answer data longtime Heig Hw.
have E x j := Phi_entry Heig Hown Hw HPhi x j.
rewrite pod_recE // addrC; congr (_ + _).
have Hpos (j' : 'I_nt) : (j' < k)%N -> (eig (Qg w data longtime)).1 0 j' != 0.
  move=> Hj'; have := (E (own r i) (Ordinal Hj')).1; by rewrite (_ : widen_ord H _ = j') //; apply: val_inj.
have EP := Phi_rec Hw (@Dg_real _ _ _ data longtime) HE HVr Hpos Hlead (fun x j => (E x j).2) Hc Hwc HV Hz.
have EF := fluct_D longtime Hr; set F := \matrix_(x, s) fluctuation data s x in EF.
have : (Phi *m (Phi^T *m F)) (own r i) t = (c^-1 *: F) (own r i) t.
  by rewrite EF !mulmxA -[Phi *m _ *m _]mulmxA EP -scalemxAl.
rewrite [RHS]mxE [F _ _]mxE mulrC => <-; rewrite mxE; apply: eq_bigr => j _; congr (_ * _).
by rewrite mxE; apply: eq_bigr => x _; rewrite !mxE.
Qed.
Print Assumptions C60_constant_weights.
Theorem C60_unit_weights_exact : forall (C : numClosedFieldType) size n nt (nloc : 'I_size -> nat)
    (own : forall r, 'I_(nloc r) -> 'I_n) (w : 'cV[C]_n) (data : 'M[C]_(nt, n)) longtime eig k (H : (k <= nt)%N) (Phi : 'M[C]_(n, k)),
  real_eig_ok eig -> partition_of own -> real_mx data -> (forall x, w x 0 = 1) ->
  modes_in_file own w data longtime eig H Phi ->
  leading_ok k (pod_w own w data longtime eig) (pod_v own w data longtime eig) ->
  (forall j : 'I_nt, (k <= j)%N -> pod_w own w data longtime eig 0 j = 0) ->
  forall r (i : 'I_(nloc r)) t, pod_rec own Phi data i t = data t (own r i).
Proof.
move=> C size n nt nloc own w data longtime eig k H Phi Heig Hown Hr Hw HPhi Hl Hz r i t.
by rewrite (C60_constant_weights Heig Hown Hr ltr01 Hw HPhi Hl Hz) divr1 addrC subrK.
Qed.
Print Assumptions C60_unit_weights_exact.
(* other constant weights: exact only where the data are constant in time *)
Theorem C60_weights_ignored_refuted : forall (C : numClosedFieldType) size n nt (nloc : 'I_size -> nat)
    (own : forall r, 'I_(nloc r) -> 'I_n) (w : 'cV[C]_n) (data : 'M[C]_(nt, n)) longtime eig k (H : (k <= nt)%N) (Phi : 'M[C]_(n, k)) c,
  real_eig_ok eig -> partition_of own -> real_mx data -> 0 < c -> c != 1 -> (forall x, w x 0 = c) ->
  modes_in_file own w data longtime eig H Phi ->
  leading_ok k (pod_w own w data longtime eig) (pod_v own w data longtime eig) ->
  (forall j : 'I_nt, (k <= j)%N -> pod_w own w data longtime eig 0 j = 0) ->
  forall r (i : 'I_(nloc r)) t, pod_rec own Phi data i t = data t (own r i) <-> data t (own r i) = time_mean data (own r i).
Proof.
move=> C size n nt nloc own w data longtime eig k H Phi c Heig Hown Hr Hc Hc1 Hw HPhi Hl Hz r i t.
rewrite (C60_constant_weights Heig Hown Hr Hc Hw HPhi Hl Hz) /fluctuation.
move: (data t _) (time_mean _ _) => a m; split=> [E|->]; last by rewrite subrr mul0r addr0.
have Hc0 : c != 0 by exact: lt0r_neq0.
have : (a - m) * (1 - c^-1) = 0.
  have {}E : (a - m) / c = a - m by apply: (addrI m); rewrite E addrC subrK.
  by rewrite mulrBr mulr1 E subrr.
move/eqP; rewrite mulf_eq0 subr_eq0 => /orP [/eqP // |]; rewrite subr_eq0 => /eqP E1; case/eqP: Hc1.
by rewrite -[c]invrK -E1 invr1.
Qed.
Print Assumptions C60_weights_ignored_refuted.
(* unit weights, any number of saved modes: best approximation *)
Theorem C60_unit_weights_least_squares : forall (C : numClosedFieldType) size n nt (nloc : 'I_size -> nat)
    (own : forall r, 'I_(nloc r) -> 'I_n) (w : 'cV[C]_n) (data : 'M[C]_(nt, n)) longtime eig k (H : (k <= nt)%N) (Phi : 'M[C]_(n, k)),
  real_eig_ok eig -> partition_of own -> real_mx data -> (forall x, w x 0 = 1) ->
  modes_in_file own w data longtime eig H Phi ->
  leading_ok k (pod_w own w data longtime eig) (pod_v own w data longtime eig) ->
  forall t b, misfit w Phi data t (fun j => pod_coeffs own Phi data j t) <= misfit w Phi data t b.
Proof.
move=> C size n nt nloc own w data longtime eig k H Phi Heig Hown Hr Hw1 HPhi Hl t b.
have Hw x : 0 <= w x 0 by rewrite Hw1 ler01.
have [HR HO] := C92_orthonormal_modes Heig Hown Hw HPhi Hl.
case: (posnP n) => Hn.
  suff E a : misfit w Phi data t a = 0 by rewrite !E.
  by rewrite /misfit big1 // => x; move: (ltn_ord x); rewrite {2}Hn.
have HG : G w Phi *m 1%:M *m G w Phi = G w Phi.
  suff -> : G w Phi = 1%:M by rewrite !mulmx1.
  apply/matrixP => i j; rewrite [RHS]mxE -HO // /G -mulmxA mxE /wip; apply: eq_bigr => x _.
  by rewrite W_mulE mxE [w x 0 * _]mulrC mulrA.
have := @least_squares C n k nt w Phi Hw data 1%:M HG t b; congr (_ <= _); apply: eq_bigr => x _; congr (_ * `|_ - _| ^+ 2).
apply: eq_bigr => j _; congr (_ * _); rewrite mul1mx pod_coeffsE // -mulmxA mxE; apply: eq_bigr => y _.
by rewrite W_mulE Hw1 mul1r !mxE real_conjE.
Qed.
Print Assumptions C60_unit_weights_least_squares.

(* ---- C62 ---- *)
Lemma col_perm_answer (C : numClosedFieldType) n (M : 'M[C]_n) L V (s : 'S_n) : eig_answer M L V ->
  eig_answer M (col_perm s L) (col_perm s V).
Proof.
move=> [[H1 H2] H3 H4]; split; first split=> j.
- have -> : col j (col_perm s V) = col (s j) V by apply/matrixP => a b; rewrite !mxE.
  by rewrite H1 [col_perm s L _ _]mxE.
- by rewrite -[RHS](H2 (s j)); apply: eq_bigr => i _; rewrite mxE.
- by rewrite col_permE unitmx_mul H3 unitmx_perm.
- by move=> i j; rewrite mxE.
Qed.
(* whatever the solver, another admissible one leaves the most energetic mode out, unless every mode is saved *)
Theorem C62_energy_order_refuted : forall (C : numClosedFieldType) size n nt (nloc : 'I_size -> nat)
    (own : forall r, 'I_(nloc r) -> 'I_n) (w : 'cV[C]_n) (data : 'M[C]_(nt, n)) longtime eig (b : 'I_nt),
  real_eig_ok eig -> (forall x, 0 <= w x 0) ->
  (forall j, j != b -> pod_w own w data longtime eig 0 j < pod_w own w data longtime eig 0 b) ->
  forall k, (k < nt)%N ->
  exists eig', real_eig_ok eig' /\ exists m : 'I_nt, (k <= m)%N /\
    pod_w own w data longtime eig' 0 m = pod_w own w data longtime eig 0 b /\
    forall j : 'I_nt, (j < k)%N -> pod_w own w data longtime eig' 0 j < pod_w own w data longtime eig' 0 m.
Proof.
move=> C size n nt nloc own w data longtime eig b Heig Hw Hb k Hk.
have Hl : (nt.-1 < nt)%N by rewrite prednK //; apply: leq_ltn_trans Hk.
pose m := Ordinal Hl; pose s := tperm m b; set Q := pod_Q own w data longtime.
exists (fun M => if M == Q then (col_perm s (eig M).1, col_perm s (eig M).2) else eig M); split.
  move=> M HM HR; case: eqP => _; last exact: Heig.
  by apply: col_perm_answer; exact: Heig.
exists m; rewrite /pod_w -/Q eqxx /=; have Hkm : (k <= nt.-1)%N by rewrite -ltnS prednK //; apply: leq_ltn_trans Hk.
split; first exact: Hkm.
have Em : col_perm s (eig Q).1 0 m = (eig Q).1 0 b by rewrite mxE tpermL.
split=> // j Hj; rewrite Em mxE; apply: Hb.
apply/eqP => E; have : s (s j) = s b by rewrite E.
rewrite tpermK tpermR => Ej; by move: Hj; rewrite Ej ltnNge Hkm.
Qed.
Print Assumptions C62_energy_order_refuted.

(* ---- C89 ---- *)
(* the mean is removed, so one eigenvalue is zero and the mode of that column is not a number: saving as many modes
   as snapshots always stores an undefined one *)
Theorem C89_undefined_mode_refuted : forall (C : numClosedFieldType) size n nt (nloc : 'I_size -> nat)
    (own : forall r, 'I_(nloc r) -> 'I_n) (w : 'cV[C]_n) (data : 'M[C]_(nt, n)) eig,
  real_eig_ok eig -> partition_of own -> (forall x, 0 <= w x 0) -> (0 < nt)%N ->
  exists j : 'I_nt, forall r i, pod_saved own w data true eig (leqnn nt) (r := r) i j = None.
Proof.
move=> C size n nt nloc own w data eig Heig Hown Hw Hnt.
have [HE HV HVr] := answer data true Heig Hw.
have HQ1 : Qg w data true *m (const_mx 1 : 'cV_nt) = 0.
  rewrite /Qg wmulE -!mulmxA [Dg _ _ *m _](_ : _ = 0) ?mulmx0 //.
  apply/matrixP => x y; rewrite [RHS]mxE mxE.
  under eq_bigr do rewrite [const_mx _ _ _]mxE mulr1 mxE.
  rewrite sumrB sumr_const card_ord /time_mean.
  have -> : \sum_t rpart data t x = \sum_t 'Re (data t x) by apply: eq_bigr => t _; rewrite mxE.
  by rewrite -mulr_natr divfK ?subrr // pnatr_eq0 -lt0n.
pose cc : 'cV[C]_nt := invmx (eig (Qg w data true)).2 *m const_mx 1.
have Hc : cc != 0.
  apply/eqP => E; have : (eig (Qg w data true)).2 *m cc = const_mx 1 by rewrite /cc mulKVmx.
  by rewrite E mulmx0 => /matrixP /(_ (Ordinal Hnt) 0); rewrite !mxE => /esym/eqP; rewrite oner_eq0.
have Hd : diag_mx (eig (Qg w data true)).1 *m cc = 0.
  have := HQ1; rewrite -{1}[const_mx 1](mulKVmx HV) -/cc mulmxA (QV HE) -mulmxA => /(congr1 (mulmx (invmx (eig (Qg w data true)).2))).
  by rewrite mulKmx // mulmx0.
have [j Hj] : exists j, cc j 0 != 0.
  apply/existsP; case: (boolP [exists j, cc j 0 != 0]) => // /existsPn H; case/eqP: Hc; apply/matrixP => x y.
  by rewrite [y]ord1 [RHS]mxE; apply/eqP; rewrite -[_ == _]negbK; exact: H.
exists j => r i; rewrite /pod_saved pod_phiE // (_ : widen_ord _ j = j); last exact: val_inj.
have := congr1 (fun M : 'cV_nt => M j 0) Hd; rewrite diag_mulE [RHS]mxE => /eqP; by rewrite mulf_eq0 (negbTE Hj) orbF => ->.
Qed.
Print Assumptions C89_undefined_mode_refuted.

(* ---- C93 ---- *)
Theorem C93_total_energy : forall (C : numClosedFieldType) size n nt (nloc : 'I_size -> nat)
    (own : forall r, 'I_(nloc r) -> 'I_n) (w : 'cV[C]_n) (data : 'M[C]_(nt, n)) eig,
  real_eig_ok eig -> partition_of own -> (forall x, 0 <= w x 0) -> real_mx data ->
  \sum_j pod_w own w data true eig 0 j = \sum_t \sum_x w x 0 * `|fluctuation data t x| ^+ 2 /\
  forall j, 0 <= pod_w own w data true eig 0 j.
Proof.
move=> C size n nt nloc own w data eig Heig Hown Hw Hr.
have [HE HV HVr] := answer data true Heig Hw; rewrite /pod_w pod_QE //; split; last exact: (L_ge0 Hw HE).
rewrite -trace_diag; have -> : diag_mx (eig (Qg w data true)).1 = invmx (eig (Qg w data true)).2 *m (Qg w data true *m (eig (Qg w data true)).2).
  by rewrite (QV HE) mulKmx.
rewrite mxtrace_mulC mulmxK //; apply: eq_bigr => t _; rewrite mxE; apply: eq_bigr => x _.
have -> : fluctuation data t x = Dg data true x t.
  rewrite mxE /fluctuation (Creal_ReP _ (Hr _ _)); congr (_ - _ / _); apply: eq_bigr => s _; by rewrite mxE (Creal_ReP _ (Hr _ _)).
by rewrite normCKC [adj _ _ _]mxE [wmul _ _ _ _]mxE mulrA mulrC.
Qed.
Print Assumptions C93_total_energy.

(* the hypotheses of C60, C92 are met for every real record, weights and distribution over ranks, by some solver and
   number of modes (those of non-zero energy, most energetic first) *)
Example pod_hypotheses_met : forall (C : numClosedFieldType) size n nt (nloc : 'I_size -> nat)
    (own : forall r, 'I_(nloc r) -> 'I_n) (w : 'cV[C]_n) (data : 'M[C]_(nt, n)) longtime,
  partition_of own -> (forall x, 0 <= w x 0) ->
  exists eig k (H : (k <= nt)%N) Phi, real_eig_ok eig /\ modes_in_file own w data longtime eig H Phi /\
    leading_ok k (pod_w own w data longtime eig) (pod_v own w data longtime eig) /\
    (forall j : 'I_nt, (k <= j)%N -> pod_w own w data longtime eig 0 j = 0).
Proof.
move=> C size n nt nloc own w data longtime Hown Hw.
have [eig [Heig Horth]] := real_eig_exists C nt; have [asrt Has] := argsort_exists C nt.
pose Q := Qg w data longtime; have [HE HV HVr] := answer data longtime Heig Hw; rewrite -/Q in HE HV HVr.
have HL j : 0 <= (eig Q).1 0 j by exact: (L_ge0 Hw HE).
have [Hinj Hord] := Has (eig Q).1 (fun j => ger0_real (HL j)).
have Hg : injective (fun i : 'I_nt => asrt (eig Q).1 (rev_ord i)) by move=> i j /Hinj /rev_ord_inj.
pose s : 'S_nt := perm Hg.
pose eig' := fun M : 'M[C]_nt => if M == Q then (col_perm s (eig M).1, col_perm s (eig M).2) else eig M.
have Heig' : real_eig_ok eig'.
  move=> M HM HR; rewrite /eig'; case: eqP => _; last exact: Heig.
  by apply: col_perm_answer; exact: Heig.
have EQ : eig' Q = (col_perm s (eig Q).1, col_perm s (eig Q).2) by rewrite /eig' eqxx.
pose L' := col_perm s (eig Q).1.
have HL'0 i : 0 <= L' 0 i by rewrite mxE.
have HL'd (i j : 'I_nt) : (i <= j)%N -> L' 0 j <= L' 0 i.
  by move=> Hij; rewrite !mxE !permE; apply: Hord; apply: leq_sub2l.
have [q [Hq Hqn]] : exists q, cnt L' q /\ (q <= nt)%N.
  exists (\sum_i (L' 0%R i != 0%R))%N; split; last by rewrite -[X in (_ <= X)%N]card_ord -sum1_card; apply: leq_sum => i _; exact: leq_b1.
  by apply: cnt_of_sum => //; rewrite natr_sum.
exists eig', q, Hqn, (\matrix_(x, j) ('Re ((Dg data longtime *m (eig' Q).2) x (widen_ord Hqn j)) / sqrtC ((eig' Q).1 0 (widen_ord Hqn j)))).
split=> //; split; [|split].
- move=> r i j; rewrite /pod_saved pod_phiE // -/Q [in RHS]mxE EQ /= -/L'.
  by have := Hq (widen_ord Hqn j); rewrite /= ltn_ord => /negbTE ->.
- right=> i j _ _; rewrite /pod_v pod_QE // -/Q EQ /=.
  have := Horth Q (Q_herm _ Hw) (Q_real Hw (@Dg_real _ _ _ data longtime)).
  move=> /(congr1 (fun M : 'M_nt => M (s i) (s j))); rewrite mxE [RHS]mxE (inj_eq perm_inj) => <-.
  by apply: eq_bigr => l _; rewrite !mxE.
- by move=> j Hj; rewrite /pod_w pod_QE // -/Q EQ /=; apply/eqP; rewrite -[_ == 0]negbK -/L' Hq -leqNgt.
Qed.
