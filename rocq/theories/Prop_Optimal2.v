(* Property theorems C111-C114: dependence of the SPOD spectrum on the data. *)
From mathcomp Require Import all_ssreflect all_algebra.
From Verif Require Import Base_CRing Model_Spod Spec_Spod Spec_Stream Proof_Spod Proof_Spectral Proof_StreamAlg Proof_Svd Proof_Dft Proof_Spod2 Proof_Optimal Proof_Optimal2.
Set Implicit Arguments.
Unset Strict Implicit.
Unset Printing Implicit Defensive.
Import GRing.Theory Num.Theory Order.TTheory.
Local Open Scope ring_scope.

(* ---- C111 ---- *)
(* eigenvalues beyond the number of entries of positive weight are zero: the corresponding modes, obtained by
   dividing by the square root of the eigenvalue, are undefined *)
Theorem C111_more_blocks_than_points : forall (C : numClosedFieldType) (size : nat) (c : config C) eig argsort n
    (nloc : 'I_size -> nat) (own : forall r, 'I_(nloc r) -> 'I_n) X (w : 'cV[C]_n) f (k : 'I_(n_blocks c)),
  partition_of own -> (forall i, 0 <= w i 0) -> eig_ok eig -> eig_basis eig -> argsort_ok argsort ->
  (#|[pred i | (0 < w i 0)%R]| <= k)%N ->
  run_L eig argsort own X w f 0 k = 0 /\ run_eigs eig argsort own X w f 0 k = 0.
Proof.
move=> C size c eig argsort n nloc own X w f k Hown Hw Heig Hinv Hsort Hk.
suff E : run_L eig argsort own X w f 0 k = 0 by split=> //; rewrite run_eigsE // E mulr0.
have HV := run_V_unit Hown X Hw Heig Hinv Hsort f; have EV := run_diag argsort Hown X Hw Heig f.
have HL := run_desc Hown X Hw Heig Hsort f; have H0 := run_L_ge0 argsort Hown X Hw Heig f.
have Hnb : (0 < n_blocks c)%N by apply: leq_ltn_trans (ltn_ord k).
set V := run_V _ _ _ _ _ _ in HV EV; set L := run_L _ _ _ _ _ _ in EV HL H0 *; set Q := q_hat c X f in EV.
apply/eqP; apply: contraT => Hne; have Hpos : 0 < L 0 k by rewrite lt_neqAle eq_sym Hne H0.
clearbody V L Q.
(* a combination of the first k+1 columns of Q V that vanishes on the entries of positive weight *)
pose P := [pred i | 0 < w i 0].
pose W : 'M[C]_(n, k.+1) := \matrix_(i, j) (Q *m V) i (widen_ord (ltn_ord k) j).
pose B : 'M[C]_(#|P|, k.+1) := \matrix_(a, j) W (enum_val a) j.
have Hlt : (#|P| < k.+1)%N by rewrite ltnS.
have [u [Hu1 Hu2]] := @unit_vector C k.+1 #|P| (adj B) Hlt.
rewrite adjK in Hu1.
pose z : 'cV[C]_(n_blocks c) := \col_i \sum_(j < k.+1) (u j 0 *+ (i == widen_ord (ltn_ord k) j)).
have Hzj j : z (widen_ord (ltn_ord k) j) 0 = u j 0.
  rewrite mxE (bigD1 j) //= eqxx mulr1n big1 ?addr0 // => i Hi.
  by rewrite (_ : _ == _ = false) ?mulr0n //; apply/negbTE; apply: contra Hi => /eqP E; apply/eqP/val_inj; case: E.
have Hz (F : 'I_(n_blocks c) -> C) : \sum_i F i * z i 0 = \sum_j F (widen_ord (ltn_ord k) j) * u j 0.
  under eq_bigr do rewrite mxE mulr_sumr.
  rewrite exchange_big /=; apply: eq_bigr => j _; rewrite (bigD1 (widen_ord (ltn_ord k) j)) //= eqxx mulr1n.
  by rewrite big1 ?addr0 // => i Hi; rewrite (negbTE Hi) mulr0n mulr0.
have HW i : 0 < w i 0 -> (Q *m V *m z) i 0 = 0.
  move=> Hi; have Hin : i \in P by [].
  have := congr1 (fun A : 'cV[C]_#|P| => A (enum_rank_in Hin i) 0) Hu1; rewrite /= [X in _ = X -> _]mxE => <-.
  rewrite mxE [RHS]mxE Hz; apply: eq_bigr => j _; rewrite [B _ _]mxE [W _ _]mxE enum_rankK_in //.
have Hs : sw w Q *m (V *m z) = 0.
  apply/matrixP => i j; rewrite [j]ord1 [RHS]mxE.
  have -> : (sw w Q *m (V *m z)) i 0 = sqrtC (w i 0) * (Q *m (V *m z)) i 0.
    by rewrite !mxE mulr_sumr; apply: eq_bigr => b _; rewrite mxE mulrA.
  have := Hw i; rewrite le_eqVlt => /orP [/eqP <-|/HW]; first by rewrite sqrtC0 mul0r.
  by rewrite mulmxA => ->; rewrite mulr0.
have HG : gram Q w *m V *m z = 0 by rewrite sw_gram // -mulmxA -scalemxAl -mulmxA Hs mulmx0 scaler0.
have Hd : diag_mx L *m z = 0.
  by rewrite EV in HG; rewrite -[LHS]mul1mx -(mulVmx HV) -mulmxA (mulmxA V) HG mulmx0.
have Hu0 : u = 0.
  apply/matrixP => j i; rewrite [i]ord1 [RHS]mxE.
  have := congr1 (fun A : 'cV[C]_(n_blocks c) => A (widen_ord (ltn_ord k) j) 0) Hd.
  rewrite mul_diag_mx mxE Hzj [RHS]mxE => /eqP; rewrite mulf_eq0 => /orP [/eqP E|/eqP //].
  by have := lt_le_trans Hpos (HL (widen_ord (ltn_ord k) j) k (leq_ord j)); rewrite E ltxx.
by move: Hu2; rewrite Hu0 mulmx0 => /matrixP /(_ 0 0) /eqP; rewrite !mxE eqxx eq_sym oner_eq0.
Qed.
Print Assumptions C111_more_blocks_than_points.

(* ---- C112 ---- *)
Section Scale.
Variable C : numClosedFieldType.
Add Ring Cring : (cr_th C).
Ltac cring := cr_norm C; ring.
Variables (size : nat) (c : config C).
Variable eig : 'M[C]_(n_blocks c) -> 'rV[C]_(n_blocks c) * 'M[C]_(n_blocks c).
Variable argsort : 'rV[C]_(n_blocks c) -> 'I_(n_blocks c) -> 'I_(n_blocks c).
Variables (n : nat) (nloc : 'I_size -> nat) (own : forall r : 'I_size, 'I_(nloc r) -> 'I_n).
Hypothesis Hown : partition_of own.
Hypotheses (Heig : eig_ok eig) (Hinv : eig_basis eig) (Hsort : argsort_ok argsort).

(* if the matrix is multiplied by s >= 0 so are the eigenvalues *)
Lemma scaled_eigs X X' (w w' : 'cV[C]_n) (s : C) f : (forall i, 0 <= w i 0) -> (forall i, 0 <= w' i 0) -> 0 <= s ->
  gram (q_hat c X' f) w' = s *: gram (q_hat c X f) w ->
  forall k, run_eigs eig argsort own X' w' f 0 k = s * run_eigs eig argsort own X w f 0 k.
Proof.
move=> Hw Hw' Hs E k; rewrite !run_eigsE // mulrCA; congr (_ * _).
have -> : run_L eig argsort own X' w' f = s *: run_L eig argsort own X w f.
  apply: (run_L_unique Hown Hw' Heig Hinv Hsort (V := run_V eig argsort own X w f)).
  - exact: run_V_unit.
  - rewrite E -scalemxAl run_diag // scalemxAr; congr (_ *m _).
    by apply/matrixP => i j; rewrite !mxE mulrnAr.
  - have HD := run_desc Hown X Hw Heig Hsort f; set L := run_L _ _ _ _ _ _ in HD *.
    move=> i j Hij; clearbody L; rewrite !mxE; apply: ler_wpmul2l => //; exact: HD.
by rewrite mxE.
Qed.
Lemma gram_scaled m (Q : 'M[C]_(m, n_blocks c)) (w : 'cV[C]_m) a : gram (a *: Q) w = (`|a| ^+ 2) *: gram Q w.
Proof.
apply/matrixP => i j; rewrite gramE [RHS]mxE gramE mulrCA; congr (_ * _); rewrite mulr_sumr.
apply: eq_bigr => x _; rewrite !mxE normCK rmorphM; cring.
Qed.
Lemma centred_scaled a (x : nat -> C) b k : block_centred c (fun t => a * x t) b k = a * block_centred c x b k.
Proof.
have Hm : t_mean c (fun t => a * x t) = a * t_mean c x.
  by rewrite /t_mean; case: (mean_type c); rewrite ?mulr0 // -mulr_sumr mulrA.
rewrite /block_centred Hm; case: (mean_type c); rewrite -?mulrBr //.
under eq_bigr do rewrite -mulrBr.
by rewrite -mulr_sumr -mulrA -mulrBr.
Qed.
Lemma var_scaled a (q : nat -> C) : block_var c (fun k => a * q k) = a ^+ 2 * block_var c q.
Proof.
rewrite /block_var [RHS]mulrA mulr_sumr; congr (_ * _); apply: eq_bigr => j _.
by rewrite -mulr_sumr -mulrA -mulrBr exprMn.
Qed.
Lemma var_ext (p q : nat -> C) : p =1 q -> block_var c p = block_var c q.
Proof.
move=> E; rewrite /block_var; congr (_ * _); apply: eq_bigr => j _; rewrite E; congr ((_ - _) ^+ 2).
by congr (_ * _); apply: eq_bigr => i _; rewrite E.
Qed.
Lemma hat_scaled a (x y : nat -> C) b f : (forall k, block_windowed c y b k = a * block_windowed c x b k) ->
  block_hat c y b f = a * block_hat c x b f.
Proof.
move=> E; rewrite /block_hat [RHS]mulrCA; congr (_ * _); rewrite /dft mulr_sumr.
by apply: eq_bigr => k _; rewrite E -mulrA.
Qed.
Lemma frac_sq (a p v : C) : a != 0 -> a * p / (a ^+ 2 * v) = a^-1 * p / v.
Proof.
move=> Ha; have H1 : a * a^-1 = 1 by rewrite divff.
rewrite expr2 !invfM; transitivity (a * a^-1 * (a^-1 * p * v^-1)); last by rewrite H1 mul1r.
cring.
Qed.
End Scale.

(* multiplying the data by a multiplies every eigenvalue by |a|^2 *)
Theorem C112_data_units : forall (C : numClosedFieldType) (size : nat) (c : config C) eig argsort n
    (nloc : 'I_size -> nat) (own : forall r, 'I_(nloc r) -> 'I_n) X (w : 'cV[C]_n) (a : C) f k,
  partition_of own -> (forall i, 0 <= w i 0) -> eig_ok eig -> eig_basis eig -> argsort_ok argsort ->
  normalize_data c = false ->
  run_eigs (c := c) eig argsort own (fun t i => a * X t i) w f 0 k = `|a| ^+ 2 * run_eigs eig argsort own X w f 0 k.
Proof.
move=> C size c eig argsort n nloc own X w a f k Hown Hw Heig Hinv Hsort Hn.
apply: scaled_eigs => //; first exact: exprn_ge0.
rewrite -gram_scaled; congr gram; apply/matrixP => i b; rewrite !mxE; apply: hat_scaled => j.
by rewrite /block_windowed /block_normalized Hn centred_scaled mulrA.
Qed.
Print Assumptions C112_data_units.
(* multiplying the weights by s >= 0 multiplies every eigenvalue by s *)
Theorem C112_weight_units : forall (C : numClosedFieldType) (size : nat) (c : config C) eig argsort n
    (nloc : 'I_size -> nat) (own : forall r, 'I_(nloc r) -> 'I_n) X (w : 'cV[C]_n) (s : C) f k,
  partition_of own -> (forall i, 0 <= w i 0) -> eig_ok eig -> eig_basis eig -> argsort_ok argsort -> 0 <= s ->
  run_eigs (c := c) eig argsort own X (s *: w) f 0 k = s * run_eigs eig argsort own X w f 0 k.
Proof.
move=> C size c eig argsort n nloc own X w s f k Hown Hw Heig Hinv Hsort Hs.
apply: scaled_eigs => //; first by move=> i; rewrite mxE mulr_ge0.
apply/matrixP => i j; rewrite gramE [RHS]mxE gramE mulrCA; congr (_ * _); rewrite mulr_sumr.
by apply: eq_bigr => x _; rewrite [(s *: w) x 0]mxE mulrCA.
Qed.
Print Assumptions C112_weight_units.
(* normalising the data by its variance does not remove the units, it inverts them: with data multiplied by a real
   a <> 0 (all block variances staying above the threshold) the eigenvalues are divided by a^2 *)
Theorem C112_normalised_data_inverts_units_refuted : forall (C : numClosedFieldType) (size : nat) (c : config C) eig argsort n
    (nloc : 'I_size -> nat) (own : forall r, 'I_(nloc r) -> 'I_n) X (w : 'cV[C]_n) (a : C) f k,
  partition_of own -> (forall i, 0 <= w i 0) -> eig_ok eig -> eig_basis eig -> argsort_ok argsort ->
  normalize_data c -> a \is Num.real -> a != 0 ->
  (forall i b, eps4 c <= block_var c (block_centred c (fun t => X t i) b)) ->
  (forall i b, eps4 c <= block_var c (block_centred c (fun t => a * X t i) b)) ->
  run_eigs (c := c) eig argsort own (fun t i => a * X t i) w f 0 k = (a ^+ 2)^-1 * run_eigs eig argsort own X w f 0 k.
Proof.
move=> C size c eig argsort n nloc own X w a f k Hown Hw Heig Hinv Hsort Hn Ha Ha0 Hv Hv'.
have -> : (a ^+ 2)^-1 = `|a^-1| ^+ 2 by rewrite real_normK ?rpredV // exprVn.
apply: scaled_eigs => //; first exact: exprn_ge0.
rewrite -gram_scaled; congr gram; apply/matrixP => i b; rewrite !mxE; apply: hat_scaled => j.
rewrite /block_windowed /block_normalized Hn (le_gtF (Hv i b)) (le_gtF (Hv' i b)).
have -> : block_var c (block_centred c (fun t => a * X t i) b) = a ^+ 2 * block_var c (block_centred c (fun t => X t i) b).
  by rewrite -var_scaled; apply: var_ext => l; rewrite centred_scaled.
rewrite centred_scaled; move: (block_centred _ _ _ _) (block_var _ _) (window _ _) => p v q.
by rewrite frac_sq // !mulrA.
Qed.
Print Assumptions C112_normalised_data_inverts_units_refuted.
(* a record 0, 1 of one entry with threshold 1/4, also when doubled *)
Example C112_nonvacuous (C : numClosedFieldType) :
  let c : config C := Config 2 2 0 1 2 1 Zero true (4%:R^-1) (fun _ => 1) true (-1) 1 (fun _ x => x) in
  forall b, eps4 c <= block_var c (block_centred c (fun t => t%:R) b) /\
            eps4 c <= block_var c (block_centred c (fun t => 2 * t%:R) b).
Proof.
move=> c b.
have H2 : (2%:R : C) != 0 by rewrite pnatr_eq0.
have E : block_var c (block_centred c (fun t => t%:R) b) = 2%:R^-1.
  rewrite /block_var /block_centred /t_mean /block_offset /= (_ : (minn _ _ - 2)%N = 0%N); last first.
    by apply/eqP; rewrite subn_eq0 geq_minr.
  rewrite !big_ord_recl !big_ord0 /= /bump /= ?addn0 ?add0n !subr0.
  rewrite !addr0 !add0r mul1r sqrrN.
  have -> : (1 - 2%:R^-1 : C) = 2%:R^-1.
    by apply: (mulfI H2); rewrite mulrBr mulfV // mulr1 -[2%:R]/(1 + 1) addrK.
  by rewrite -[2%:R - 1]/(1 + 1 - 1) addrK invr1 mulr1 -mulr2n -[_ *+ 2]mulr_natl expr2 mulrA mulfV // mul1r.
have Hle : (4%:R^-1 : C) <= 2%:R^-1 by rewrite lef_pinv ?posrE ?ltr0n // ler_nat.
rewrite E; split=> //.
have -> : block_var c (block_centred c (fun t => 2 * t%:R) b) = 2%:R ^+ 2 * 2%:R^-1.
  by rewrite -E -var_scaled; apply: var_ext => l; rewrite centred_scaled.
rewrite expr2 mulfK //; apply: le_trans Hle _; apply: le_trans (_ : 1 <= _); last by rewrite ler1n.
by rewrite invf_le1 ?ler1n ?ltr0n.
Qed.

(* ---- C113 ---- *)
(* adding a field that does not change in time changes nothing, neither eigenvalues nor modes, when the long-time
   or the block mean is subtracted *)
Theorem C113_steady_field_is_irrelevant : forall (C : numClosedFieldType) (size : nat) (c : config C) eig argsort n
    (nloc : 'I_size -> nat) (own : forall r, 'I_(nloc r) -> 'I_n) X (g : 'I_n -> C) (w : 'cV[C]_n) f,
  (0 < n_dft c)%N -> (0 < nt c)%N -> mean_type c <> Zero ->
  run_eigs (c := c) eig argsort own (fun t i => X t i + g i) w f = run_eigs eig argsort own X w f /\
  forall r H, run_modes (c := c) eig argsort own (fun t i => X t i + g i) w r f H = run_modes eig argsort own X w r f H.
Proof.
move=> C size c eig argsort n nloc own X g w f Hd Ht Hz.
have Hav m (F : nat -> C) a : (0 < m)%N -> (\sum_(j < m) (F j + a)) / m%:R = (\sum_(j < m) F j) / m%:R + a.
  move=> Hm; rewrite big_split sumr_const card_ord mulrDl; congr (_ + _).
  by rewrite -[a *+ m]mulr_natr mulfK // pnatr_eq0 -lt0n.
have Hc (x : nat -> C) a b k : block_centred c (fun t => x t + a) b k = block_centred c x b k.
  rewrite /block_centred /t_mean; case: (mean_type c) Hz => // _; rewrite ?Hav ?subr0 //.
    by rewrite opprD addrACA subrr addr0.
  have -> : (\sum_(j < n_dft c) (x (block_offset c b + j)%N + a - 0)) / (n_dft c)%:R = (\sum_(j < n_dft c) (x (block_offset c b + j)%N - 0)) / (n_dft c)%:R + a.
    rewrite -(Hav _ (fun j => x (block_offset c b + j)%N - 0)) //; congr (_ * _); apply: eq_bigr => j _; by rewrite !subr0.
  by rewrite opprD addrACA subrr addr0.
have Hq (r : 'I_size) : q_hat c (@local_X C size n nloc own (fun t i => X t i + g i) r) f = q_hat c (@local_X C size n nloc own X r) f.
  apply/matrixP => i b; rewrite !mxE /block_hat /local_X; congr (_ * _); apply: eq_bigr => k _; congr (_ * _).
  rewrite /block_windowed /block_normalized; congr (_ * _).
  case: (normalize_data c); rewrite Hc //.
  by have -> : block_var c (block_centred c (fun t => X t (own r i) + g (own r i)) b) = block_var c (block_centred c (fun t => X t (own r i)) b) by apply: var_ext => l; exact: Hc.
have HM : reduced_M c own (fun t i => X t i + g i) w f = reduced_M c own X w f.
  by apply: eq_bigr => r _; rewrite Hq.
by split=> [|r H]; rewrite /run_eigs /run_modes /run_L /run_V HM ?Hq.
Qed.
Print Assumptions C113_steady_field_is_irrelevant.
(* with the zero mean it is not: the transforms change by the transform of the windowed constant *)
Theorem C113_zero_mean_keeps_the_steady_field : forall (C : numClosedFieldType) (c : config C) (x : nat -> C) g b f,
  mean_type c = Zero -> normalize_data c = false ->
  block_hat c (fun t => x t + g) b f
  = block_hat c x b f + g * (win_weight c / (n_dft c)%:R * \sum_(k < n_dft c) window c k * omega c ^+ (f * k)).
Proof.
move=> C c x g b f Hz Hn; rewrite /block_hat mulrCA -mulrDr; congr (_ * _).
rewrite mulr_sumr -big_split /=; apply: eq_bigr => k _.
rewrite /block_windowed /block_normalized /block_centred /t_mean Hn Hz !subr0 mulrDl mulrDl; congr (_ + _).
by rewrite -mulrA.
Qed.
Print Assumptions C113_zero_mean_keeps_the_steady_field.

(* ---- C114 ---- *)
(* real data: the spectrum at a frequency and at its mirror image are the same, so that the negative half can be
   dropped ... *)
Section Mirror.
Variable C : numClosedFieldType.
Lemma hat_conj (c : config C) n (X : nat -> 'I_n -> C) f x b :
  (n_dft c).-primitive_root (omega c) -> (forall k, window c k \is Num.real) -> (forall t x, X t x \is Num.real) ->
  (f <= n_dft c)%N ->
  block_hat c (fun t => X t x) b (n_dft c - f) = (block_hat c (fun t => X t x) b f)^*.
Proof.
move=> Hom Hwin Hreal Hf; rewrite /block_hat rmorphM; congr (_ * _).
  symmetry; apply/CrealP; apply: rpredM; [exact: win_weight_real|by rewrite rpredV realn].
rewrite /dft rmorph_sum; apply: eq_bigr => k _; rewrite rmorphM; congr (_ * _).
  by symmetry; apply/CrealP; exact: windowed_real.
rewrite rmorphX (w_conj Hom).
apply: (mulIf (expf_neq0 (f * k) (w_neq0 Hom))); rewrite exprVn mulVf ?expf_neq0 ?(w_neq0 Hom) //.
by rewrite -exprD -mulnDl subnK // exprM (prim_expr_order Hom) expr1n.
Qed.
End Mirror.
Theorem C114_mirrored_frequencies_agree : forall (C : numClosedFieldType) (size : nat) (c : config C) eig argsort n
    (nloc : 'I_size -> nat) (own : forall r, 'I_(nloc r) -> 'I_n) X (w : 'cV[C]_n) f,
  partition_of own -> (forall i, 0 <= w i 0) -> eig_ok eig -> eig_basis eig -> argsort_ok argsort ->
  (n_dft c).-primitive_root (omega c) -> (forall k, window c k \is Num.real) -> (forall t x, X t x \is Num.real) ->
  (f <= n_dft c)%N ->
  run_L (c := c) eig argsort own X w (n_dft c - f) = run_L eig argsort own X w f.
Proof.
move=> C size c eig argsort n nloc own X w f Hown Hw Heig Hinv Hsort Hom Hwin Hreal Hf.
have HV := run_V_unit Hown X Hw Heig Hinv Hsort f; have EV := run_diag argsort Hown X Hw Heig f.
have HD := run_desc Hown X Hw Heig Hsort f; have H0 := run_L_ge0 argsort Hown X Hw Heig f.
set V := run_V _ _ _ _ _ _ in HV EV; set L := run_L _ _ _ _ _ f in EV HD H0 *.
clearbody V L.
pose V' := map_mx conjC V.
apply: (run_L_unique Hown Hw Heig Hinv Hsort (V := V')) => //.
  by rewrite map_unitmx.
have EG : gram (q_hat c X (n_dft c - f)) w = map_mx conjC (gram (q_hat c X f) w).
  apply/matrixP => i j; rewrite gramE [RHS]mxE gramE rmorphM fmorphV rmorph_nat rmorph_sum; congr (_ * _).
  apply: eq_bigr => x _; rewrite !mxE !hat_conj // !rmorphM; congr (_ * _).
  by symmetry; apply/CrealP/ger0_real.
have EL : diag_mx L = map_mx conjC (diag_mx L).
  apply/matrixP => i j; rewrite !mxE; case: eqP => _; rewrite ?mulr0n ?rmorph0 // !mulr1n.
  by symmetry; apply/CrealP/ger0_real.
by rewrite EG EL -!map_mxM EV.
Qed.
Print Assumptions C114_mirrored_frequencies_agree.
(* ... but with the full spectrum the saved eigenvalues of real data are not symmetric: the last frequency misses the
   factor two that its mirror image, the first positive frequency, receives *)
Theorem C114_full_spectrum_asymmetric_refuted : forall (C : numClosedFieldType) (size : nat) (c : config C) eig argsort n
    (nloc : 'I_size -> nat) (own : forall r, 'I_(nloc r) -> 'I_n) X (w : 'cV[C]_n) k,
  partition_of own -> (forall i, 0 <= w i 0) -> eig_ok eig -> eig_basis eig -> argsort_ok argsort ->
  (n_dft c).-primitive_root (omega c) -> (forall k, window c k \is Num.real) -> (forall t x, X t x \is Num.real) ->
  isrealx c -> n_freq c = n_dft c -> (2 < n_dft c)%N ->
  run_eigs (c := c) eig argsort own X w 1 0 k = 2 * run_eigs eig argsort own X w (n_dft c).-1 0 k.
Proof.
move=> C size c eig argsort n nloc own X w k Hown Hw Heig Hinv Hsort Hom Hwin Hreal Hr Ef Hn.
rewrite !run_eigsE // -subn1 C114_mirrored_frequencies_agree ?(ltnW (ltnW Hn)) //.
rewrite /one_sided Hr Ef subn1 /= ltnn !andbF mul1r.
by rewrite (_ : (1 < (n_dft c).-1)%N = true) //; case: (n_dft c) Hn.
Qed.
Print Assumptions C114_full_spectrum_asymmetric_refuted.
