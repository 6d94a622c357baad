(* Property theorems C32, C34-C38, C41, C83: the numbers batch SPOD computes. *)
From Verif Require Import Base_List Model_Parallel Spec_Array Model_Spod Spec_Spod Model_SpodPar Proof_Spod Proof_SpodPar Proof_Dft Proof_Spod2 Proof_Spectral.
From mathcomp Require Import all_ssreflect all_algebra.
Set Implicit Arguments.
Unset Strict Implicit.
Unset Printing Implicit Defensive.
Import GRing.Theory Num.Theory Order.TTheory.
Local Open Scope ring_scope.

(* the oracles assumed below exist, for every number of blocks *)
Example oracles_exist (C : numClosedFieldType) nb :
  (exists eig, @eig_ok C nb eig /\ eig_basis eig) /\ (exists argsort, @argsort_ok C nb argsort).
Proof. by split; [exact: eig_exists|exact: argsort_exists]. Qed.

(* ---- C32 ---- *)
(* n entries spread over any number of ranks in any way (each entry on exactly one rank): eigenvalues
   agree with the serial run and every rank holds its rows of the serial modes *)
Theorem C32_eigenvalues_rank_independent : forall (C : numClosedFieldType) (size : nat) (c : config C) eig argsort n
    (nloc : 'I_size -> nat) (own : forall r, 'I_(nloc r) -> 'I_n) X w,
  partition_of own ->
  forall f, run_eigs (c := c) eig argsort own X w f = serial_eigs eig argsort X w f.
Proof. by move=> *; apply: eigs_serial. Qed.
Print Assumptions C32_eigenvalues_rank_independent.
Theorem C32_modes_rank_independent : forall (C : numClosedFieldType) (size : nat) (c : config C) eig argsort n
    (nloc : 'I_size -> nat) (own : forall r, 'I_(nloc r) -> 'I_n) X w,
  partition_of own ->
  forall f H r (i : 'I_(nloc r)) k,
  run_modes (c := c) eig argsort own X w r f H i k = serial_modes eig argsort X w ord0 f H (own r i) k.
Proof. by move=> *; apply: modes_serial. Qed.
Print Assumptions C32_modes_rank_independent.
(* the distribution the code uses: axis ax of the shape sh cut with the block rule; it exists and is such
   a partition, and the mode file put together from the pieces of all ranks is the serial one *)
Theorem C32_block_distribution : forall (sh : list nat) ax size, (ax < length sh)%N -> (0 < size)%N ->
  exists (nloc : 'I_size -> nat) (own : forall r, 'I_(nloc r) -> 'I_(Base_List.prod sh)),
    forall r, [seq val (own r k) | k <- enum 'I_(nloc r)] = owned sh ax size r.
Proof.
move=> sh ax size Hax Hs; have Hp := owned_perm Hax Hs.
have Hlt (r : 'I_size) k : (k < length (owned sh ax size r))%N -> (List.nth k (owned sh ax size r) 0%N < Base_List.prod sh)%N.
  move=> Hk; have Hin : List.In (List.nth k (owned sh ax size r) 0%N) (List.seq 0 (Base_List.prod sh)).
    apply: (Permutation_in _ Hp); apply/List.in_concat; exists (owned sh ax size r); split.
      by apply: List.in_map; apply/List.in_seq; split; [exact: PeanoNat.Nat.le_0_l | apply/ssrnat.ltP; exact: ltn_ord].
    by apply: List.nth_In; apply/ssrnat.ltP.
  by move/List.in_seq: Hin => [_ /ssrnat.ltP].
exists (fun r : 'I_size => length (owned sh ax size r)), (fun (r : 'I_size) (k : 'I_(length (owned sh ax size r))) => Ordinal (Hlt r k (ltn_ord k))) => r.
transitivity [seq List.nth k (owned sh ax size r) 0%N | k <- [seq val k | k <- enum 'I_(length (owned sh ax size r))]].
  by rewrite -(map_comp (fun k => List.nth k (owned sh ax size r) 0%N) val).
rewrite val_enum_ord; elim: (owned sh ax size r) => //= x l IH; congr cons.
by rewrite -[RHS]IH (iotaDl 1 0) -map_comp.
Qed.
Print Assumptions C32_block_distribution.
Theorem C32_mode_files : forall (C : numClosedFieldType) (size : nat) (c : config C) eig argsort (sh : list nat) ax
    (nloc : 'I_size -> nat) (own : forall r, 'I_(nloc r) -> 'I_(Base_List.prod sh)) X w,
  (ax < length sh)%N -> (0 < size)%N ->
  (forall r, [seq val (own r k) | k <- enum 'I_(nloc r)] = owned sh ax size r) ->
  partition_of own /\
  forall f H,
  concat_axis ax [seq mode_piece sh ax size r (run_modes (c := c) eig argsort own X w r f H) | r : 'I_size <- enum 'I_size]
  = Nd (sh ++ [:: n_modes_save c]) (ravel (serial_modes eig argsort X w ord0 f H)).
Proof.
move=> C size c eig argsort sh ax nloc own X w Hax Hs Hown.
have Hp : partition_of own by apply: own_partition (owned_perm Hax Hs) Hown.
split=> // f H; apply: (modes_file (own := own)) => // r i j; exact: modes_serial.
Qed.
Print Assumptions C32_mode_files.
(* 2 x 3 entries, axis 1 over two ranks *)
Example C32_nonvacuous : owned [:: 2; 3]%N 1 2 0 = [:: 0; 1; 3; 4]%N /\ owned [:: 2; 3]%N 1 2 1 = [:: 2; 5]%N.
Proof. by []. Qed.

(* ---- C34 ---- *)
Theorem C34_spod_matrix_hermitian_psd : forall (C : numClosedFieldType) (size : nat) (c : config C) n
    (nloc : 'I_size -> nat) (own : forall r, 'I_(nloc r) -> 'I_n) X (w : 'cV[C]_n) f,
  partition_of own -> (forall i, 0 <= w i 0) ->
  hermitian (reduced_M c own X w f) /\ psd (reduced_M c own X w f) /\
  forall lam (v : 'cV[C]_(n_blocks c)), v != 0 -> reduced_M c own X w f *m v = lam *: v -> 0 <= lam.
Proof.
move=> C size c n nloc own X w f Hown Hw; rewrite (reduced_gram Hown); split; first exact: gram_herm.
by split=> [|lam v Hv E]; [exact: gram_psd|exact: psd_eigen (gram_psd _ Hw) Hv E].
Qed.
Print Assumptions C34_spod_matrix_hermitian_psd.
(* hence the absolute value taken before saving changes nothing and no negative number is reported *)
Theorem C34_reported_eigenvalues : forall (C : numClosedFieldType) (size : nat) (c : config C) eig argsort n
    (nloc : 'I_size -> nat) (own : forall r, 'I_(nloc r) -> 'I_n) X (w : 'cV[C]_n) f k,
  partition_of own -> (forall i, 0 <= w i 0) -> eig_ok eig ->
  0 <= run_L (c := c) eig argsort own X w f 0 k /\
  run_eigs eig argsort own X w f 0 k = one_sided c f * run_L eig argsort own X w f 0 k.
Proof. by move=> *; split; [exact: run_L_ge0|exact: run_eigsE]. Qed.
Print Assumptions C34_reported_eigenvalues.

(* ---- C35 ---- *)
Theorem C35_modes_orthonormal : forall (C : numClosedFieldType) (c : config C) eig argsort n
    X (w : 'cV[C]_n) f H (j k : 'I_(n_modes_save c)),
  (0 < n_blocks c)%N -> (forall i, 0 <= w i 0) -> eig_ok eig ->
  let lam i := run_L eig argsort (size := 1) (fun _ i => i) X w f 0 (widen_ord H i) in
  0 < lam j -> 0 < lam k -> j = k \/ lam j != lam k ->
  let phi := serial_modes eig argsort X w ord0 f H in
  wip w phi phi j k = (j == k)%:R.
Proof.
move=> C c eig argsort n X w f H j k Hnb Hw Heig lam Hj Hk Hjk phi.
have Hp := @serial_partition n.
have He := run_eigenpairs argsort Hp X Hw Heig f; rewrite (serial_gram c X w f) in He.
transitivity (wip w (all_modes (q_hat c X f) (run_L eig argsort (size := 1) (fun _ i => i) X w f) (run_V eig argsort (size := 1) (fun _ i => i) X w f))
  (all_modes (q_hat c X f) (run_L eig argsort (size := 1) (fun _ i => i) X w f) (run_V eig argsort (size := 1) (fun _ i => i) X w f))
  (widen_ord H j) (widen_ord H k)).
  by apply: eq_bigr => i _; rewrite /phi /serial_modes /run_modes /kept_modes !mxE.
rewrite modes_orth //; case: Hjk => [->|Hne]; [by left|by right].
Qed.
Print Assumptions C35_modes_orthonormal.
(* with orthonormal eigenvectors (what a Hermitian solver returns) this holds for repeated eigenvalues too *)
Theorem C35_orthonormal_solver : forall (C : numClosedFieldType) m nb (Q : 'M[C]_(m, nb)) (w : 'cV[C]_m) L V j k,
  (0 < nb)%N -> eigenpairs (gram Q w) L V -> (forall a b, \sum_i (V i a)^* * V i b = (a == b)%:R) ->
  0 < L 0 j -> 0 < L 0 k -> wip w (all_modes Q L V) (all_modes Q L V) j k = (j == k)%:R.
Proof.
move=> C m nb Q w L V j k Hnb He Ho Hj Hk; rewrite (wip_modes _ _ _ Hnb) ?ltW // (form_unit _ _ He) Ho.
case: eqVneq => [<-|_]; last by rewrite mulr0 mul0r.
by rewrite mulr1 -expr2 sqrtCK divff // lt0r_neq0.
Qed.
Print Assumptions C35_orthonormal_solver.

(* ---- C36 ---- *)
(* whenever an eigenvalue is repeated, another answer the solver may give (unit eigenvectors, still a basis,
   same eigenvalues, one column changed) yields two modes that are not orthogonal *)
Theorem C36_repeated_eigenvalue_refuted : forall (C : numClosedFieldType) m nb (Q : 'M[C]_(m, nb)) (w : 'cV[C]_m) L V j k,
  (0 < nb)%N -> eigenpairs (gram Q w) L V -> V \in unitmx -> \sum_i (V i j)^* * V i k = 0 ->
  j != k -> L 0 j = L 0 k -> 0 < L 0 k ->
  exists V', [/\ eigenpairs (gram Q w) L V', V' \in unitmx, (forall i l, l != k -> V' i l = V i l)
    & wip w (all_modes Q L V') (all_modes Q L V') j k = 3%:R / 5%:R].
Proof.
by move=> C m nb Q w L V j k; exact: repeated_bad.
Qed.
Print Assumptions C36_repeated_eigenvalue_refuted.
(* such data exist: two blocks, two points, the SPOD matrix is the identity *)
Example C36_nonvacuous (C : numClosedFieldType) :
  let Q : 'M[C]_2 := (sqrtC 2)%:M in let w : 'cV[C]_2 := const_mx 1 in
  let L : 'rV[C]_2 := const_mx 1 in let V : 'M[C]_2 := 1%:M in
  [/\ eigenpairs (gram Q w) L V, V \in unitmx, \sum_i (V i ord0)^* * V i ord_max = 0 & 0 < L 0 ord_max].
Proof.
move=> Q w L V.
have EM : gram Q w = 1%:M.
  apply/matrixP => a b; rewrite gramE !mxE (bigD1 a) //= big1 => [|i Hi]; last first.
    by rewrite !mxE (negbTE Hi) mulr0n rmorph0 !mul0r.
  rewrite !mxE eqxx mulr1n mulr1 addr0.
  have Hr : (sqrtC (2%:R : C))^* = sqrtC 2%:R by apply/CrealP/ger0_real; rewrite sqrtC_ge0 ler0n.
  rewrite Hr; case: (eqVneq a b) => _; last by rewrite mulr0n !mulr0.
  by rewrite mulr1n -expr2 sqrtCK mulVf ?pnatr_eq0.
split; rewrite ?unitmx1 ?mxE ?ltr01 //.
- split=> k; first by rewrite EM mul1mx mxE scale1r.
  rewrite (bigD1 k) //= big1 => [|i Hi]; rewrite !mxE ?eqxx ?(negbTE Hi) ?normr0 ?expr0n //.
  by rewrite normr1 expr1n addr0.
- by rewrite big_ord_recl big_ord1 !mxE /= mulr0n mulr0 rmorph0 mul0r addr0.
Qed.

(* ---- C37 ---- *)
Theorem C37_sorted_and_paired : forall (C : numClosedFieldType) (size : nat) (c : config C) eig argsort n
    (nloc : 'I_size -> nat) (own : forall r, 'I_(nloc r) -> 'I_n) X (w : 'cV[C]_n) f,
  partition_of own -> (forall i, 0 <= w i 0) -> eig_ok eig -> argsort_ok argsort ->
  let M := reduced_M c own X w f in
  exists sigma : 'I_(n_blocks c) -> 'I_(n_blocks c),
  [/\ bijective sigma,
      forall k, run_eigs eig argsort own X w f 0 k = one_sided c f * (eig M).1 0 (sigma k),
      forall i j : 'I_(n_blocks c), (i <= j)%N -> run_eigs eig argsort own X w f 0 j <= run_eigs eig argsort own X w f 0 i
    & forall r H (i : 'I_(nloc r)) (k : 'I_(n_modes_save c)),
        let s := sigma (widen_ord H k) in
        run_modes eig argsort own X w r f H i k
        = (\sum_(b < n_blocks c) block_hat c (fun t => X t (own r i)) b f * (eig M).2 b s) / (sqrtC (n_blocks c)%:R * sqrtC ((eig M).1 0 s))].
Proof.
move=> C size c eig argsort n nloc own X w f Hown Hw Heig Hsort M.
exists (Model_Spod.order argsort (eig M).1); rewrite /M (reduced_serial c Hown).
have [Hinj _] := sorted_ok X Hw Heig Hsort f; split.
- exact: injF_bij Hinj.
- by move=> k; rewrite run_eigsE // /run_L (reduced_serial c Hown) mxE.
- move=> i j Hij; rewrite !run_eigsE //; apply: ler_wpmul2l; first by rewrite ltW ?one_sided_gt0.
  exact: run_L_sorted.
- move=> r H i k; rewrite /run_modes /kept_modes !mxE mulr_suml /run_L /run_V (reduced_serial c Hown).
  by apply: eq_bigr => b _; rewrite !mxE mulrA.
Qed.
Print Assumptions C37_sorted_and_paired.

(* ---- C38 ---- *)
(* freq_energy f: average over blocks of the weighted squared norm of the transform at f;
   signal_energy: the same for the windowed blocks themselves (with the gain of the scaling) *)
Section C38.
Variables (C : numClosedFieldType) (size : nat) (c : config C).
Variable eig : 'M[C]_(n_blocks c) -> 'rV[C]_(n_blocks c) * 'M[C]_(n_blocks c).
Variable argsort : 'rV[C]_(n_blocks c) -> 'I_(n_blocks c) -> 'I_(n_blocks c).
Variables (n : nat) (nloc : 'I_size -> nat) (own : forall r, 'I_(nloc r) -> 'I_n).
Variables (X : nat -> 'I_n -> C) (w : 'cV[C]_n).
Definition spectrum_ok := [/\ partition_of own, forall i, 0 <= w i 0, eig_ok eig,
   eig_basis eig & argsort_ok argsort] /\
  [/\ (n_dft c).-primitive_root (omega c), forall k, window c k \is Num.real, forall t x, X t x \is Num.real & isrealx c].
Definition reported_total : C := \sum_(f < n_freq c) \sum_k run_eigs eig argsort own X w f 0 k.
End C38.
Theorem C38_even_one_sided_total : forall C size c eig argsort n nloc own X w h,
  @spectrum_ok C size c eig argsort n nloc own X w ->
  (0 < h)%N -> n_dft c = h.*2 -> n_freq c = h.+1 ->
  reported_total eig argsort own X w = signal_energy c X w.
Proof.
move=> C size c eig argsort n nloc own X w h [[Hown Hw Heig Hinv Hsort] [Hom Hwin Hreal Hr]] Hh En Ef.
rewrite /reported_total (total_eigs Hown X Hw Heig Hinv Hsort) -(full_energy X w Hom Hwin).
rewrite -(even_sum (freq_energy_sym w Hom Hwin Hreal) Hh En) Ef.
by apply: eq_bigr => f _; rewrite one_sidedE // Ef.
Qed.
Print Assumptions C38_even_one_sided_total.
Theorem C38_odd_one_sided_total_refuted : forall C size c eig argsort n nloc own X w h,
  @spectrum_ok C size c eig argsort n nloc own X w ->
  (0 < h)%N -> n_dft c = h.*2.+1 -> n_freq c = h.+1 ->
  reported_total eig argsort own X w = signal_energy c X w - freq_energy c X w h.
Proof.
move=> C size c eig argsort n nloc own X w h [[Hown Hw Heig Hinv Hsort] [Hom Hwin Hreal Hr]] Hh En Ef.
rewrite /reported_total (total_eigs Hown X Hw Heig Hinv Hsort) -(full_energy X w Hom Hwin).
rewrite -(odd_sum (freq_energy_sym w Hom Hwin Hreal) Hh En) Ef.
by apply: eq_bigr => f _; rewrite one_sidedE // Ef.
Qed.
Print Assumptions C38_odd_one_sided_total_refuted.
Theorem C38_full_spectrum_total_refuted : forall C size c eig argsort n nloc own X w,
  @spectrum_ok C size c eig argsort n nloc own X w ->
  (1 < n_dft c)%N -> n_freq c = n_dft c ->
  reported_total eig argsort own X w
  = 2 * signal_energy c X w - freq_energy c X w 0 - freq_energy c X w (n_dft c).-1.
Proof.
move=> C size c eig argsort n nloc own X w [[Hown Hw Heig Hinv Hsort] [Hom Hwin Hreal Hr]] Hn Ef.
rewrite /reported_total (total_eigs Hown X Hw Heig Hinv Hsort) -(full_energy X w Hom Hwin) -(os_sum _ Hn) Ef.
by apply: eq_bigr => f _; rewrite one_sidedE // Ef.
Qed.
Print Assumptions C38_full_spectrum_total_refuted.

(* ---- C41 ---- *)
(* for every positive strictly increasing inverse gamma function *)
Theorem C41_bounds_swapped_refuted : forall (C : numClosedFieldType) (size : nat) (c : config C) eig argsort n
    (nloc : 'I_size -> nat) (own : forall r, 'I_(nloc r) -> 'I_n) X (w : 'cV[C]_n) f k,
  (0 < n_blocks c)%N -> 2%:R^-1 < c_level c -> c_level c < 1 ->
  (forall p q, 0 < p -> p < q -> q < 1 -> gammaincinv c (n_blocks c) p < gammaincinv c (n_blocks c) q) ->
  (forall p, 0 < p -> p < 1 -> 0 < gammaincinv c (n_blocks c) p) ->
  let eigs := run_eigs (c := c) eig argsort own X w f in
  0 < eigs 0 k ->
  eigs_c_u c eigs 0 k < eigs_c_l c eigs 0 k.
Proof.
move=> C size c eig argsort n nloc own X w f k Hnb Hc1 Hc2 Hinc Hpos eigs He.
have H2 : (0 : C) < 2%:R by rewrite ltr0n.
have Hc0 : 0 < c_level c by apply: lt_trans Hc1; rewrite invr_gt0.
have Hlt : 1 - c_level c < c_level c.
  rewrite ltr_subl_addr.
  have E1 : 2%:R^-1 + 2%:R^-1 = 1 :> C by rewrite -mulr2n -[2%:R^-1 *+ 2]mulr_natr mulVf // lt0r_neq0.
  by rewrite -[X in X < _]E1 ltr_add.
have H0 : 0 < 1 - c_level c by rewrite subr_gt0.
clearbody eigs; rewrite !mxE ltr_pmul2l //.
have Hn : 0 < 2%:R * (n_blocks c)%:R :> C by rewrite mulr_gt0 ?ltr0n.
rewrite ltr_pmul2l // ltf_pinv ?posrE ?mulr_gt0 ?Hpos // ?(lt_trans Hlt) //.
by rewrite /xi2_upper /xi2_lower ltr_pmul2l // Hinc.
Qed.
Print Assumptions C41_bounds_swapped_refuted.
Example C41_nonvacuous (C : numClosedFieldType) :
  2%:R^-1 < (3%:R / 4%:R : C) /\ (3%:R / 4%:R : C) < 1 /\
  (forall p q : C, 0 < p -> p < q -> q < 1 -> (fun x => x) p < (fun x => x) q).
Proof.
have H4 : (0 : C) < 4%:R by rewrite ltr0n.
split; last split=> //.
- rewrite ltr_pdivl_mulr // mulrC ltr_pdivr_mulr ?ltr0n // -natrM ltr_nat //.
- by rewrite ltr_pdivr_mulr // mul1r ltr_nat.
Qed.

(* ---- C83 ---- *)
(* each mode with its eigenvalue solves the eigenvalue problem of the estimated cross-spectral density
   S(x,y) = 1/n_blocks sum_b q_b(x) conj(q_b(y)) with the weights: that is what SPOD modes are *)
Theorem C83_modes_solve_csd_eigenproblem : forall (C : numClosedFieldType) (c : config C) eig argsort n
    X (w : 'cV[C]_n) f H (k : 'I_(n_modes_save c)) x,
  (0 < n_blocks c)%N -> (forall i, 0 <= w i 0) -> eig_ok eig ->
  let q b x := block_hat c (fun t => X t x) b f in
  let S x y := (n_blocks c)%:R^-1 * \sum_(b < n_blocks c) q b x * (q b y)^* in
  let phi := serial_modes eig argsort X w ord0 f H in
  \sum_y S x y * w y 0 * phi y k = run_L eig argsort (size := 1) (fun _ i => i) X w f 0 (widen_ord H k) * phi x k.
Proof.
move=> C c eig argsort n X w f H k x Hnb Hw Heig q S phi.
have He := run_eigenpairs argsort (@serial_partition n) X Hw Heig f; rewrite (serial_gram c X w f) in He.
have := modes_csd (widen_ord H k) Hnb He x.
have E y : all_modes (q_hat c X f) (run_L eig argsort (size := 1) (fun _ i => i) X w f) (run_V eig argsort (size := 1) (fun _ i => i) X w f) y (widen_ord H k) = phi y k.
  by rewrite /phi /serial_modes /run_modes /kept_modes !mxE.
rewrite E => <-; apply: eq_bigr => y _; rewrite E; congr (_ * _ * _ * _).
by apply: eq_bigr => b _; rewrite !mxE.
Qed.
Print Assumptions C83_modes_solve_csd_eigenproblem.
