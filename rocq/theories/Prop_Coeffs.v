(* Property theorems C50-C52, C58, C87: coefficients, reconstruction, orthogonality check. *)
From Verif Require Import Base_List Model_Select Proof_Select.
From mathcomp Require Import all_ssreflect all_algebra.
From Verif Require Import Base_CRing Model_Spod Spec_Spod Spec_Coeffs Model_Coeffs Proof_Spod Proof_Spectral Proof_StreamAlg Proof_StreamNum3 Proof_Svd Proof_Coeffs.
Set Implicit Arguments.
Unset Strict Implicit.
Unset Printing Implicit Defensive.
Import GRing.Theory Num.Theory Order.TTheory.
Local Open Scope ring_scope.

(* inner products of the modes: the matrix that is (pseudo-)inverted *)
Definition mode_gram (C : numClosedFieldType) n p (w : 'cV[C]_n) (Phi : 'M[C]_(n, p)) : 'M[C]_p :=
  \matrix_(j, k) wip w Phi Phi j k.
Lemma mode_gramE (C : numClosedFieldType) n p (w : 'cV[C]_n) (Phi : 'M[C]_(n, p)) : mode_gram w Phi = G w Phi.
Proof.
apply/matrixP => j k; rewrite mxE /G -mulmxA mxE /wip; apply: eq_bigr => x _.
by rewrite W_mulE mxE [w x 0 * _]mulrC mulrA.
Qed.
(* no singular value of the Gram matrix is cut off by the tolerance, except zeros *)
Definition well_conditioned (C : numClosedFieldType) p (tol : C) (l : 'rV[C]_p) : Prop :=
  forall i m, largest l m -> l 0 i = 0 \/ tol * m < l 0 i.
Lemma largest_exists (C : numClosedFieldType) p (l : 'rV[C]_p) (i : 'I_p) :
  (forall a b : 'I_p, (a <= b)%N -> l 0 b <= l 0 a) -> exists m, largest l m.
Proof.
case: p l i => [|p] l i; first by case: i.
by move=> H; exists (l 0 ord0); split; [exists ord0|move=> j; apply: H].
Qed.
Lemma well_condE (C : numClosedFieldType) p svd (tol : C) (M : 'M[C]_p) : svd3_ok svd ->
  (well_conditioned tol (svd M).1.2 <-> forall i, (svd M).1.2 0 i = 0 \/ tol * l_max (svd M).1.2 < (svd M).1.2 0 i).
Proof.
move=> Hs; have [_ _ H0 Hd _] := Hs M; split=> H i; last by move=> m /(largestE H0) <-; exact: H.
by have [m Hm] := largest_exists i Hd; rewrite (largestE H0 Hm); exact: H.
Qed.

(* ---- C50 ---- *)
Theorem C50_least_squares : forall (C : numClosedFieldType) size n nt p (nloc : 'I_size -> nat)
    (own : forall r, 'I_(nloc r) -> 'I_n) (w : 'cV[C]_n) (Phi : 'M[C]_(n, p)) (data : 'M[C]_(nt, n)) svd tol,
  partition_of own -> (forall x, 0 <= w x 0) -> svd3_ok svd -> well_conditioned tol (svd (mode_gram w Phi)).1.2 ->
  let a := coeffs own w Phi data svd tol in
  (* the residual is orthogonal to every mode *)
  (forall j t, \sum_x (Phi x j)^* * (fluctuation data t x - \sum_k Phi x k * a k t) * w x 0 = 0) /\
  (* no other coefficients come closer *)
  (forall t b, misfit w Phi data t (fun j => a j t) <= misfit w Phi data t b).
Proof.
move=> C size n nt p nloc own w Phi data svd tol Hown Hw Hsvd Hc a.
have HX : G w Phi *m m_inv svd tol (G w Phi) *m G w Phi = G w Phi.
  by apply: inv_MXM => //; apply/(well_condE tol _ Hsvd); rewrite -mode_gramE.
have Ea : a = m_inv svd tol (G w Phi) *m (adj Phi *m W w *m D data) by rewrite /a coeffsE.
split=> [j t|t b]; last by rewrite Ea; exact: least_squares.
have := congr1 (fun M : 'M_(p, nt) => M j t) (normal_eq Hw data HX); rewrite -Ea [RHS]mxE => E.
rewrite -[RHS]E -mulmxA mxE; apply: eq_bigr => x _; rewrite W_mulE [adj Phi j x]mxE -mulrA; congr (_ * _).
have e (M N : 'M[C]_(n, nt)) : (M - N) x t = M x t - N x t by rewrite mxE [X in _ + X]mxE.
by rewrite e [D data x t]mxE [(Phi *m a) x t]mxE mulrC.
Qed.
Print Assumptions C50_least_squares.
Lemma cut_counterexample (C : numClosedFieldType) size n nt p (nloc : 'I_size -> nat)
    (own : forall r, 'I_(nloc r) -> 'I_n) (w : 'cV[C]_n) (Phi : 'M[C]_(n, p)) svd tol k :
  partition_of own -> svd3_ok svd -> (2 <= nt)%N -> (svd (G w Phi)).1.2 0 k != 0 ->
  ~~ (tol * l_max (svd (G w Phi)).1.2 < (svd (G w Phi)).1.2 0 k) ->
  exists data : 'M[C]_(nt, n), in_span Phi data /\ (exists r i t, data t (own r i) != 0) /\
    forall r i t, rec_op own w Phi data svd tol r i t = 0.
Proof.
move=> Hown Hsvd Hnt Hk Hn.
pose cv := col k (adj (svd (G w Phi)).2).
pose sg (t : nat) : C := if t == 0%N then 1 else if t == 1%N then -1 else 0.
have Hsum : \sum_(t < nt) sg t = 0.
  case: nt Hnt => [|[|m]] // _; rewrite 2!big_ord_recl big1 ?addr0; last by [].
  by rewrite /sg /= subrr.
pose data : 'M[C]_(nt, n) := \matrix_(t, x) (sg t * (Phi *m cv) x 0).
have Hm x : time_mean data x = 0.
  by rewrite /time_mean; under eq_bigr do rewrite mxE; rewrite -mulr_suml Hsum !mul0r.
have Hf t x : fluctuation data t x = sg t * (Phi *m cv) x 0 by rewrite /fluctuation Hm subr0 mxE.
have Hsp : in_span Phi data.
  exists (fun t j => sg t * cv j 0) => t x; rewrite Hf mxE mulr_sumr; apply: eq_bigr => j _; by rewrite mulrCA.
have HD : D data = Phi *m cv *m (\row_t sg t).
  by apply/matrixP => x t; rewrite mxE Hf [RHS]mxE big_ord1 [X in _ = _ * X]mxE mulrC.
have Hz : cf w Phi data svd tol = 0.
  rewrite /cf HD !mulmxA -[_ *m adj Phi *m W w *m Phi]mulmxA -[_ *m adj Phi *m _]mulmxA [adj Phi *m (W w *m Phi)]mulmxA.
  by rewrite -/(G w Phi) -/cv (inv_vec Hsvd Hn) mul0mx.
exists data; split=> //; split; last by move=> r i t; rewrite recE // Hz mulmx0 mxE Hm addr0.
have HP : Phi *m cv != 0.
  apply/eqP => HP; have := M_vec Hsvd Hk; rewrite -/cv /G -mulmxA HP mulmx0; by rewrite eqxx.
have : [exists x, (Phi *m cv) x 0 != 0].
  case: (boolP [exists x, (Phi *m cv) x 0 != 0]) => // /existsPn H; exfalso.
  move/eqP: HP; apply; apply/matrixP => x y; rewrite [y]ord1 [RHS]mxE.
  by apply/eqP; rewrite -[_ == _]negbK; exact: H.
case/existsP => x Hx; have [r [i Ei]] := own_surj Hown x.
by exists r, i, (Ordinal (ltnW Hnt)); rewrite Ei mxE /sg /= mul1r.
Qed.
(* data in the span of the modes are reconstructed, for all data, exactly when the tolerance cuts nothing *)
Theorem C50_reconstruction_iff : forall (C : numClosedFieldType) size n nt p (nloc : 'I_size -> nat)
    (own : forall r, 'I_(nloc r) -> 'I_n) (w : 'cV[C]_n) (Phi : 'M[C]_(n, p)) svd tol,
  partition_of own -> (forall x, 0 < w x 0) -> svd3_ok svd -> (2 <= nt)%N ->
  (well_conditioned tol (svd (mode_gram w Phi)).1.2 <->
   forall data : 'M[C]_(nt, n), in_span Phi data ->
     forall r i t, rec_op own w Phi data svd tol r i t = data t (own r i)).
Proof.
move=> C size n nt p nloc own w Phi svd tol Hown Hw Hsvd Hnt; rewrite mode_gramE; split.
- move=> Hc data Hsp r i t; rewrite recE // /cf.
  rewrite (span_rec (fun x => ltW (Hw x)) _ Hw Hsp); last by apply: inv_MXM => //; apply/(well_condE tol _ Hsvd).
  by rewrite mxE /fluctuation subrK.
- move=> H; apply/(well_condE tol _ Hsvd) => k.
  case: (eqVneq ((svd (G w Phi)).1.2 0 k) 0) => Hk; first by left.
  case: (boolP (tol * l_max (svd (G w Phi)).1.2 < (svd (G w Phi)).1.2 0 k)) => Hn; [by right|exfalso].
  have [data [Hsp [[r [i [t Hd]]] Hr]]] := cut_counterexample Hown Hsvd Hnt Hk Hn.
  by move: Hd; rewrite -(H data Hsp) Hr eqxx.
Qed.
Print Assumptions C50_reconstruction_iff.

(* ---- C87 ---- *)
(* a non-zero singular value at or below tol times the largest: some data in the span of the modes come back as zero *)
Theorem C87_dropped_directions_refuted : forall (C : numClosedFieldType) size n nt p (nloc : 'I_size -> nat)
    (own : forall r, 'I_(nloc r) -> 'I_n) (w : 'cV[C]_n) (Phi : 'M[C]_(n, p)) svd tol m k,
  partition_of own -> svd3_ok svd -> (2 <= nt)%N ->
  let l := (svd (mode_gram w Phi)).1.2 in
  largest l m -> 0 < l 0 k <= tol * m ->
  exists data : 'M[C]_(nt, n), in_span Phi data /\ (exists r i t, data t (own r i) != 0) /\
    forall r i t, rec_op own w Phi data svd tol r i t = 0.
Proof.
move=> C size n nt p nloc own w Phi svd tol m k Hown Hsvd Hnt l Hm /andP [H0 Hle].
have [_ _ Hp _ _] := Hsvd (mode_gram w Phi).
apply: (@cut_counterexample _ _ _ _ _ _ _ _ _ _ _ k) => //; rewrite -mode_gramE; first exact: lt0r_neq0.
by rewrite (largestE Hp Hm) -/l; apply/negP => /(le_lt_trans Hle); rewrite ltxx.
Qed.
Print Assumptions C87_dropped_directions_refuted.

(* ---- C51 ---- *)
Theorem C51_rank_independence : forall (C : numClosedFieldType) size n nt p (nloc : 'I_size -> nat)
    (own : forall r, 'I_(nloc r) -> 'I_n) (w : 'cV[C]_n) (Phi : 'M[C]_(n, p)) (data : 'M[C]_(nt, n)) svd tol,
  partition_of own ->
  coeffs own w Phi data svd tol = serial_coeffs w Phi data svd tol /\
  forall r i t, rec_op own w Phi data svd tol r i t = serial_rec w Phi data svd tol (own r i) t.
Proof.
move=> C size n nt p nloc own w Phi data svd tol Hown; split.
  by rewrite /serial_coeffs coeffsE // (coeffsE (id_partition n)).
by move=> r i t; rewrite recE // /serial_rec (recE (id_partition n)).
Qed.
Print Assumptions C51_rank_independence.

(* ---- C58: the tested value ---- *)
Theorem C58_value : forall (C : numClosedFieldType) size n p (nloc : 'I_size -> nat)
    (own : forall r, 'I_(nloc r) -> 'I_n) (w : 'cV[C]_n) (Phi : 'M[C]_(n, p)) j k,
  partition_of own -> ortho_value own w Phi j k = wip w Phi Phi j k.
Proof. by move=> *; apply: ortho_valueE. Qed.
Print Assumptions C58_value.

(* ---- C52 ---- *)
(* saved by rank 0 of a parallel run, against the serial run: the difference is what the other ranks hold *)
Theorem C52_partial_sum_saved : forall (C : numClosedFieldType) size n nt nm (nloc : 'I_size.+1 -> nat)
    (own : forall r, 'I_(nloc r) -> 'I_n) (w : 'cV[C]_n) phi (data : 'M[C]_(nt, n)) n_dft win omega f t (m : 'I_nm),
  partition_of own ->
  conv_serial w phi data n_dft win omega f t m
  = conv_saved own w phi data n_dft win omega f t m
    + \sum_(r < size) conv_local own w phi data n_dft win omega (lift ord0 r) f t m.
Proof.
move=> C size n nt nm nloc own w phi data n_dft win omega f t m Hown.
rewrite /conv_saved -(big_ord_recl size (fun r => conv_local own w phi data n_dft win omega r f t m)).
rewrite /conv_serial /conv_local -mulr_sumr; congr (_ * _).
pose q (x : 'I_n) : C := \sum_(k < n_dft) (if insub (t + k - h_pad n_dft)%N is Some s then if (h_pad n_dft <= t + k)%N then fluctuation data s x else 0 else 0) * win k * omega ^+ (f * k).
rewrite (eq_bigr (fun x => q x * w x 0 * (phi f x m)^*)); last first.
  move=> x _; congr (_ * _ * _); apply: eq_bigr => k _; congr (_ * _ * _); rewrite /pad.
  by case: insub => // s; case: ifP => // _; rewrite dcentE.
rewrite -(sum_ranks Hown); apply: eq_bigr => r _; apply: eq_bigr => i _; congr (_ * _ * _).
apply: eq_bigr => k _; congr (_ * _ * _); rewrite /pad.
by case: insub => // s; case: ifP => // _; rewrite dcentE.
Qed.
Print Assumptions C52_partial_sum_saved.
(* hence a run on several ranks saves other values than a serial run as soon as a rank other than 0 holds one
   entry with non-zero weight where the mode does not vanish *)
Theorem C52_rank_independence_refuted : forall (C : numClosedFieldType) size n nt nm (nloc : 'I_size.+1 -> nat)
    (own : forall r, 'I_(nloc r) -> 'I_n) (w : 'cV[C]_n) (phi : nat -> 'I_n -> 'I_nm -> C) n_dft win omega f (m : 'I_nm) r x,
  partition_of own -> (2 <= n_dft < nt)%N -> (forall k, 0 < win k) -> omega != 0 ->
  r != ord0 -> w (own r x) 0 != 0 -> phi f (own r x) m != 0 ->
  exists data : 'M[C]_(nt, n),
    conv_saved own w phi data n_dft win omega f 0 m = 0 /\
    conv_serial w phi data n_dft win omega f 0 m != 0.
Proof.
move=> C size n nt nm nloc own w phi n_dft win omega f m r x Hown /andP [H2 Hlt] Hwin Hom Hr Hwx Hphi.
have [Hh0 Hh1] : (0 < h_pad n_dft)%N /\ (h_pad n_dft < n_dft)%N.
  by have [|/ssrnat.ltP ? /ssrnat.ltP ?] := @h_pad_bounds n_dft; first exact/ssrnat.leP.
have Hnt0 : (0 < nt)%N by apply: leq_trans Hlt.
have Hnt2 : (1 < nt)%N by apply: leq_ltn_trans Hlt; apply: ltnW.
pose sg (t : nat) : C := if t == 0%N then 1 else if t == nt.-1 then -1 else 0.
pose data : 'M[C]_(nt, n) := \matrix_(t, y) (if y == own r x then sg t else 0).
have Hsum : \sum_(t < nt) sg t = 0.
  rewrite (bigD1 (Ordinal Hnt0)) //= {1}/sg /=.
  have Hl : (nt.-1 < nt)%N by rewrite prednK.
  have Hl0 : nt.-1 != 0%N by case: nt Hnt2 {Hnt0 Hlt data Hl sg} => [|[|k]].
  rewrite (bigD1 (Ordinal Hl)) /=; last by rewrite -val_eqE.
  rewrite {1}/sg /= (negbTE Hl0) eqxx big1 ?addr0 ?subrr // => t /andP [Ha Hb].
  by rewrite /sg; move: Ha Hb; rewrite -!val_eqE /= => /negbTE -> /negbTE ->.
have Hm y : time_mean data y = 0.
  rewrite /time_mean; under eq_bigr do rewrite mxE; case: (y == _); last by rewrite big1 // mul0r.
  by rewrite Hsum mul0r.
have Hf t y : fluctuation data t y = if y == own r x then sg t else 0 by rewrite /fluctuation Hm subr0 mxE.
exists data; split.
  rewrite /conv_saved /conv_local big1 ?mulr0 // => i _; rewrite /q_blk big1 ?mul0r // => k _.
  rewrite /pad; case: insub => [s|]; last by rewrite !mul0r.
  case: ifP; last by rewrite !mul0r.
  move=> _; rewrite dcentE Hf; case: eqP => [E|_]; last by rewrite !mul0r.
  have := @bij_inj _ _ _ Hown (Tagged (fun r => 'I_(nloc r)) i) (Tagged (fun r => 'I_(nloc r)) x) E.
  by move/(congr1 (fun z => tag z)) => /= Er; move: Hr; rewrite -Er eqxx.
rewrite /conv_serial /conv_local mulf_neq0 //; last first.
  rewrite (bigD1 (own r x)) //= big1 ?addr0; last first.
    move=> y Hy; rewrite /q_blk big1 ?mul0r // => k _; rewrite /pad; case: insub => [s|]; last by rewrite !mul0r.
    case: ifP; last by rewrite !mul0r.
    by move=> _; rewrite dcentE Hf (negbTE Hy) !mul0r.
  rewrite !mulf_neq0 ?conjC_eq0 // /q_blk (bigD1 (Ordinal Hh1)) //= big1 ?addr0.
    rewrite !mulf_neq0 ?expf_neq0 //; last exact: lt0r_neq0.
    by rewrite /pad add0n subnn insubT leqnn dcentE Hf eqxx /sg /= oner_neq0.
  move=> k Hk; rewrite /pad add0n; case: insubP => [s _ Es|]; last by rewrite !mul0r.
  case: ifP => Hle; last by rewrite !mul0r.
  rewrite dcentE Hf eqxx /sg Es subn_eq0.
  have -> : (k <= h_pad n_dft)%N = false.
    apply/negbTE; rewrite -ltnNge ltn_neqAle Hle andbT; apply: contra Hk => /eqP E; apply/eqP/val_inj; by rewrite /= E.
  have -> : (k - h_pad n_dft)%N == nt.-1 = false; last by rewrite !mul0r.
  apply/negbTE; rewrite neq_ltn; apply/orP; left; rewrite ltn_subLR //.
  apply: (leq_trans (ltn_ord k)); apply: (@leq_trans nt.-1); last exact: leq_addl.
  by rewrite -ltnS prednK.
rewrite /corr; have Hin := @in_sum_last nt n_dft; move: Hin; rewrite /in_sum.
case: corr_range => [[lb ub]|]; last by rewrite oner_neq0.
move=> Hin; have {}Hin : (Z.leb lb (Z.of_nat (n_dft - 1)) && Z.ltb (Z.of_nat (n_dft - 1)) ub)%bool by apply: Hin; apply/ssrnat.leP.
rewrite sqrtC_eq0 mulf_neq0 ?invr_neq0 // lt0r_neq0 //.
  rewrite (bigD1 (Ordinal Hh1)) //= ltr_paddr // sumr_ge0 // => k _; exact: ltW.
have Hlast : (n_dft - 1 < n_dft)%N by rewrite subn1 prednK // ltnW.
rewrite (bigD1 (Ordinal Hlast)) //= ltr_paddr // sumr_ge0 // => k _; exact: ltW.
Qed.
Print Assumptions C52_rank_independence_refuted.

(* ---- the hypotheses are satisfiable ---- *)
(* an SVD routine as required exists, at every size *)
Example svd3_routine_exists : forall (C : numClosedFieldType) p, exists svd, @svd3_ok C p svd.
Proof.
move=> C p.
have H (K : 'M[C]_p) : exists t, svdb K t.
  have [U [s [V [H1 H2 H3 H4 H5]]]] := svd_exist1 K; exists (U, s, V).
  apply/and5P; split; rewrite /= ?H1 ?H4 ?eqxx //; last by rewrite {1}H5.
    exact/forallP.
  by apply/forallP => i; apply/forallP => j; apply/implyP; apply: H3.
exists (fun K => ((xchoose (H K)).1.1, (xchoose (H K)).1.2, adj (xchoose (H K)).2)) => K; have := xchooseP (H K).
move: (xchoose (H K)) => [[U s] V] /and5P [/= /eqP H1 /forallP H2 /forallP H3 /eqP H4 /eqP H5]; split=> //.
- by move=> i j; have := congr1 (fun M : 'M_p => M i j) H1; rewrite !mxE => <-; apply: eq_bigr => k _; rewrite mxE.
- move=> i j; have := congr1 (fun M : 'M_p => M i j) H4; rewrite !mxE => <-; apply: eq_bigr => k _.
  by rewrite !mxE conjCK.
- by move=> i j; move/forallP: (H3 i) => /(_ j) /implyP.
by move=> a b; rewrite {1}H5 mxE; apply: eq_bigr => k _; rewrite mul_diagE.
Qed.
(* orthonormal modes (one frequency, C38) are well conditioned for every tolerance below 1 *)
Example orthonormal_well_conditioned : forall (C : numClosedFieldType) n p (w : 'cV[C]_n) (Phi : 'M[C]_(n, p)) svd (tol : C),
  svd3_ok svd -> tol < 1 -> (forall j k, wip w Phi Phi j k = (j == k)%:R) ->
  well_conditioned tol (svd (mode_gram w Phi)).1.2.
Proof.
move=> C n p w Phi svd tol Hs Ht Ho.
have -> : mode_gram w Phi = 1%:M by apply/matrixP => j k; rewrite !mxE Ho.
have [_ _ H0 _ _] := Hs 1%:M; have E := ulv Hs (1%:M : 'M[C]_p).
have H1 i : (svd (1%:M : 'M[C]_p)).1.2 0 i = 1.
  have U := uu Hs (1%:M : 'M[C]_p); have V := vv Hs (1%:M : 'M[C]_p); move: E U V H0.
  move: (svd 1%:M).1.1 (svd 1%:M).1.2 (svd 1%:M).2 => u l v E U V H0.
  have Ed : diag_mx l = adj u *m adj v.
    have : adj u *m (u *m diag_mx l *m v) *m adj v = adj u *m adj v by rewrite -E mulmx1.
    by rewrite !mulmxA U mul1mx -mulmxA V mulmx1.
  have Hu : u *m adj u = 1%:M by apply: mulmx1C.
  have : adj (diag_mx l) *m diag_mx l = 1%:M.
    by rewrite Ed adjM !adjK -!mulmxA [u *m _]mulmxA Hu mul1mx V.
  rewrite adj_diag mulmx_diag => /(congr1 (fun M : 'M_p => M i i)); rewrite !mxE eqxx !mulr1n real_conj // -expr2 => Hsq.
  by apply/eqP; rewrite -(@eqr_expn2 _ 2) ?ler01 ?expr1n ?Hsq.
by move=> i m [[k <-] _]; right; rewrite !H1 mulr1.
Qed.
(* two ranks with one entry each: the hypotheses of C52_rank_independence_refuted *)
Example two_ranks_conv : forall (C : numClosedFieldType),
  let own := (fun (r : 'I_2) (_ : 'I_1) => r) in
  partition_of own /\ exists data : 'M[C]_(5, 2),
    conv_saved own (const_mx 1) (fun _ _ (_ : 'I_2) => 1) data 4 (fun _ => 1) 'i 1 0 ord0 = 0 /\
    conv_serial (const_mx 1) (fun _ _ (_ : 'I_2) => 1) data 4 (fun _ => 1) 'i 1 0 ord0 != 0.
Proof.
move=> C own; have Hp : partition_of own.
  exists (fun r : 'I_2 => Tagged (fun _ : 'I_2 => 'I_1) (i := r) ord0) => [[r i]|r] //=.
  by rewrite [i]ord1.
split=> //; apply: (@C52_rank_independence_refuted C 1 2 5 2 _ own _ _ 4 _ 'i 1%N ord0 (Ordinal (isT : 1 < 2)%N) ord0) => //.
all: by rewrite ?ltr01 ?neq0Ci ?oner_neq0 ?mxE ?oner_neq0.
Qed.
