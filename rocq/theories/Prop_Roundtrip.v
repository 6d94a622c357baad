(* C132: a fit that keeps the whole spectrum, coefficients by oblique projection, reconstruction: the record comes back. *)
From Verif Require Import Base_List Model_Select.
From mathcomp Require Import all_ssreflect all_algebra.
From Verif Require Import Base_CRing Model_Spod Spec_Spod Spec_Coeffs Model_Coeffs Proof_Spod Proof_Spectral Proof_StreamAlg Proof_Dft Proof_Coeffs Proof_Optimal Proof_Optimal2 Prop_Coeffs.
Set Implicit Arguments.
Unset Strict Implicit.
Unset Printing Implicit Defensive.
Import GRing.Theory Num.Theory Order.TTheory.
Local Open Scope ring_scope.

(* ---- specification ---- *)
Section Spec.
Variable C : numClosedFieldType.
(* snapshot t is sample k of block b *)
Definition sample_of (c : config C) (t b k : nat) : Prop := (b < n_blocks c)%N /\ (k < n_dft c)%N /\ t = (block_offset c b + k)%N.
Definition covered (c : config C) (t : nat) : Prop := exists b k, sample_of c t b k.
(* column f * n_modes + m of the gathered modes is mode m of frequency f (C55) *)
Definition gathered (c : config C) n (phi : nat -> 'I_n -> 'I_(n_modes_save c) -> C) (Phi : 'M[C]_(n, n_freq c * n_modes_save c)) : Prop :=
  forall x (j : 'I_(n_freq c * n_modes_save c)) f (m : 'I_(n_modes_save c)), j = (f * n_modes_save c + m)%N :> nat -> Phi x j = phi f x m.
End Spec.

Section Proof.
Variable C : numClosedFieldType.
Add Ring Cring : (cr_th C).
Ltac cring := cr_norm C; ring.

Lemma inverse_dft (om : C) n (q : nat -> C) (k : 'I_n) : n.-primitive_root om ->
  q k = (n%:R)^-1 * \sum_(f < n) dft om n q f * (om ^+ (f * k))^*.
Proof.
move=> Ho; have Hn : n%:R != 0 :> C by rewrite pnatr_eq0 -lt0n (prim_order_gt0 Ho).
apply: (mulfI Hn); rewrite mulVKf // /dft; under eq_bigr do rewrite mulr_suml.
rewrite exchange_big /= (bigD1 k) //= [X in _ + X]big1 ?addr0 => [|l Hl].
  by under eq_bigr do rewrite -mulrA; rewrite -mulr_sumr w_orth // eqxx mulrC.
by under eq_bigr do rewrite -mulrA; rewrite -mulr_sumr w_orth // (negbTE Hl) mulr0.
Qed.

Section Run.
Variables (c : config C) (eig : 'M[C]_(n_blocks c) -> 'rV[C]_(n_blocks c) * 'M[C]_(n_blocks c)) (argsort : 'rV[C]_(n_blocks c) -> 'I_(n_blocks c) -> 'I_(n_blocks c)).
Variables (n : nat) (X : nat -> 'I_n -> C) (w : 'cV[C]_n).
Hypothesis Hw : forall i, 0 < w i 0.
Hypothesis Heig : eig_ok eig.
Hypothesis Hbasis : eig_basis eig.
Hypothesis Hsort : argsort_ok argsort.
Notation L f := (run_L eig argsort (size := 1) (fun _ (i : 'I_n) => i) X w f).
Notation V f := (run_V eig argsort (size := 1) (fun _ (i : 'I_n) => i) X w f).
Let Hw0 i : 0 <= w i 0 := ltW (Hw i).

(* a zero eigenvalue: the combination of blocks vanishes *)
Lemma null_column f k i : (0 < n_blocks c)%N -> L f 0 k = 0 -> (q_hat c X f *m V f) i k = 0.
Proof.
move=> Hnb HL; have He := run_eigenpairs argsort (@serial_partition n) X Hw0 Heig f; rewrite (serial_gram c X w f) in He.
have := quad_gram (q_hat c X f) w (fun b => V f b k).
have -> : \sum_i0 \sum_j (V f i0 k)^* * gram (q_hat c X f) w i0 j * V f j k = 0.
  rewrite big1 // => a _; under eq_bigr do rewrite -mulrA; rewrite -mulr_sumr.
  have := congr1 (fun M : 'cV_(n_blocks c) => M a 0) (proj1 He k); rewrite HL scale0r [RHS]mxE mxE.
  by under eq_bigr do rewrite [col k _ _ _]mxE; move=> ->; rewrite mulr0.
move=> /esym/eqP; rewrite mulf_eq0 invr_eq0 pnatr_eq0 (gtn_eqF Hnb) /= psumr_eq0 => [/allP /(_ i (mem_index_enum i))|j _]; last by rewrite mulr_ge0 ?exprn_ge0.
rewrite mulf_eq0 (gt_eqF (Hw i)) orbF expf_eq0 /= normr_eq0 => /eqP; by rewrite mxE.
Qed.

Definition mixing f (H : (n_modes_save c <= n_blocks c)%N) : 'M[C]_(n_modes_save c, n_blocks c) :=
  \matrix_(m, b) (sqrtC (n_blocks c)%:R * sqrtC (L f 0 (widen_ord H m)) * invmx (V f) (widen_ord H m) b).
(* the Fourier blocks are combinations of the kept modes *)
Lemma hat_in_span f (H : (n_modes_save c <= n_blocks c)%N) : (0 < n_blocks c)%N ->
  (forall k : 'I_(n_blocks c), (k < n_modes_save c)%N -> 0 < L f 0 k) -> (forall k : 'I_(n_blocks c), (n_modes_save c <= k)%N -> L f 0 k = 0) ->
  forall i b, q_hat c X f i b = \sum_m serial_modes eig argsort X w ord0 f H i m * mixing f H m b.
Proof.
move=> Hnb Hk Hz; have HV : V f \in unitmx by apply: run_V_unit => //; exact: serial_partition.
move=> i b.
have -> : q_hat c X f i b = \sum_k (q_hat c X f *m V f) i k * invmx (V f) k b.
  by have := congr1 (fun M : 'M_(n, n_blocks c) => M i b) (mulmxK HV (q_hat c X f)); rewrite mxE => <-.
rewrite (bigID (fun k : 'I_(n_blocks c) => (k < n_modes_save c)%N)) /= [X in _ + X]big1 ?addr0 => [|k]; last first.
  by rewrite -leqNgt => /Hz E; rewrite (null_column i Hnb E) mul0r.
rewrite (big_ord_narrow H); apply: eq_bigr => m _.
have Hp : 0 < sqrtC (n_blocks c)%:R * sqrtC (L f 0 (widen_ord H m)) by rewrite mulr_gt0 ?sqrtC_gt0 ?ltr0n //; apply: Hk; exact: (ltn_ord m).
have E : serial_modes eig argsort X w ord0 f H i m = \sum_a q_hat c X f i a * (V f a (widen_ord H m) * (sqrtC (n_blocks c)%:R * sqrtC (L f 0 (widen_ord H m)))^-1).
  by rewrite /serial_modes /run_modes /kept_modes mxE [LHS]mxE; apply: eq_bigr => a _; rewrite [X in _ * X]mxE.
rewrite [X in _ = _ * X]mxE {}E mulrA; congr (_ * _); rewrite mulr_suml [LHS]mxE; apply: eq_bigr => a _.
by rewrite -!mulrA; congr (_ * _); rewrite mulVf ?mulr1 // lt0r_neq0.
Qed.

Hypothesis Hmean : mean_type c = Longtime.
Hypothesis Hnorm : normalize_data c = false.
Hypothesis Hroot : (n_dft c).-primitive_root (omega c).
Hypothesis Hww : win_weight c != 0.
Definition record : 'M[C]_(nt c, n) := \matrix_(t, i) X t i.
Lemma fluct_record (t : 'I_(nt c)) i : fluctuation record t i = X t i - t_mean c (fun t => X t i).
Proof.
rewrite /fluctuation /time_mean [record t i]mxE /t_mean Hmean; congr (_ - _ / _); apply: eq_bigr => s _; by rewrite mxE.
Qed.
(* a snapshot is a combination of the Fourier transforms of its block *)
Lemma fluct_hats (t : 'I_(nt c)) i (b : 'I_(n_blocks c)) (k : 'I_(n_dft c)) : t = (block_offset c b + k)%N :> nat -> window c k != 0 ->
  fluctuation record t i = \sum_(f < n_dft c) q_hat c X f i b * ((win_weight c)^-1 * (omega c ^+ (f * k))^* * (window c k)^-1).
Proof.
move=> Et Hk; have Hn : (n_dft c)%:R != 0 :> C by rewrite pnatr_eq0 -lt0n (prim_order_gt0 Hroot).
have Hq : fluctuation record t i * window c k = block_windowed c (fun t => X t i) b k.
  by rewrite fluct_record Et /block_windowed /block_normalized Hnorm /block_centred Hmean.
apply: (mulIf Hk); rewrite Hq (inverse_dft (block_windowed c (fun t => X t i) b) k Hroot) mulr_sumr mulr_suml; apply: eq_bigr => f _.
rewrite [q_hat c X f i b]mxE /block_hat; move: (win_weight c) Hww (window c k) Hk (dft _ _ _ _) ((omega c ^+ _)^* ) => u Hu v Hv d o.
have -> : u / (n_dft c)%:R * d * (u^-1 * o * v^-1) * v = (u * u^-1) * (v^-1 * v) * ((n_dft c)%:R^-1 * (d * o)) by cring.
by rewrite mulfV // mulVf // !mul1r.
Qed.
End Run.

Lemma sum_gathered nf nm (F : nat -> 'I_nm -> C) (G : 'I_(nf * nm) -> C) :
  (forall (j : 'I_(nf * nm)) (f : 'I_nf) (m : 'I_nm), j = (f * nm + m)%N :> nat -> G j = F f m) ->
  \sum_j G j = \sum_(f < nf) \sum_m F f m.
Proof.
move=> HG; have Hb (p : 'I_nf * 'I_nm) : (p.1 * nm + p.2 < nf * nm)%N.
  by apply: (@leq_trans (p.1.+1 * nm)); [rewrite mulSn addnC ltn_add2r|rewrite leq_mul2r ltn_ord orbT].
pose h (p : 'I_nf * 'I_nm) : 'I_(nf * nm) := Ordinal (Hb p).
rewrite pair_big /= (reindex h) /=; last first.
  apply: onW_bij; apply: inj_card_bij; last by rewrite card_prod !card_ord.
  move=> [f m] [f' m'] /(congr1 val) /= E; have Hm := ltn_ord m; have Hm' := ltn_ord m'.
  have E1 : f = f' :> nat by have := congr1 (divn^~ nm) E; rewrite /= !divnMDl ?(leq_ltn_trans _ Hm) // !divn_small // !addn0.
  have E2 : m = m' :> nat by have := congr1 (modn^~ nm) E; rewrite /= !modnMDl !modn_small.
  by congr (_, _); apply: val_inj.
by apply: eq_bigr => p _; apply: HG.
Qed.
End Proof.

(* ---- C132 ---- *)
(* Full spectrum (all n_dft frequencies, so complex data or the option fullspectrum), long-time mean, every mode with a non-zero eigenvalue
   kept, a window without zeros, no direction lost to the tolerance of the pseudo-inverse: on any number of processes the reconstruction
   from the oblique-projection coefficients returns every snapshot that lies in a block, as it was. *)
Theorem C132_record_comes_back : forall (C : numClosedFieldType) (c : config C) eig argsort n (X : nat -> 'I_n -> C) (w : 'cV[C]_n) H
    size (nloc : 'I_size -> nat) (own : forall r, 'I_(nloc r) -> 'I_n) Phi svd tol,
  mean_type c = Longtime -> normalize_data c = false -> n_freq c = n_dft c -> (0 < n_blocks c)%N ->
  (n_dft c).-primitive_root (omega c) -> (forall k, (k < n_dft c)%N -> window c k != 0) -> \sum_(k < n_dft c) window c k != 0 ->
  (forall x, 0 < w x 0) -> eig_ok eig -> eig_basis eig -> argsort_ok argsort ->
  let lam f k := run_L eig argsort (size := 1) (fun _ i => i) X w f 0 k in
  (forall f (k : 'I_(n_blocks c)), (f < n_freq c)%N -> (k < n_modes_save c)%N -> 0 < lam f k) ->
  (forall f (k : 'I_(n_blocks c)), (f < n_freq c)%N -> (n_modes_save c <= k)%N -> lam f k = 0) ->
  partition_of own -> gathered (fun f x m => serial_modes eig argsort X w ord0 f H x m) Phi ->
  svd3_ok svd -> well_conditioned tol (svd (mode_gram w Phi)).1.2 ->
  forall r (i : 'I_(nloc r)) (t : 'I_(nt c)), covered c t ->
  rec_op own w Phi (\matrix_(t, i) X t i : 'M[C]_(nt c, n)) svd tol r i t = X t (own r i).
Proof.
move=> C c eig argsort n X w H size nloc own Phi svd tol Hmean Hnorm Hf Hnb Hroot Hwin Hsum Hw Heig Hbasis Hsort lam Hpos Hzero Hown Hg Hsvd Hc r i t [b [k [Hb [Hk Et]]]].
have Hww : win_weight c != 0 by rewrite /win_weight invr_eq0 mulf_neq0 // invr_eq0 pnatr_eq0 -lt0n (prim_order_gt0 Hroot).
pose b' := Ordinal Hb; pose k' := Ordinal Hk; set data := \matrix_(t, i) X t i.
pose cf f := (win_weight c)^-1 * (omega c ^+ (f * k))^* * (window c k)^-1.
pose a (j : 'I_(n_freq c * n_modes_save c)) : C :=
  if insub (j %% n_modes_save c)%N is Some m then mixing eig argsort X w (j %/ n_modes_save c) H m b' * cf (j %/ n_modes_save c)%N else 0.
have Ha x : fluctuation data t x = \sum_j Phi x j * a j.
  rewrite (fluct_hats X Hmean Hnorm Hroot Hww x (b := b') (k := k') Et (Hwin k Hk)).
  pose F f (m : 'I_(n_modes_save c)) := serial_modes eig argsort X w ord0 f H x m * mixing eig argsort X w f H m b' * cf f.
  rewrite (sum_gathered (F := F)) => [|j f m Ej]; last first.
    have Hm := ltn_ord m; rewrite (Hg x j f m Ej) /a Ej modnMDl modn_small // divnMDl ?(leq_ltn_trans _ Hm) // divn_small // addn0.
    by rewrite insubT /= /F -mulrA; congr (_ * (_ * _)); congr (mixing _ _ _ _ _ _ _ _); apply: val_inj.
  have -> : \sum_(f < n_freq c) \sum_m F f m = \sum_(f < n_dft c) \sum_m F f m by rewrite Hf.
  apply: eq_bigr => f _; have Hf' : (f < n_freq c)%N by rewrite Hf.
  rewrite (hat_in_span Hw Heig Hbasis Hsort H Hnb (fun k => @Hpos f k Hf') (fun k => @Hzero f k Hf')) mulr_suml.
  by [].
have [_ /(_ t a)] := C50_least_squares data Hown (fun x => ltW (Hw x)) Hsvd Hc.
have -> : misfit w Phi data t a = 0 by rewrite /misfit big1 // => x _; rewrite Ha subrr normr0 expr0n mulr0.
set A := coeffs _ _ _ _ _ _ => Hle.
have E x : fluctuation data t x = \sum_j Phi x j * A j t.
  have : misfit w Phi data t (fun j => A j t) == 0 by rewrite eq_le Hle /misfit sumr_ge0 // => y _; rewrite mulr_ge0 ?exprn_ge0 // ltW.
  rewrite /misfit psumr_eq0 => [/allP /(_ x (mem_index_enum x))|y _]; last by rewrite mulr_ge0 ?exprn_ge0 // ltW.
  by rewrite mulf_eq0 (gt_eqF (Hw x)) /= expf_eq0 /= normr_eq0 subr_eq0 => /eqP.
rewrite recE //; move: (E (own r i)); rewrite /fluctuation => /eqP; rewrite subr_eq => /eqP Ed.
transitivity (data t (own r i)); last by rewrite mxE.
by rewrite Ed -(coeffsE Hown) -/A mxE.
Qed.
Print Assumptions C132_record_comes_back.

(* expectation: every snapshot comes back.  Snapshots after the last block do not take part in the fit: an entry that vanishes in all blocks
   (and on average) is reconstructed as zero at all times, whatever it does after the last block and whatever the other entries do. *)
Theorem C132_snapshots_outside_the_blocks_refuted : forall (C : numClosedFieldType) (c : config C) eig argsort n (X : nat -> 'I_n -> C) (w : 'cV[C]_n) H
    size (nloc : 'I_size -> nat) (own : forall r, 'I_(nloc r) -> 'I_n) Phi svd tol r (i : 'I_(nloc r)),
  mean_type c = Longtime -> normalize_data c = false ->
  partition_of own -> gathered (c := c) (fun f x m => serial_modes (c := c) eig argsort X w ord0 f H x m) Phi ->
  \sum_(t < nt c) X t (own r i) = 0 -> (forall t, covered c t -> X t (own r i) = 0) ->
  forall t, rec_op own w Phi (\matrix_(t, i) X t i : 'M[C]_(nt c, n)) svd tol r i t = 0.
Proof.
move=> C c eig argsort n X w H size nloc own Phi svd tol r i Hmean Hnorm Hown Hg Hs Hc t.
rewrite recE //; set x := own r i in Hs Hc *.
have -> : time_mean (\matrix_(t, i) X t i : 'M[C]_(nt c, n)) x = 0.
  by rewrite /time_mean -[X in X / _ = _]/(\sum_t _) (eq_bigr (fun t : 'I_(nt c) => X t x)) ?Hs ?mul0r // => s _; rewrite mxE.
rewrite addr0 mxE big1 // => j _.
have Hm0 : (0 < n_modes_save c)%N by rewrite lt0n; apply/negP => /eqP E0; have := ltn_ord j; rewrite [X in (_ < X)%N -> _](_ : _ = 0%N) // E0 muln0.
have Hm : (j %% n_modes_save c < n_modes_save c)%N by rewrite ltn_mod.
rewrite (Hg x j (j %/ n_modes_save c)%N (Ordinal Hm)) /=; last by rewrite -divn_eq.
rewrite /serial_modes /run_modes /kept_modes mxE mxE big1 ?mul0r // => b _.
rewrite [X in X * _]mxE /block_hat /dft big1 ?mulr0 ?mul0r // => k _.
rewrite /block_windowed /block_normalized Hnorm /block_centred Hmean /t_mean Hmean Hs mul0r subr0 /local_X.
by rewrite Hc ?mul0r //; exists b, k.
Qed.
Print Assumptions C132_snapshots_outside_the_blocks_refuted.

(* expectation: with all modes of the default one-sided spectrum the record comes back.  Any set of p modes misses some snapshot as soon
   as the fluctuations span more than p dimensions; a one-sided fit has p = (n_dft/2+1) * n_blocks modes for n_dft * n_blocks samples. *)
Theorem C132_too_few_modes_refuted : forall (C : numClosedFieldType) size n nt p (nloc : 'I_size -> nat)
    (own : forall r, 'I_(nloc r) -> 'I_n) (w : 'cV[C]_n) (Phi : 'M[C]_(n, p)) (data : 'M[C]_(nt, n)) svd tol,
  partition_of own -> (p < \rank (\matrix_(t, x) fluctuation data t x : 'M[C]_(nt, n)))%N ->
  exists r (i : 'I_(nloc r)) t, rec_op own w Phi data svd tol r i t <> data t (own r i).
Proof.
move=> C size n nt p nloc own w Phi data svd tol Hown Hr.
case: (boolP [exists x, exists t, (Phi *m cf w Phi data svd tol) x t != fluctuation data t x]) => [/existsP [x /existsP [t Hx]]|Hn].
  case: (Hown) => g Hg1 Hg2; have Ex := Hg2 x; exists (tag (g x)), (tagged (g x)), t.
  rewrite recE // Ex => E; move/negP: Hx; apply; apply/eqP; by rewrite /fluctuation -E addrK.
have E : (\matrix_(t, x) fluctuation data t x : 'M[C]_(nt, n)) = (cf w Phi data svd tol)^T *m Phi^T.
  rewrite -trmx_mul; apply/matrixP => t x; rewrite mxE [RHS]mxE; apply/esym/eqP.
  by move: Hn; rewrite negb_exists => /forallP /(_ x); rewrite negb_exists => /forallP /(_ t); rewrite negbK.
move: Hr; rewrite E ltnNge; have := mulmx_max_rank (cf w Phi data svd tol)^T Phi^T; by move=> ->.
Qed.
Print Assumptions C132_too_few_modes_refuted.

(* ---- the hypotheses are satisfiable ---- *)
(* blocks that are linearly independent at a frequency have positive eigenvalues there *)
Lemma independent_blocks (C : numClosedFieldType) (c : config C) eig argsort n (X : nat -> 'I_n -> C) (w : 'cV[C]_n) f k :
  (forall x, 0 < w x 0) -> eig_ok eig -> (0 < n_blocks c)%N -> (forall u : 'cV_(n_blocks c), q_hat c X f *m u = 0 -> u = 0) ->
  0 < run_L (c := c) eig argsort (size := 1) (fun _ (i : 'I_n) => i) X w f 0 k.
Proof.
move=> Hw Heig Hnb Hu; have Hw0 x : 0 <= w x 0 by apply: ltW.
have He := run_eigenpairs argsort (@serial_partition n) X Hw0 Heig f.
rewrite lt_neqAle eq_sym (run_L_ge0 argsort (@serial_partition n) X Hw0 Heig f) andbT; apply/negP => /eqP Hz.
have Hc : col k (run_V (c := c) eig argsort (size := 1) (fun _ (i : 'I_n) => i) X w f) = 0.
  apply: Hu; apply/matrixP => i j; rewrite [j]ord1 [RHS]mxE -(null_column (X := X) Hw Heig i Hnb Hz) mxE [RHS]mxE.
  by apply: eq_bigr => a _; rewrite [col _ _ _ _]mxE.
have := proj2 He k; rewrite big1 => [/esym/eqP|a _]; first by rewrite oner_eq0.
by have := congr1 (fun M : 'cV_(n_blocks c) => M a 0) Hc; rewrite !mxE => ->; rewrite normr0 expr0n.
Qed.
Section System.
Variable C : numClosedFieldType.
Add Ring Cring2 : (cr_th C).
Ltac cring := cr_norm C; ring.
Lemma three_a (p q x y z : C) : y = 0 -> z = 0 -> 3%:R * x = p * y + q * z -> x = 0.
Proof. by move=> -> ->; rewrite !mulr0 addr0 => /eqP; rewrite mulf_eq0 pnatr_eq0 => /eqP. Qed.
Lemma small_system (a b : C) (f : nat) : (f < 2)%N ->
  (1 * 1 + 1 * 2%:R * (-1) ^+ f) * a + (-1 * 1 + -1 * 2%:R * (-1) ^+ f) * b = 0 ->
  (1 * 1 + 0 * 2%:R * (-1) ^+ f) * a + (0 * 1 + -1 * 2%:R * (-1) ^+ f) * b = 0 -> a = 0 /\ b = 0.
Proof.
case: f => [|[|f]] // _; rewrite ?expr0 ?expr1 => H0 H1; split.
- by apply: (three_a (p := 2%:R) (q := - 3%:R) H0 H1); rewrite !mulrS !mulr0n; cring.
- by apply: (three_a (p := 1) (q := - 3%:R) H0 H1); rewrite !mulrS !mulr0n; cring.
- by apply: (three_a (p := - 2%:R) (q := 1) H0 H1); rewrite !mulrS !mulr0n; cring.
- by apply: (three_a (p := 1) (q := 1) H0 H1); rewrite !mulrS !mulr0n; cring.
Qed.
End System.
(* two blocks of two samples, two points, window (1, 2) *)
Definition ex_c (C : numClosedFieldType) : config C := Config 4 2 0 2 2 2 Longtime false 0 (fun k => k.+1%:R) false (-1) 0 (fun _ x => x).
Definition ex_X (C : numClosedFieldType) (t : nat) (i : 'I_2) : C :=
  nth 0 (nth [::] [:: [:: 1; 1]; [:: 1; 0]; [:: -1; 0]; [:: -1; -1]] t) i.
Example C132_nonvacuous : forall (C : numClosedFieldType), exists eig argsort Phi svd,
  let c := ex_c C in let X := @ex_X C in let w : 'cV[C]_2 := const_mx 1 in
  [/\ eig_ok eig, eig_basis eig, argsort_ok argsort, svd3_ok svd & (2.-primitive_root (omega c))] /\
  [/\ forall f (k : 'I_2), (f < 2)%N -> 0 < run_L (c := c) eig argsort (size := 1) (fun _ (i : 'I_2) => i) X w f 0 k,
     gathered (fun f x m => serial_modes (c := c) eig argsort X w ord0 f (leqnn 2) x m) Phi,
     well_conditioned 0 (svd (mode_gram w Phi)).1.2 & forall t, (t < 4)%N -> covered c t].
Proof.
move=> C; have [eig [He Hb]] := eig_exists C 2; have [argsort Ha] := argsort_exists C 2; have [svd Hs] := svd3_routine_exists C 4.
pose c := ex_c C; pose w : 'cV[C]_2 := const_mx 1.
have Hm (j : 'I_4) : (j %% 2 < 2)%N by rewrite ltn_mod.
exists eig, argsort, (\matrix_(x, j) serial_modes (c := c) eig argsort (@ex_X C) w ord0 (j %/ 2)%N (leqnn 2) x (Ordinal (Hm j))), svd => c' X w'.
split.
  split=> //; rewrite /= /primitive_root_of_unity /=.
  apply/forallP => i; case: i => [[|[|i]] Hi] //; rewrite unity_rootE /=.
    by have -> : (-1 ^+ 1 == 1 :> C) = false by rewrite expr1 eq_sym -subr_eq0 opprK -(natrD _ 1 1) pnatr_eq0.
  by rewrite -signr_odd /= expr0 eqxx.
have Hw1 x : 0 < w x 0 by rewrite mxE ltr01.
split.
- move=> f k Hf; apply: independent_blocks => // u Hu.
  have Hww : win_weight c / (n_dft c)%:R != 0.
    have Hs2 : \sum_(k < 2) window c k != 0 by rewrite big_ord_recl big_ord1 /= -natrD pnatr_eq0.
    by apply: mulf_neq0; [rewrite /win_weight invr_eq0; apply: mulf_neq0|]; rewrite // invr_eq0 pnatr_eq0.
  have Hmu i : t_mean c (fun t => X t i) = 0.
    rewrite /t_mean /= !big_ord_recl big_ord0 /X /ex_X /=; case: i => [[|[|i]] Hi] //=.
      by rewrite addr0 addrA -opprD subrr mul0r.
    by rewrite !add0r addr0 subrr mul0r.
  have E i : ((X 0%N i * 1 + X 1%N i * 2%:R * (-1) ^+ f) * u ord0 0 + (X 2%N i * 1 + X 3%N i * 2%:R * (-1) ^+ f) * u (lift ord0 0) 0) = 0.
    have := congr1 (fun M : 'cV_2 => M i 0) Hu; rewrite [RHS]mxE mxE big_ord_recl big_ord1 !mxE /block_hat /dft.
    rewrite !big_ord_recl !big_ord0 !addr0 /block_windowed /block_normalized /block_centred [normalize_data c]/= [mean_type c]/= Hmu !subr0.
    rewrite [n_dft c]/= [omega c]/=.
    have -> : (-1 : C) ^+ (f * @ord0 1) = 1 by rewrite muln0.
    have -> : (-1 : C) ^+ (f * @lift 2 ord0 ord0) = (-1) ^+ f by rewrite muln1.
    by move=> Hh; apply: (mulfI Hww); rewrite mulr0 mulrDr [Y in Y + _]mulrA [Y in _ + Y]mulrA; move: Hh; rewrite 2!(mulr1 (_ * window _ _)); exact.
  have X0 t (Ht : (t < 4)%N) : X t ord0 = nth 0 [:: 1; 1; -1; -1] t by case: t Ht => [|[|[|[|t]]]].
  have X1 t (Ht : (t < 4)%N) : X t (lift ord0 ord0) = nth 0 [:: 1; 0; 0; -1] t by case: t Ht => [|[|[|[|t]]]].
  have E0 := E ord0; have E1 := E (lift ord0 ord0); rewrite !X0 // in E0; rewrite !X1 // in E1.
  have [Ea Eb] := small_system Hf E0 E1.
  apply/matrixP => i j; rewrite [j]ord1 [RHS]mxE; case: i => [[|[|i]] Hi] //.
    by rewrite -Ea; congr (u _ _); apply: val_inj.
  by rewrite -Eb; congr (u _ _); apply: val_inj.
- move=> x j f m Ej; rewrite mxE.
  have E1 : (j %/ 2)%N = f by rewrite Ej divnMDl // divn_small ?addn0.
  have E2 : (j %% 2)%N = m by rewrite Ej modnMDl modn_small.
  by rewrite E1; congr (serial_modes _ _ _ _ _ _ _ _ _); apply: val_inj.
- move=> i m [_ Hl]; rewrite mul0r; 
  have [_ _ Hp _ _] := Hs (mode_gram w (\matrix_(x, j) serial_modes (c := c) eig argsort (@ex_X C) w ord0 (j %/ 2)%N (leqnn 2) x (Ordinal (Hm j)))).
  by move: (Hp i); rewrite le_eqVlt => /orP [/eqP E0|E0]; [left; rewrite -E0|right].
- move=> t Ht; exists (t %/ 2)%N, (t %% 2)%N; split; first by rewrite ltn_divLR.
  split; first by rewrite ltn_mod.
  by case: t Ht => [|[|[|[|t]]]].
Qed.
