(* C134, C135: what SPOD reports for fields built from known components. *)
From mathcomp Require Import all_ssreflect all_algebra.
From Verif Require Import Base_CRing Model_Spod Spec_Spod Spec_Stream Proof_Spod Proof_Spectral Proof_StreamAlg Proof_Svd Proof_Dft Proof_Spod2 Proof_Optimal Proof_Optimal2 Prop_Spod Prop_Spectrum.
Set Implicit Arguments.
Unset Strict Implicit.
Unset Printing Implicit Defensive.
Import GRing.Theory Num.Theory Order.TTheory.
Local Open Scope ring_scope.

(* ---- specification ---- *)
Section Spec.
Variable C : numClosedFieldType.
(* a record made of P spatial shapes g with amplitudes a over time *)
Definition made_of P n (c : config C) (X : nat -> 'I_n -> C) (a : 'I_P -> nat -> C) (g : 'M[C]_(n, P)) : Prop :=
  forall t i, X t i = \sum_p a p t * g i p.
Definition orthonormal_shapes P n (w : 'cV[C]_n) (g : 'M[C]_(n, P)) : Prop := forall p q, wip w g g p q = (p == q)%:R.
(* spectral energy of one amplitude at frequency f: mean over the blocks of |transform|^2 *)
Definition energy (c : config C) (a : nat -> C) (f : nat) : C := (n_blocks c)%:R^-1 * \sum_(b < n_blocks c) `|block_hat c a b f| ^+ 2.
(* the block transforms of two amplitudes are uncorrelated *)
Definition uncorrelated (c : config C) (a a' : nat -> C) (f : nat) : Prop :=
  \sum_(b < n_blocks c) block_hat c a b f * (block_hat c a' b f)^* = 0.
End Spec.

Section Matrices.
Variable C : numClosedFieldType.
Add Ring Cring : (cr_th C).
Ltac cring := cr_norm C; ring.
Variables (n nb P : nat) (Q : 'M[C]_(n, nb)) (w : 'cV[C]_n) (G : 'M[C]_(n, P)) (A : 'M[C]_(P, nb)).
Hypothesis Hnb : (0 < nb)%N.
Hypothesis HQ : forall i b, Q i b = \sum_p G i p * A p b.
Hypothesis HG : forall p q, wip w G G p q = (p == q)%:R.
Definition en p : C := nb%:R^-1 * \sum_b `|A p b| ^+ 2.
Hypothesis HA : forall p q, p != q -> \sum_b A p b * (A q b)^* = 0.

Lemma csd_comp x y : nb%:R^-1 * (\sum_b Q x b * (Q y b)^* ) = \sum_p en p * G x p * (G y p)^*.
Proof.
have -> : \sum_b Q x b * (Q y b)^* = \sum_p (\sum_b `|A p b| ^+ 2) * (G x p * (G y p)^* ).
  transitivity (\sum_b \sum_p \sum_q (A p b * (A q b)^* ) * (G x p * (G y q)^* )).
    apply: eq_bigr => b _; rewrite !HQ rmorph_sum mulr_suml; apply: eq_bigr => p _; rewrite mulr_sumr; apply: eq_bigr => q _.
    by rewrite rmorphM; cring.
  rewrite exchange_big; apply: eq_bigr => p _; rewrite exchange_big (bigD1 p) //= [X in _ + X]big1 ?addr0 => [|q Hq].
    by rewrite -mulr_suml; congr (_ * _); apply: eq_bigr => b _; rewrite -normCK.
  by rewrite -mulr_suml HA ?mul0r // eq_sym.
by rewrite mulr_sumr; apply: eq_bigr => p _; rewrite /en !mulrA.
Qed.
Variables (L : 'rV[C]_nb) (V : 'M[C]_nb).
Hypothesis Hw : forall i, 0 <= w i 0.
Hypothesis He : eigenpairs (gram Q w) L V.
Variable k : 'I_nb.
Hypothesis Hk : 0 < L 0 k.
Notation phi := (all_modes Q L V).
Definition proj p : C := wip w G phi p k.
Lemma phi_comp x : L 0 k * phi x k = \sum_p en p * G x p * proj p.
Proof.
rewrite -(modes_csd k Hnb He x); under eq_bigr do rewrite csd_comp; rewrite /proj /wip.
transitivity (\sum_y \sum_p en p * G x p * ((G y p)^* * phi y k * w y 0)).
  by apply: eq_bigr => y _; rewrite !mulr_suml; apply: eq_bigr => p _; move: (phi y k) => z; cring.
by rewrite exchange_big; apply: eq_bigr => p _; rewrite -mulr_sumr.
Qed.
Lemma proj_eig q : L 0 k * proj q = en q * proj q.
Proof.
rewrite /proj [in LHS]/wip mulr_sumr.
transitivity (\sum_i \sum_p (G i q)^* * G i p * w i 0 * (en p * proj p)).
  apply: eq_bigr => i _; transitivity ((G i q)^* * (L 0 k * phi i k) * w i 0); first by move: (phi i k) => z; cring.
  by rewrite phi_comp mulr_sumr mulr_suml; apply: eq_bigr => p _; cring.
rewrite exchange_big (bigD1 q) //= [X in _ + X]big1 ?addr0 => [|p Hp]; rewrite -mulr_suml; have := HG q; rewrite /wip => HGq.
  by rewrite HGq eqxx mul1r.
by rewrite HGq eq_sym (negbTE Hp) mul0r.
Qed.
Lemma phi_unit : wip w phi phi k k = 1.
Proof. by rewrite (modes_orth Hnb Hw He Hk Hk (or_introl (erefl k))) eqxx. Qed.
Lemma some_component : exists p, proj p != 0.
Proof.
case: (boolP [exists p, proj p != 0]) => [/existsP //|/existsPn Hn].
have Hz x : phi x k = 0.
  have := phi_comp x; rewrite big1 => [/eqP|p _]; first by rewrite mulf_eq0 (gt_eqF Hk) => /eqP.
  by have := Hn p; rewrite negbK => /eqP ->; rewrite mulr0.
have := phi_unit; rewrite /wip big1 => [/eqP|i _]; first by rewrite eq_sym oner_eq0.
by rewrite Hz mulr0 mul0r.
Qed.
Lemma eig_is_energy : exists p, L 0 k = en p /\ proj p != 0.
Proof.
by have [p Hp] := some_component; exists p; split=> //; apply: (mulIf Hp); rewrite proj_eig.
Qed.
Lemma mode_is_shape p : L 0 k = en p -> (forall q, q != p -> en q != en p) ->
  exists u, `|u| = 1 /\ forall x, phi x k = u * G x p.
Proof.
move=> Hp Hd; have H0 q : q != p -> proj q = 0.
  move=> Hq; have := proj_eig q; rewrite Hp => /eqP; rewrite -subr_eq0 -mulrBl mulf_eq0 subr_eq0 eq_sym (negbTE (Hd q Hq)) /=.
  by move=> /eqP.
have Ex x : phi x k = proj p * G x p.
  apply: (mulfI (lt0r_neq0 Hk)); rewrite phi_comp (bigD1 p) //= big1 ?addr0 => [|q Hq]; last by rewrite H0 // mulr0.
  by rewrite Hp; cring.
exists (proj p); split=> //.
have := phi_unit; rewrite /wip (eq_bigr (fun i => `|proj p| ^+ 2 * ((G i p)^* * G i p * w i 0))) => [|i _]; last first.
  by rewrite Ex rmorphM normCK; cring.
rewrite -mulr_sumr -/(wip w G G p p) HG eqxx mulr1 => E.
by apply/eqP; rewrite -(@eqr_expn2 _ 2) // ?E ?expr1n.
Qed.
End Matrices.

Section Converse.
Variable C : numClosedFieldType.
Add Ring Cring2 : (cr_th C).
Ltac cring := cr_norm C; ring.
(* an eigenvalue of a diagonalised matrix is one of the diagonal *)
Lemma eigenvalue_listed n (M V : 'M[C]_n) L (v : 'cV[C]_n) lam : V \in unitmx -> M *m V = V *m diag_mx L -> v != 0 -> M *m v = lam *: v ->
  exists k, L 0 k = lam.
Proof.
move=> HV EV Hv Ev; pose y := invmx V *m v.
have Hy : diag_mx L *m y = lam *: y.
  by rewrite /y -[LHS]mul1mx -(mulVmx HV) -mulmxA (mulmxA V) -EV !mulmxA mulmxK // -mulmxA Ev scalemxAr.
case: (boolP [exists k, L 0 k == lam]) => [/existsP [k /eqP]|/existsPn Hn]; first by exists k.
case/negP: Hv; apply/eqP; have -> : v = V *m y by rewrite /y mulKVmx.
suff -> : y = 0 by rewrite mulmx0.
apply/matrixP => i j; rewrite [j]ord1 [RHS]mxE; have := congr1 (fun A : 'cV_n => A i 0) Hy.
rewrite mul_diag_mx mxE [RHS]mxE => /eqP; rewrite -subr_eq0 -mulrBl mulf_eq0 subr_eq0 (negbTE (Hn i)) => /eqP //.
Qed.
Variables (n nb P : nat) (Q : 'M[C]_(n, nb)) (w : 'cV[C]_n) (G : 'M[C]_(n, P)) (A : 'M[C]_(P, nb)).
Hypothesis Hnb : (0 < nb)%N.
Hypothesis HQ : forall i b, Q i b = \sum_p G i p * A p b.
Hypothesis HG : forall p q, wip w G G p q = (p == q)%:R.
Hypothesis HA : forall p q, p != q -> \sum_b A p b * (A q b)^* = 0.
Lemma gram_comp b b' : gram Q w b b' = nb%:R^-1 * \sum_p (A p b)^* * A p b'.
Proof.
rewrite gramE; congr (_ * _).
transitivity (\sum_i \sum_p \sum_q ((A p b)^* * A q b') * ((G i p)^* * G i q * w i 0)).
  apply: eq_bigr => i _; rewrite !HQ rmorph_sum mulr_suml !mulr_suml; apply: eq_bigr => p _; rewrite mulr_sumr ?mulr_suml ?mulr_sumr.
  by apply: eq_bigr => q _; rewrite rmorphM; cring.
rewrite exchange_big; apply: eq_bigr => p _; rewrite exchange_big (bigD1 p) //= [X in _ + X]big1 ?addr0 => [|q Hq].
  by rewrite -mulr_sumr -/(wip w G G p p) HG eqxx mulr1.
by rewrite -mulr_sumr -/(wip w G G p q) HG eq_sym (negbTE Hq) mulr0.
Qed.
Lemma component_eigenvector p : 0 < en A p -> exists v : 'cV[C]_nb, v != 0 /\ gram Q w *m v = en A p *: v.
Proof.
move=> Hp; exists (\col_b (A p b)^* ); split.
  apply: contraTneq Hp => E; rewrite /en big1 ?mulr0 ?ltxx // => b _.
  by have := congr1 (fun M : 'cV_nb => M b 0) E; rewrite !mxE => /eqP; rewrite conjC_eq0 => /eqP ->; rewrite normr0 expr0n.
apply/matrixP => b j; rewrite [j]ord1 mxE [RHS]mxE [X in _ * X]mxE.
transitivity (\sum_q (A q b)^* * (nb%:R^-1 * \sum_b' A q b' * (A p b')^* )).
  transitivity (\sum_b' \sum_q (A q b)^* * (nb%:R^-1 * (A q b' * (A p b')^* ))).
    apply: eq_bigr => b' _; rewrite gram_comp [X in _ * X]mxE mulr_sumr mulr_suml; apply: eq_bigr => q _; cring.
  rewrite exchange_big; apply: eq_bigr => q _; by rewrite mulr_sumr mulr_sumr.
rewrite (bigD1 p) //= [X in _ + X]big1 ?addr0 => [|q Hq]; last by rewrite HA // !mulr0.
rewrite mulrC; congr (_ * _); rewrite /en; congr (_ * _); by apply: eq_bigr => b' _; rewrite -normCK.
Qed.
Lemma trace_comp : \tr (gram Q w) = \sum_p en A p.
Proof.
rewrite /mxtrace; under eq_bigr do rewrite gram_comp; rewrite -mulr_sumr exchange_big mulr_sumr; apply: eq_bigr => p _.
by rewrite /en; congr (_ * _); apply: eq_bigr => b _; rewrite mulrC -normCK.
Qed.
Lemma trace_listed (M V : 'M[C]_nb) L : V \in unitmx -> M *m V = V *m diag_mx L -> \tr M = \sum_k L 0 k.
Proof.
move=> HV EV; have -> : M = V *m diag_mx L *m invmx V by rewrite -EV -mulmxA mulmxV // mulmx1.
by rewrite mxtrace_mulC mulKmx // mxtrace_diag.
Qed.
End Converse.

Section Linear.
Variable C : numClosedFieldType.
Add Ring Cring3 : (cr_th C).
Ltac cring := cr_norm C; ring.
Variable c : config C.
Hypothesis Hnorm : normalize_data c = false.
Variables (P : nat) (a : 'I_P -> nat -> C) (g : 'I_P -> C) (x : nat -> C).
Hypothesis Hx : forall t, x t = \sum_p a p t * g p.
Lemma mean_lin : t_mean c x = \sum_p t_mean c (a p) * g p.
Proof.
rewrite /t_mean; case: (mean_type c); first last.
- by rewrite big1 // => p _; rewrite mul0r.
- by rewrite big1 // => p _; rewrite mul0r.
- rewrite (eq_bigr (fun t : 'I_(nt c) => \sum_p a p t * g p)) => [|t _]; last exact: Hx.
  rewrite exchange_big mulr_suml; apply: eq_bigr => p _.
  by rewrite -mulr_suml mulrAC.
Qed.
Lemma centred_lin b k : block_centred c x b k = \sum_p block_centred c (a p) b k * g p.
Proof.
rewrite /block_centred.
have E j : x (block_offset c b + j)%N - t_mean c x = \sum_p (a p (block_offset c b + j)%N - t_mean c (a p)) * g p.
  by rewrite mean_lin Hx -sumrB; apply: eq_bigr => p _; rewrite mulrBl.
case: (mean_type c) => //; rewrite E.
rewrite (eq_bigr (fun j : 'I_(n_dft c) => \sum_p (a p (block_offset c b + j)%N - t_mean c (a p)) * g p)) => [|j _]; last exact: E.
rewrite exchange_big mulr_suml -sumrB; apply: eq_bigr => p _.
by rewrite -mulr_suml mulrAC -mulrBl.
Qed.
Lemma hat_lin b f : block_hat c x b f = \sum_p g p * block_hat c (a p) b f.
Proof.
rewrite /block_hat /dft mulr_sumr.
transitivity (\sum_(k < n_dft c) \sum_p g p * (win_weight c / (n_dft c)%:R * (block_windowed c (a p) b k * omega c ^+ (f * k)))).
  apply: eq_bigr => k _; rewrite /block_windowed /block_normalized Hnorm centred_lin !mulr_suml mulr_sumr; apply: eq_bigr => p _.
  by move: (win_weight c / _) (window c k) (block_centred _ _ _ _) (_ ^+ _) => u v z y; cring.
by rewrite exchange_big; apply: eq_bigr => p _; rewrite mulr_sumr mulr_sumr.
Qed.
End Linear.

(* ---- C134 ---- *)
(* A record that is a sum of weighted-orthonormal shapes with amplitudes whose block transforms are uncorrelated at frequency f:
   every non-zero eigenvalue is the spectral energy of a component, every non-zero energy is an eigenvalue, they have the same sum, and
   when the energies differ the mode of an eigenvalue is the shape of that component up to a phase; on any number of processes. *)
Theorem C134_modes_are_the_components : forall (C : numClosedFieldType) (size : nat) (c : config C) eig argsort n
    (nloc : 'I_size -> nat) (own : forall r, 'I_(nloc r) -> 'I_n) X (w : 'cV[C]_n) P (a : 'I_P -> nat -> C) (g : 'M[C]_(n, P)) f,
  partition_of own -> (0 < n_blocks c)%N -> (forall i, 0 <= w i 0) -> eig_ok eig -> eig_basis eig -> argsort_ok argsort ->
  normalize_data c = false -> made_of c X a g -> orthonormal_shapes w g -> (forall p q, p != q -> uncorrelated c (a p) (a q) f) ->
  let lam k := run_L (c := c) eig argsort own X w f 0 k in
  (forall k, 0 < lam k -> exists p, lam k = energy c (a p) f) /\
  (forall p, 0 < energy c (a p) f -> exists k, lam k = energy c (a p) f) /\
  (\sum_k lam k = \sum_p energy c (a p) f) /\
  (forall H (k : 'I_(n_modes_save c)) p, 0 < lam (widen_ord H k) -> lam (widen_ord H k) = energy c (a p) f ->
     (forall q, q != p -> energy c (a q) f != energy c (a p) f) ->
     exists u, `|u| = 1 /\ forall r (i : 'I_(nloc r)), run_modes eig argsort own X w r f H i k = u * g (own r i) p).
Proof.
move=> C size c eig argsort n nloc own X w P a g f Hown Hnb Hw Heig Hinv Hsort Hnorm HX Hg Ha lam.
pose A : 'M[C]_(P, n_blocks c) := \matrix_(p, b) block_hat c (a p) b f.
have HQ i b : q_hat c X f i b = \sum_p g i p * A p b.
  rewrite mxE (hat_lin Hnorm (a := a) (g := fun p => g i p)) => [|t]; last exact: HX.
  by apply: eq_bigr => p _; rewrite mxE.
have HA p q : p != q -> \sum_b A p b * (A q b)^* = 0.
  by move=> Hpq; rewrite -[RHS](Ha p q Hpq); apply: eq_bigr => b _; rewrite !mxE.
have En p : en A p = energy c (a p) f by rewrite /en /energy; congr (_ * _); apply: eq_bigr => b _; rewrite mxE.
have He := run_eigenpairs argsort Hown X Hw Heig f; rewrite (serial_gram c X w f) in He.
have HV := run_V_unit Hown X Hw Heig Hinv Hsort f; have EV := run_diag argsort Hown X Hw Heig f.
split=> [k Hk|]; first by have [p [Ep _]] := eig_is_energy Hnb HQ Hg HA Hw He Hk; exists p; rewrite -En.
split=> [p|]; first by rewrite -En => Hp; have [v [Hv Ev]] := component_eigenvector HQ Hg HA Hp; exact: (eigenvalue_listed HV EV Hv Ev).
split; first by rewrite -(trace_listed HV EV) (trace_comp HQ Hg); apply: eq_bigr => p _.
move=> H k p Hk Ek Hd.
have Hd' q : q != p -> en A q != en A p by rewrite !En; exact: Hd.
have [|u [Hu Hphi]] := mode_is_shape Hnb HQ Hg HA Hw He Hk (p := p) _ Hd'; first by rewrite En.
exists u; split=> // r i; rewrite (modes_serial eig argsort Hown) -Hphi /serial_modes /run_modes /kept_modes mxE.
by rewrite (run_L_serial eig argsort Hown) (run_V_serial eig argsort Hown) /local_X.
Qed.
Print Assumptions C134_modes_are_the_components.

Section Separable.
Variable C : numClosedFieldType.
Add Ring Cring4 : (cr_th C).
Ltac cring := cr_norm C; ring.
Lemma shape_unit n (w : 'cV[C]_n) (g : 'I_n -> C) : 0 < \sum_i `|g i| ^+ 2 * w i 0 ->
  orthonormal_shapes w (\matrix_(i, p) (g i / sqrtC (\sum_i `|g i| ^+ 2 * w i 0)) : 'M[C]_(n, 1)).
Proof.
move=> Hs; set s := \sum_i _ in Hs *; have Hq : 0 < sqrtC s by rewrite sqrtC_gt0.
move=> p q; rewrite [p]ord1 [q]ord1 eqxx /wip.
transitivity (s * (sqrtC s)^-1 ^+ 2); last by rewrite exprVn sqrtCK mulfV // lt0r_neq0.
rewrite /s mulr_suml -/s; apply: eq_bigr => i _; rewrite !mxE rmorphM fmorphV /=.
have -> : (sqrtC s)^* = sqrtC s by apply: conj_Creal; rewrite ger0_real // ltW.
by rewrite normCK expr2; cring.
Qed.
Lemma energy_scaled (c : config C) (a : nat -> C) (s : C) f : normalize_data c = false ->
  energy c (fun t => s * a t) f = `|s| ^+ 2 * energy c a f.
Proof.
move=> Hn; rewrite /energy mulrCA; congr (_ * _); rewrite mulr_sumr; apply: eq_bigr => b _.
rewrite (hat_lin Hn (P := 1) (a := fun _ => a) (g := fun _ => s)) => [|t]; last by rewrite big_ord1 mulrC.
by rewrite big_ord1 normrM exprMn.
Qed.
(* a single non-zero entry of a non-increasing, non-negative row that equals its sum is the first *)
Lemma single_first nb (L : 'rV[C]_nb) (k : 'I_nb) : desc L -> (forall j, 0 <= L 0 j) -> 0 < L 0 k -> \sum_j L 0 j = L 0 k ->
  forall j : 'I_nb, L 0 j = if j == 0%N :> nat then L 0 k else 0.
Proof.
move=> Hd H0 Hk; rewrite (bigD1 k) //= => /(canRL (addKr _)); rewrite addNr => /eqP; rewrite psumr_eq0 // => /allP Hz.
have Hz' j : j != k -> L 0 j = 0 by move=> Hj; have := Hz j (mem_index_enum j); rewrite Hj => /eqP.
have Hk0 : k = 0%N :> nat.
  apply/eqP; apply: contraTT Hk => Hn; have Hnb : (0 < nb)%N by apply: leq_ltn_trans (ltn_ord k).
  have E : L 0 (Ordinal Hnb) = 0 by apply: Hz'; apply: contra Hn => /eqP <-.
  by have := Hd (Ordinal Hnb) k (leq0n _); rewrite E => Hle; rewrite -real_leNgt ?ger0_real.
move=> j; case: (eqVneq (j : nat) 0%N) => Hj; first by congr (L 0 _); apply: val_inj; rewrite /= Hj -Hk0.
by apply: Hz'; apply: contra Hj => /eqP ->; rewrite Hk0.
Qed.
End Separable.
(* one shape times one amplitude: a single eigenvalue, the first, and the mode is the shape divided by its norm, up to a phase *)
Theorem C134_separable_field : forall (C : numClosedFieldType) (size : nat) (c : config C) eig argsort n
    (nloc : 'I_size -> nat) (own : forall r, 'I_(nloc r) -> 'I_n) X (w : 'cV[C]_n) (a : nat -> C) (g : 'I_n -> C) f,
  partition_of own -> (0 < n_blocks c)%N -> (forall i, 0 <= w i 0) -> eig_ok eig -> eig_basis eig -> argsort_ok argsort ->
  normalize_data c = false -> (forall t i, X t i = a t * g i) ->
  let lam k := run_L (c := c) eig argsort own X w f 0 k in
  let size2 := \sum_i `|g i| ^+ 2 * w i 0 in
  0 < size2 ->
  (forall k : 'I_(n_blocks c), lam k = if k == 0%N :> nat then size2 * energy c a f else 0) /\
  (0 < energy c a f -> forall H (k : 'I_(n_modes_save c)), k = 0%N :> nat -> exists u, `|u| = 1 /\
     forall r (i : 'I_(nloc r)), run_modes eig argsort own X w r f H i k = u * (g (own r i) / sqrtC size2)).
Proof.
move=> C size c eig argsort n nloc own X w a g f Hown Hnb Hw Heig Hinv Hsort Hnorm HX lam size2 Hs.
have Hq : 0 < sqrtC size2 by rewrite sqrtC_gt0.
pose a' (p : 'I_1) t := sqrtC size2 * a t; pose g' : 'M[C]_(n, 1) := \matrix_(i, p) (g i / sqrtC size2).
have HX' : made_of c X a' g'.
  move=> t i; rewrite big_ord1 /a' [g' _ _]mxE HX mulrA [sqrtC _ * _]mulrC -!mulrA; congr (_ * _).
  by rewrite mulrCA mulfV ?mulr1 // lt0r_neq0.
have Ha' p q : p != q -> uncorrelated c (a' p) (a' q) f by rewrite [p]ord1 [q]ord1 eqxx.
have Ee p : energy c (a' p) f = size2 * energy c a f.
  by rewrite energy_scaled // ger0_norm ?sqrtCK // ltW.
have [_ [H2 [H3 H4]]] := C134_modes_are_the_components Hown Hnb Hw Heig Hinv Hsort Hnorm HX' (shape_unit Hs) Ha'.
have : 0 <= energy c a f by rewrite mulr_ge0 ?invr_ge0 ?ler0n // sumr_ge0 // => b _; rewrite exprn_ge0.
rewrite le_eqVlt => /orP[/eqP E0|Ha].
  rewrite -E0 mulr0 ltxx; split=> // k; rewrite if_same; move: H3; rewrite big_ord1 Ee -E0 mulr0 => /eqP.
  rewrite psumr_eq0 => [/allP /(_ k (mem_index_enum k)) /eqP //|j _]; exact: (run_L_ge0 argsort Hown X Hw Heig f).
have Hpos : 0 < size2 * energy c a f by rewrite mulr_gt0.
have [|k Hk] := H2 ord0; first by rewrite Ee.
rewrite big_ord1 -Hk in H3; rewrite Ee in Hk.
have Hall := single_first (run_desc Hown X Hw Heig Hsort f) (run_L_ge0 argsort Hown X Hw Heig f) (etrans (congr1 (fun x => 0 < x) Hk) Hpos) H3.
rewrite Hk in Hall; split=> // _ H j Hj.
have El : lam (widen_ord H j) = size2 * energy c a f by rewrite /lam Hall /= Hj eqxx.
have Hd q : q != ord0 -> energy c (a' q) f != energy c (a' ord0) f by rewrite [q]ord1 eqxx.
have P1 : 0 < lam (widen_ord H j) by rewrite El.
have P2 : lam (widen_ord H j) = energy c (a' ord0) f by rewrite El Ee.
have [u [Hu Hm]] := H4 H j ord0 P1 P2 Hd.
by exists u; split=> // r i; rewrite Hm mxE.
Qed.
Print Assumptions C134_separable_field.

(* ---- C135: a tone on a frequency bin ---- *)
Section ToneSpec.
Variable C : numClosedFieldType.
(* exp(+2 i pi f0 t / n_dft): one period every n_dft/f0 snapshots *)
Definition tone (c : config C) (f0 t : nat) : C := (omega c)^* ^+ (f0 * t).
(* transform of the window at bin f, relative to its value at bin 0 *)
Definition leak (c : config C) (f : nat) : C := (\sum_(k < n_dft c) window c k * omega c ^+ (f * k)) / (\sum_(k < n_dft c) window c k).
(* |zeta| cos(2 pi f0 t / n_dft + arg zeta) *)
Definition real_tone (c : config C) (zeta : C) (f0 t : nat) : C := 'Re (zeta * tone c f0 t).
End ToneSpec.

Section Tone.
Variable C : numClosedFieldType.
Add Ring Cring5 : (cr_th C).
Ltac cring := cr_norm C; ring.
Variable c : config C.
Hypothesis Hom : (n_dft c).-primitive_root (omega c).
Hypothesis Hlong : mean_type c = Longtime -> (n_dft c %| nt c)%N.
Hypothesis Hnorm : normalize_data c = false.
Hypothesis Hwin : \sum_(k < n_dft c) window c k != 0.
Notation N := (n_dft c).
Notation om := (omega c).
Lemma om_inv : om * om^* = 1.
Proof. by rewrite (w_conj Hom) mulfV // (w_neq0 Hom). Qed.
Lemma tone_conj f0 t : (f0 <= N)%N -> (tone c f0 t)^* = tone c (N - f0) t.
Proof.
move=> Hf; rewrite /tone rmorphX conjCK; apply: (mulIf (x := om^* ^+ (f0 * t))).
  by rewrite expf_neq0 // conjC_eq0 (w_neq0 Hom).
rewrite -exprMn om_inv expr1n -exprD -mulnDl subnK // exprM.
by rewrite -rmorphX (prim_expr_order Hom) rmorph1 expr1n.
Qed.
Lemma tone_norm f0 t : `|tone c f0 t| = 1.
Proof. by rewrite normrX norm_conjC (w_norm Hom) expr1n. Qed.
Lemma tone_sum f0 m : (0 < f0 < N)%N -> (N %| m)%N -> \sum_(t < m) tone c f0 t = 0.
Proof.
move=> /andP[H0 H1] /dvdnP[q ->]; pose z := om^* ^+ f0.
have Hz1 : z != 1.
  apply/negP => /eqP /(congr1 (fun x => x^* )); rewrite /z rmorphX conjCK rmorph1 => /eqP.
  by rewrite -(prim_order_dvd Hom) gtnNdvd.
have HzN : z ^+ (q * N) = 1.
  by rewrite /z -exprM mulnCA mulnC exprM -rmorphX mulnC exprM (prim_expr_order Hom) expr1n rmorph1 expr1n.
have := subrX1 z (q * N); rewrite HzN subrr => /esym /eqP; rewrite mulf_eq0 subr_eq0 (negbTE Hz1) /= => /eqP E.
by rewrite -[RHS]E; apply: eq_bigr => t _; rewrite /tone /z exprM.
Qed.
Lemma tone_shift f0 s k : tone c f0 (s + k) = tone c f0 s * tone c f0 k.
Proof. by rewrite /tone mulnDr exprD. Qed.
Lemma tone_centred f0 b k : (0 < f0 < N)%N -> block_centred c (tone c f0) b k = tone c f0 (block_offset c b + k).
Proof.
move=> Hf; have Hm : t_mean c (tone c f0) = 0.
  by rewrite /t_mean; case: (mean_type c) Hlong => // Hd; rewrite tone_sum ?mul0r // Hd.
rewrite /block_centred Hm; case: (mean_type c); rewrite ?subr0 //.
rewrite (eq_bigr (fun j : 'I_N => tone c f0 (block_offset c b) * tone c f0 j)) => [|j _]; last by rewrite subr0 tone_shift.
by rewrite -mulr_sumr tone_sum // mulr0 mul0r subr0.
Qed.
Lemma tone_hat f0 b f : (0 < f0 < N)%N -> block_hat c (tone c f0) b f = tone c f0 (block_offset c b) * leak c (f + (N - f0)).
Proof.
move=> Hf; have HN : (N%:R : C) != 0 by rewrite pnatr_eq0 -lt0n (n_gt0 Hom).
have -> : block_hat c (tone c f0) b f = win_weight c / N%:R * (tone c f0 (block_offset c b) * \sum_(k < N) window c k * om ^+ ((f + (N - f0)) * k)).
  rewrite /block_hat /dft; congr (_ * _); rewrite mulr_sumr; apply: eq_bigr => k _.
  rewrite /block_windowed /block_normalized Hnorm tone_centred // tone_shift mulnDl exprD.
  have -> : om ^+ ((N - f0) * k) = tone c f0 k.
    have Hle : (f0 <= N)%N by case/andP: Hf => _ /ltnW.
    by rewrite -[LHS]conjCK rmorphX -/(tone c (N - f0) k) -tone_conj // conjCK.
  by move: (tone c f0 _) (tone c f0 _) (window _ _) (_ ^+ _) => u v z y; cring.
rewrite /leak /win_weight; move: (\sum_(k < N) window c k) Hwin => s Hs; move: (\sum_(k < N) _) (tone _ _ _) => u v.
by rewrite invf_div [_ / s / _]mulrAC divff // mul1r mulrCA [s^-1 * _]mulrC.
Qed.
Lemma leak_period f : leak c (f + N) = leak c f.
Proof.
rewrite /leak; congr (_ / _); apply: eq_bigr => k _; congr (_ * _).
by rewrite mulnDl exprD [om ^+ (N * k)]exprM (prim_expr_order Hom) expr1n mulr1.
Qed.
Lemma leak0 : leak c 0 = 1.
Proof. by rewrite /leak (eq_bigr (fun k : 'I_N => window c k)) ?divff // => k _; rewrite mul0n expr0 mulr1. Qed.
Lemma leak_le1 f : (forall k, (k < N)%N -> 0 <= window c k) -> `|leak c f| <= 1.
Proof.
move=> Hp; have Hs : 0 <= \sum_(k < N) window c k by apply: sumr_ge0 => k _; apply: Hp.
have Hs' : 0 < \sum_(k < N) window c k by rewrite lt_def Hwin.
rewrite /leak normrM normfV [`|\sum_(k < N) window c k|]ger0_norm // ler_pdivr_mulr // mul1r.
apply: le_trans (ler_norm_sum _ _ _) _; apply: ler_sum => k _.
by rewrite normrM normrX (w_norm Hom) expr1n mulr1 ger0_norm // Hp.
Qed.
Lemma tone_energy f0 f : (0 < n_blocks c)%N -> (0 < f0 < N)%N -> energy c (tone c f0) f = `|leak c (f + (N - f0))| ^+ 2.
Proof.
move=> Hnb Hf; rewrite /energy (eq_bigr (fun _ => `|leak c (f + (N - f0))| ^+ 2)) => [|b _]; last by rewrite tone_hat // normrM tone_norm mul1r.
by rewrite sumr_const card_ord -[X in _ * X]mulr_natl mulrA mulVf ?mul1r // pnatr_eq0 -lt0n.
Qed.
Lemma real_toneE zeta f0 t : (f0 <= N)%N -> real_tone c zeta f0 t = zeta / 2%:R * tone c f0 t + zeta^* / 2%:R * tone c (N - f0) t.
Proof.
move=> Hf; rewrite /real_tone ReE rmorphM tone_conj // .
by move: (tone _ _ _) (tone _ _ _) (2%:R^-1) => u v z; cring.
Qed.
Lemma real_tone_hat zeta f0 b : (0 < f0 < N)%N ->
  block_hat c (real_tone c zeta f0) b f0 = zeta / 2%:R * tone c f0 (block_offset c b) + (zeta / 2%:R * tone c f0 (block_offset c b))^* * leak c (f0.*2).
Proof.
move=> Hf; have /andP[H0 H1] := Hf; have Hf' : (0 < N - f0 < N)%N by rewrite subn_gt0 H1 ltn_subrL H0 (n_gt0 Hom).
rewrite (hat_lin Hnorm (P := 2) (a := fun p => if p == ord0 then tone c f0 else tone c (N - f0)) (g := fun p => if p == ord0 then zeta / 2%:R else zeta^* / 2%:R)) => [|t]; last first.
  by rewrite !big_ord_recl big_ord0 /= addr0 real_toneE ?(ltnW H1) // ![tone _ _ _ * _]mulrC.
rewrite !big_ord_recl big_ord0 /= addr0 !tone_hat //.
have -> : leak c (f0 + (N - f0)) = 1 by rewrite addnC subnK ?(ltnW H1) // -(add0n N) leak_period leak0.
rewrite subKn ?(ltnW H1) // addnn mulr1 mulrA; congr (_ + _ * _).
by rewrite !rmorphM tone_conj ?(ltnW H1) // fmorphV conjC_nat.
Qed.
End Tone.

Section ToneBound.
Variable C : numClosedFieldType.
Add Ring Cring6 : (cr_th C).
Ltac cring := cr_norm C; ring.
Lemma mean_bounds nb (e : 'I_nb -> C) lo hi : (0 < nb)%N -> (forall b, lo <= e b <= hi) -> lo <= nb%:R^-1 * (\sum_b e b) <= hi.
Proof.
move=> Hnb He; have Hp : 0 < (nb%:R : C) by rewrite ltr0n.
rewrite mulrC ler_pdivl_mulr // ler_pdivr_mulr //; apply/andP; split.
  rewrite -[X in _ * X%:R]card_ord -sumr_const mulr_sumr; apply: ler_sum => b _; rewrite mulr1; by case/andP: (He b).
rewrite -[X in _ * X%:R]card_ord -sumr_const mulr_sumr; apply: ler_sum => b _; rewrite mulr1; by case/andP: (He b).
Qed.
Lemma two_terms (z r : C) : `|r| <= 1 -> (`|z| * (1 - `|r|)) ^+ 2 <= `|z + z^* * r| ^+ 2 <= (`|z| * (1 + `|r|)) ^+ 2.
Proof.
move=> Hr; have Hn : `|z^* * r| = `|z| * `|r| by rewrite normrM norm_conjC.
have H1 : `|z + z^* * r| <= `|z| * (1 + `|r|) by rewrite mulrDr mulr1 -Hn ler_norm_add.
have H2 : `|z| * (1 - `|r|) <= `|z + z^* * r|.
  by rewrite mulrBr mulr1 -Hn; have := ler_sub_norm_add z (z^* * r).
have H3 : 0 <= `|z| * (1 - `|r|) by rewrite mulr_ge0 // subr_ge0.
rewrite !ler_sqr ?nnegrE ?H1 ?H2 // mulr_ge0 // addr_ge0 // ler01.
Qed.
Lemma half_square (s z y : C) : s * (z ^+ 2 / 2%:R) * y ^+ 2 = 2%:R * (s * (z / 2%:R * y) ^+ 2).
Proof.
have H2 : (2%:R : C) != 0 by rewrite pnatr_eq0.
rewrite !exprMn exprVn; transitivity (s * (z ^+ 2 * (2%:R * (2%:R ^- 2)) * y ^+ 2)).
  by rewrite expr2 invfM (mulrA 2%:R) divff // mul1r !mulrA.
by move: (z ^+ 2) (2%:R ^- 2) (y ^+ 2) => u v x; rewrite !mulrS !mulr0n; cring.
Qed.
End ToneBound.

(* A complex tone on bin f0, of amplitude and shape g: the reported eigenvalue at bin f is the squared size of the shape times the squared
   relative window response at f - f0 -- exactly the squared size at f0 -- and every further eigenvalue is zero. Any window, overlap,
   number of blocks and processes, any of the three means (whole number of periods in the record when the long-time mean is used). *)
Theorem C135_complex_tone : forall (C : numClosedFieldType) (size : nat) (c : config C) eig argsort n
    (nloc : 'I_size -> nat) (own : forall r, 'I_(nloc r) -> 'I_n) X (w : 'cV[C]_n) (g : 'I_n -> C) f0,
  partition_of own -> (0 < n_blocks c)%N -> (forall i, 0 <= w i 0) -> eig_ok eig -> eig_basis eig -> argsort_ok argsort ->
  normalize_data c = false -> isrealx c = false -> (n_dft c).-primitive_root (omega c) ->
  (mean_type c = Longtime -> (n_dft c %| nt c)%N) -> \sum_(k < n_dft c) window c k != 0 -> (0 < f0 < n_dft c)%N ->
  (forall t i, X t i = tone c f0 t * g i) ->
  let eigs f k := run_eigs (c := c) eig argsort own X w f 0 k in
  let size2 := \sum_i `|g i| ^+ 2 * w i 0 in
  0 < size2 ->
  (forall k : 'I_(n_blocks c), eigs f0 k = if k == 0%N :> nat then size2 else 0) /\
  (forall f (k : 'I_(n_blocks c)), eigs f k = if k == 0%N :> nat then size2 * `|leak c (f + (n_dft c - f0))| ^+ 2 else 0) /\
  (forall H (k : 'I_(n_modes_save c)), k = 0%N :> nat -> exists u, `|u| = 1 /\
     forall r (i : 'I_(nloc r)), run_modes eig argsort own X w r f0 H i k = u * (g (own r i) / sqrtC size2)).
Proof.
move=> C size c eig argsort n nloc own X w g f0 Hown Hnb Hw Heig Hinv Hsort Hnorm Hre Hom Hlong Hwin Hf0 HX eigs size2 Hs.
have Hall f k : eigs f k = if k == 0%N :> nat then size2 * `|leak c (f + (n_dft c - f0))| ^+ 2 else 0.
  have [H1 _] := C134_separable_field f Hown Hnb Hw Heig Hinv Hsort Hnorm HX Hs.
  rewrite /eigs /run_eigs /eigs_of mxE H1 /one_sided Hre /= mul1r tone_energy // -/size2.
  by case: eqP => _; rewrite ?normr0 // ger0_norm // mulr_ge0 ?exprn_ge0 // ltW.
have El : leak c (f0 + (n_dft c - f0)) = 1.
  have /andP[_ H1] := Hf0; by rewrite addnC subnK ?(ltnW H1) // -(add0n (n_dft c)) leak_period // leak0.
split=> [k|]; first by rewrite Hall El normr1 expr1n mulr1.
split=> // H k Hk; have [_ H2] := C134_separable_field f0 Hown Hnb Hw Heig Hinv Hsort Hnorm HX Hs.
by apply: H2 => //; rewrite tone_energy // El normr1 expr1n ltr01.
Qed.
Print Assumptions C135_complex_tone.
(* A real tone |zeta| cos(2 pi f0 t/n_dft + arg zeta): the reported (one-sided) eigenvalue at an interior bin is its mean square value
   |zeta|^2/2 times the squared size of the shape, up to the response of the window at 2 f0. *)
Theorem C135_real_tone : forall (C : numClosedFieldType) (size : nat) (c : config C) eig argsort n
    (nloc : 'I_size -> nat) (own : forall r, 'I_(nloc r) -> 'I_n) X (w : 'cV[C]_n) (g : 'I_n -> C) zeta f0,
  partition_of own -> (0 < n_blocks c)%N -> (forall i, 0 <= w i 0) -> eig_ok eig -> eig_basis eig -> argsort_ok argsort ->
  normalize_data c = false -> isrealx c = true -> (n_dft c).-primitive_root (omega c) ->
  (mean_type c = Longtime -> (n_dft c %| nt c)%N) -> \sum_(k < n_dft c) window c k != 0 ->
  (0 < f0 < n_dft c)%N -> (f0 < (n_freq c).-1)%N -> (forall k, (k < n_dft c)%N -> 0 <= window c k) ->
  (forall t i, X t i = real_tone c zeta f0 t * g i) ->
  let eigs k := run_eigs (c := c) eig argsort own X w f0 0 k in
  let size2 := \sum_i `|g i| ^+ 2 * w i 0 in let r := `|leak c f0.*2| in
  0 < size2 ->
  forall k : 'I_(n_blocks c),
    if k == 0%N :> nat then is_true (size2 * (`|zeta| ^+ 2 / 2%:R) * (1 - r) ^+ 2 <= eigs k <= size2 * (`|zeta| ^+ 2 / 2%:R) * (1 + r) ^+ 2)
    else eigs k = 0.
Proof.
move=> C size c eig argsort n nloc own X w g zeta f0 Hown Hnb Hw Heig Hinv Hsort Hnorm Hre Hom Hlong Hwin Hf0 Hf1 Hpos HX eigs size2 r Hs k; have Hr := leak_le1 Hom Hwin f0.*2 Hpos.
have [H1 _] := C134_separable_field f0 Hown Hnb Hw Heig Hinv Hsort Hnorm HX Hs.
have /andP[H0 _] := Hf0.
rewrite /eigs /run_eigs /eigs_of mxE H1 /one_sided Hre H0 Hf1 /= -/size2.
case: eqP => _; last by rewrite mulr0 normr0.
have Hb b : (`|zeta / 2%:R| * (1 - r)) ^+ 2 <= `|block_hat c (real_tone c zeta f0) b f0| ^+ 2 <= (`|zeta / 2%:R| * (1 + r)) ^+ 2.
  have := two_terms (zeta / 2%:R * tone c f0 (block_offset c b)) Hr.
  by rewrite real_tone_hat // [`|_ * tone _ _ _|]normrM tone_norm // mulr1.
have /andP[B1 B2] := mean_bounds Hnb (fun b => Hb (b : nat)); rewrite -/(energy c (real_tone c zeta f0) f0) in B1 B2.
set e := energy _ _ _ in B1 B2 *; have He : 0 <= e by apply: le_trans B1; rewrite exprn_ge0 // mulr_ge0 // subr_ge0.
have Hn : `|zeta / 2%:R| = `|zeta| / 2%:R by rewrite normrM normfV normr_nat.
have H2 : (2%:R : C) != 0 by rewrite pnatr_eq0.
have Hq y : size2 * (`|zeta| ^+ 2 / 2%:R) * y ^+ 2 = 2%:R * (size2 * (`|zeta / 2%:R| * y) ^+ 2).
  by rewrite Hn; exact: half_square.
rewrite ger0_norm; last by rewrite mulr_ge0 ?ler0n // mulr_ge0 // ltW.
by rewrite !Hq !ler_pmul2l ?ltr0n ?B1 ?B2.
Qed.
Print Assumptions C135_real_tone.

Section MeanSquare.
Variable C : numClosedFieldType.
Add Ring Cring7 : (cr_th C).
Ltac cring := cr_norm C; ring.
Variable c : config C.
Hypothesis Hom : (n_dft c).-primitive_root (omega c).
Notation N := (n_dft c).
Lemma real_tone_square zeta f0 : (0 < f0)%N -> (f0.*2 < N)%N ->
  (N%:R)^-1 * (\sum_(t < N) `|real_tone c zeta f0 t| ^+ 2) = `|zeta| ^+ 2 / 2%:R.
Proof.
move=> H0 H2; have Hle : (f0 <= N)%N by apply: leq_trans (ltnW H2); rewrite -addnn leq_addr.
have HN : (N%:R : C) != 0 by rewrite pnatr_eq0 -lt0n (n_gt0 Hom).
have E t : `|real_tone c zeta f0 t| ^+ 2 = `|zeta| ^+ 2 / 2%:R + ((zeta / 2%:R) ^+ 2 * tone c f0.*2 t + ((zeta / 2%:R) ^+ 2 * tone c f0.*2 t)^* ).
  have Er : real_tone c zeta f0 t = zeta / 2%:R * tone c f0 t + (zeta / 2%:R * tone c f0 t)^*.
    by rewrite real_toneE // !rmorphM tone_conj // fmorphV conjC_nat.
  have Hd : tone c f0.*2 t = tone c f0 t ^+ 2 by rewrite /tone -exprM muln2 -doubleMl.
  have Hz : `|zeta| ^+ 2 / 2%:R = 2%:R * ((zeta / 2%:R * tone c f0 t) * (zeta / 2%:R * tone c f0 t)^* ).
    rewrite -normCK !normrM (tone_norm Hom) normfV normr_nat mulr1.
    by have := half_square 1 `|zeta| 1; rewrite !mul1r !expr1n !mulr1 => ->.
  rewrite normCK Er rmorphD conjCK Hz Hd -exprMn rmorphX.
  by move: (zeta / 2%:R * tone c f0 t) => u; move: (u^* ) => v; rewrite !mulrS !mulr0n; cring.
rewrite (eq_bigr (fun t : 'I_N => `|zeta| ^+ 2 / 2%:R + ((zeta / 2%:R) ^+ 2 * tone c f0.*2 t + ((zeta / 2%:R) ^+ 2 * tone c f0.*2 t)^* ))) => [|t _]; last exact: E.
rewrite big_split big_split /= -rmorph_sum -mulr_sumr (tone_sum Hom) ?H2 ?double_gt0 ?H0 ?dvdnn // mulr0 rmorph0 !addr0.
by rewrite sumr_const card_ord -[X in _ * X]mulr_natl mulrA mulVf ?mul1r.
Qed.
End MeanSquare.

(* When the window does not respond at twice the frequency (a rectangular window never does), the reported leading eigenvalue is the weighted
   mean square of the field over one block -- except at the last reported frequency, where it is half of it: the property expected there
   (when the block length is odd the last frequency is an ordinary one) fails. *)
Theorem C135_reports_the_mean_square : forall (C : numClosedFieldType) (size : nat) (c : config C) eig argsort n
    (nloc : 'I_size -> nat) (own : forall r, 'I_(nloc r) -> 'I_n) X (w : 'cV[C]_n) (g : 'I_n -> C) zeta f0,
  partition_of own -> (0 < n_blocks c)%N -> (forall i, 0 <= w i 0) -> eig_ok eig -> eig_basis eig -> argsort_ok argsort ->
  normalize_data c = false -> isrealx c = true -> (n_dft c).-primitive_root (omega c) ->
  (mean_type c = Longtime -> (n_dft c %| nt c)%N) -> \sum_(k < n_dft c) window c k != 0 ->
  (0 < f0)%N -> (f0.*2 < n_dft c)%N -> leak c f0.*2 = 0 ->
  (forall t i, X t i = real_tone c zeta f0 t * g i) ->
  let eigs k := run_eigs (c := c) eig argsort own X w f0 0 k in
  let mean_square := (n_dft c)%:R^-1 * (\sum_(t < n_dft c) \sum_i `|X t i| ^+ 2 * w i 0) in
  0 < \sum_i `|g i| ^+ 2 * w i 0 ->
  forall k : 'I_(n_blocks c), k = 0%N :> nat ->
    ((f0 < (n_freq c).-1)%N -> eigs k = mean_square) /\ (f0 = (n_freq c).-1 -> eigs k = mean_square / 2%:R).
Proof.
move=> C size c eig argsort n nloc own X w g zeta f0 Hown Hnb Hw Heig Hinv Hsort Hnorm Hre Hom Hlong Hwin H0 H2 Hl HX eigs mean_square Hs k Hk.
have Hf0 : (0 < f0 < n_dft c)%N by rewrite H0 (leq_ltn_trans _ H2) // -addnn leq_addr.
have H2n : (2%:R : C) != 0 by rewrite pnatr_eq0.
set size2 := \sum_i _ in Hs.
have Ems : mean_square = size2 * (`|zeta| ^+ 2 / 2%:R).
  rewrite -(real_tone_square Hom zeta H0 H2) mulrCA /mean_square; congr (_ * _); rewrite mulr_sumr; apply: eq_bigr => t _.
  by rewrite /size2 mulr_suml; apply: eq_bigr => i _; rewrite HX normrM exprMn -mulrA mulrC.
have Een : energy c (real_tone c zeta f0) f0 = `|zeta| ^+ 2 / 2%:R / 2%:R.
  rewrite /energy (eq_bigr (fun _ => `|zeta| ^+ 2 / 2%:R / 2%:R)) => [|b _].
    by move: (`|zeta| ^+ 2 / 2%:R / 2%:R) => v; rewrite sumr_const card_ord -[X in _ * X]mulr_natl mulrA mulVf ?mul1r // pnatr_eq0 -lt0n.
  by rewrite real_tone_hat // Hl mulr0 addr0 normrM (tone_norm Hom) mulr1 normrM normfV normr_nat exprMn exprVn expr2 [2%:R ^+ 2]expr2 invfM mulrA.
have [H1 _] := C134_separable_field f0 Hown Hnb Hw Heig Hinv Hsort Hnorm HX Hs.
have Hpos : 0 <= mean_square by rewrite Ems mulr_ge0 ?(ltW Hs) // mulr_ge0 ?invr_ge0 ?ler0n // exprn_ge0.
have El : run_L (c := c) eig argsort own X w f0 0 k = mean_square / 2%:R by rewrite H1 Hk eqxx Een Ems !mulrA.
rewrite /eigs /run_eigs /eigs_of mxE El /one_sided Hre H0 /=; split=> [->|->].
  by rewrite mulrCA divff // mulr1 ger0_norm.
by rewrite ltnn mul1r ger0_norm // mulr_ge0 // invr_ge0 ler0n.
Qed.
Print Assumptions C135_reports_the_mean_square.

(* ---- the hypotheses are met ---- *)
(* two blocks of two samples, two points; the first point is active in the first block, the second, twice as strong, in the second *)
Definition comp_c (C : numClosedFieldType) : config C := Config 4 2 0 2 2 2 Zero false 0 (fun _ => 1) false (-1) 0 (fun _ x => x).
Definition comp_a (C : numClosedFieldType) (p : 'I_2) (t : nat) : C := if t == p.*2 then p.+1%:R else 0.
Example C134_nonvacuous : forall (C : numClosedFieldType), let c := comp_c C in
  [/\ forall p q, p != q -> uncorrelated c (comp_a C p) (comp_a C q) 1,
      orthonormal_shapes (const_mx 1 : 'cV[C]_2) (1%:M : 'M[C]_(2, 2)),
      energy c (comp_a C ord0) 1 = 1 / 2%:R / 4%:R & energy c (comp_a C (lift ord0 ord0)) 1 = 1 / 2%:R].
Proof.
move=> C c; have H2 : (2%:R : C) != 0 by rewrite pnatr_eq0.
have Hww : win_weight c / (n_dft c)%:R = 2%:R^-1.
  by rewrite /win_weight /= !big_ord_recl big_ord0 addr0 -(natrD _ 1 1) divff // invr1 mul1r.
have Hh p b : (b < 2)%N -> block_hat c (comp_a C p) b 1 = if b == p :> nat then p.+1%:R / 2%:R else 0.
  move=> Hb; rewrite /block_hat Hww /dft /= 2!big_ord_recl big_ord0 /block_windowed /block_normalized /block_centred /t_mean /block_offset /= !subr0 !mulr1 addr0 /comp_a.
  by case: b Hb => [|[|b]] // _; case: p => [[|[|p]] Hp] //=; rewrite ?mul0r ?addr0 ?mulr0 // mulrC.
split.
- move=> p q Hpq; rewrite /uncorrelated big1 // => b _; rewrite !Hh //.
  by case: eqP => [E|_]; rewrite ?mul0r //; case: eqP => [E'|_]; rewrite ?conjC0 ?mulr0 //; case/negP: Hpq; rewrite -val_eqE /= -E -E'.
- move=> p q; rewrite /wip (eq_bigr (fun i => (i == p)%:R * (i == q)%:R)) => [|i _]; last by rewrite !mxE mulr1 conjC_nat.
  rewrite (bigD1 p) //= big1 ?addr0 ?eqxx ?mul1r // => i /negbTE ->; by rewrite mul0r.
- rewrite /energy /= !big_ord_recl big_ord0 !Hh //= normr0 expr0n /= !addr0 ger0_norm ?divr_ge0 ?ler0n //.
  by rewrite !div1r !expr2 -!invfM -!natrM.
- rewrite /energy /= !big_ord_recl big_ord0 !Hh //= normr0 expr0n /= !addr0 add0r divff // normr1 expr1n mulr1.
  by rewrite mul1r.
Qed.
(* five-sample rectangular blocks: bin 1 is interior and bin 2 is the last one *)
Example C135_nonvacuous : forall (C : numClosedFieldType), exists om : C,
  let c b := Config 10 5 2 2 3 1 Longtime false 0 (fun _ => 1 : C) b om 0 (fun _ x => x) in
  forall b, [/\ (n_dft (c b)).-primitive_root (omega (c b)), (n_dft (c b) %| nt (c b))%N,
      \sum_(k < n_dft (c b)) window (c b) k != 0, leak (c b) (1.*2)%N = 0 & leak (c b) (2.*2)%N = 0] /\
    (1 < (n_freq (c b)).-1)%N /\ 2%N = (n_freq (c b)).-1 /\ (2.*2 < n_dft (c b))%N.
Proof.
move=> C; have [om Hom] := prim_root_exists C (isT : (0 < 5)%N); exists om => c b; split=> //.
have Hl f : (0 < f < 5)%N -> leak (c b) f = 0.
  move=> /andP[H0 H5]; rewrite /leak (eq_bigr (fun k : 'I_5 => (om ^+ f) ^+ k)) => [|k _]; last by rewrite /= mul1r exprM.
  rewrite (geom (n := 5)) ?mul0r //; first by rewrite -exprM mulnC exprM (prim_expr_order Hom) expr1n.
  by rewrite -(prim_order_dvd Hom) gtnNdvd.
split=> //; [|exact: Hl|exact: Hl].
by rewrite /= sumr_const card_ord pnatr_eq0.
Qed.
