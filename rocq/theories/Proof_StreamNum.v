(* the distributed streaming run against its one-process mathematical meaning *)
From Verif Require Import Model_Streaming Proof_Streaming.
From mathcomp Require Import all_ssreflect all_algebra.
From Verif Require Import Model_Spod Spec_Spod Spec_Stream Model_StreamNum Proof_Spod Proof_Spectral Proof_StreamAlg.
Set Implicit Arguments.
Unset Strict Implicit.
Unset Printing Implicit Defensive.
Import GRing.Theory Num.Theory Order.TTheory.
Local Open Scope ring_scope.

Section S.
Variable C : numClosedFieldType.
Variable c : config C.
Notation k := (n_modes_save c).
Variable n : nat.
Variable w : 'cV[C]_n.
Variable svd : 'M[C]_(k + 1) -> 'M[C]_(k + 1) * 'rV[C]_(k + 1).
Variable X : nat -> 'cV[C]_n.

(* ---- mathematical meaning ---- *)
Definition avg (N : nat) : 'cV[C]_n := (N%:R)^-1 *: \sum_(t < N) X t.
(* transform of the block that starts at s, minus the mean of the first s + n_dft snapshots *)
Definition bhat (s f : nat) : 'cV[C]_n :=
  (win_weight c / (n_dft c)%:R) *: \sum_(i < n_dft c) (window c i * dft_entry c i f) *: (X (s + i)%N - avg (s + n_dft c)).
Definition xw (s f : nat) : 'cV[C]_n := \col_i (bhat s f i 0 * sqrtC (w i 0)).
Section G.
Variables (b : nat) (x : 'cV[C]_n) (U : 'M[C]_(n, k)) (S : 'rV[C]_k).
Definition gUx := adj U *m x.
Definition gup := x - U *m gUx.
Definition gabs : C := sqrtC ((adj gup *m gup) 0 0).
Definition gun : 'cV[C]_n := \col_i (gup i 0 / gabs).
Definition gU : 'M[C]_(n, k + 1) := row_mx U gun *m (svd (K_mx b S gUx gabs)).1.
Definition gS : 'rV[C]_(k + 1) := (svd (K_mx b S gUx gabs)).2.
Definition gupdate : option ('M[C]_(n, k) * 'rV[C]_k) := if gabs == 0 then None else Some (lsubmx gU, lsubmx gS).
End G.
Notation start := (start (n_dft c) (n_overlap c)).
Fixpoint gbasis (f : nat) (N : nat) : option ('M[C]_(n, k) * 'rV[C]_k) :=
  match N with
  | 0 => Some (0, 0)
  | N'.+1 => if gbasis f N' is Some us then gupdate N'.+1 (xw (start N') f) us.1 us.2 else None
  end.

(* ---- distributed ---- *)
Variable size : nat.
Variable nloc : 'I_size -> nat.
Variable own : forall r : 'I_size, 'I_(nloc r) -> 'I_n.
Hypothesis Hown : partition_of own.
Notation step_c := (@contrib C c size nloc).
Notation step_m := (@mean_step C size nloc).

Lemma mean_after_avg N (r : 'I_size) (i : 'I_(nloc r)) : mean_after step_m (local_stream own X) (@mean0 C size nloc) N r i 0 = avg N (own i) 0.
Proof.
elim: N => [|N IH]; first by rewrite /mean_after /= !mxE invr0 mul0r.
have E : mean_after step_m (local_stream own X) (@mean0 C size nloc) N.+1 =
  step_m N (mean_after step_m (local_stream own X) (@mean0 C size nloc) N) (local_stream own X N).
  by rewrite /mean_after List.seq_S List.fold_left_app.
rewrite E /Model_StreamNum.mean_step !mxE IH /avg !mxE big_ord_recr /= mxE.
congr (_ * (_ + _)); case: N {IH E} => [|N]; first by rewrite mul0r big_ord0 mxE.
by rewrite mulVKf // pnatr_eq0.
Qed.
Lemma block_sumE s r f : block_sum (n_dft c) (@sum0 C size nloc) step_c (local_stream own X) s r f
  = \sum_(i < n_dft c) (window c i * dft_entry c i f) *: local_stream own X (s + i)%N r.
Proof.
rewrite /block_sum; elim: (n_dft c) => [|m IH]; first by rewrite big_ord0.
by rewrite List.seq_S List.fold_left_app /= big_ord_recr /= -IH.
Qed.
Lemma x_weightedE s (r : 'I_size) f (i : 'I_(nloc r)) :
  x_weighted c own w (block_sum (n_dft c) (@sum0 C size nloc) step_c (local_stream own X) s)
     (mean_after step_m (local_stream own X) (@mean0 C size nloc) (s + n_dft c)%N) r f i 0
  = xw s f (own i) 0.
Proof.
rewrite /x_weighted /x_centred /xw /bhat !mxE block_sumE /sqrt_w; congr (_ * _ * _).
rewrite !summxE -sumrB; apply: eq_bigr => j _.
by rewrite !mxE mean_after_avg /avg !mxE mulrBr.
Qed.

Section Upd.
Variables (b : nat) (x : rsnap C nloc) (U : forall r, 'M[C]_(nloc r, k)) (S : forall r : 'I_size, 'rV[C]_k).
Variables (xg : 'cV[C]_n) (Ug : 'M[C]_(n, k)) (Sg : 'rV[C]_k).
Hypothesis Hx : forall r i, x r i 0 = xg (own i) 0.
Hypothesis HU : forall r i j, U r i j = Ug (own i) j.
Hypothesis HS : forall r, S r = Sg.
Lemma UxE : Ux x U = gUx xg Ug.
Proof.
apply/matrixP => j z; rewrite ord1 summxE mxE -(sum_ranks Hown (fun i => adj Ug j i * xg i 0)).
by apply: eq_bigr => r _; rewrite mxE; apply: eq_bigr => i _; rewrite !mxE HU Hx.
Qed.
Lemma u_pE r i : u_p x U r i 0 = gup xg Ug (own i) 0.
Proof. by rewrite /u_p /gup UxE !mxE Hx; congr (_ - _); apply: eq_bigr => j _; rewrite HU. Qed.
Lemma abs_upE : abs_up x U = gabs xg Ug.
Proof.
rewrite /abs_up /gabs; congr sqrtC; rewrite summxE mxE -(sum_ranks Hown (fun i => adj (gup xg Ug) 0 i * gup xg Ug i 0)).
apply: eq_bigr => r _; rewrite [LHS]mxE; apply: eq_bigr => i _; rewrite -[X in X * _](_ : (u_p x U r i 0)^* = _); last by rewrite [RHS]mxE.
by rewrite u_pE [X in _ = X * _]mxE.
Qed.
Lemma u_newE r i : u_new x U r i 0 = gun xg Ug (own i) 0.
Proof. by rewrite /u_new /gun [LHS]mxE [RHS]mxE u_pE abs_upE. Qed.
Lemma updateE r : update svd b x U S r =
  if gupdate b xg Ug Sg is Some us then Some (\matrix_(i, j) us.1 (own i) j, us.2) else None.
Proof.
rewrite /update /gupdate abs_upE; case: eqP => // _; congr (Some (_, _)).
  apply/matrixP => i j; rewrite !mxE; rewrite UxE abs_upE HS; apply: eq_bigr => l _.
  congr (_ * _); case: (splitP l) => l' El.
    by have -> : l = lshift _ l' by [apply: val_inj]; rewrite !row_mxEl HU.
  by have -> : l = rshift _ l' by [apply: val_inj]; rewrite !row_mxEr ord1 u_newE.
by rewrite /S_full UxE abs_upE HS.
Qed.
End Upd.
Lemma all_someT (T : 'I_size -> Type) l (g : forall r, option (T r)) : (forall r, g r <> None) -> all_some l g.
Proof. by move=> H; elim: l => //= r l ->; rewrite andbT; case E: (g r) => //; case: (H r). Qed.
Lemma all_someF (T : 'I_size -> Type) (g : forall r, option (T r)) r : g r = None -> all_some (enum 'I_size) g = false.
Proof.
move=> E; have : r \in enum 'I_size by rewrite mem_enum.
elim: (enum _) => //= q l IH; rewrite inE => /orP [/eqP <-|/IH ->]; last by rewrite andbF.
by rewrite E.
Qed.
Lemma basis_afterE N r f :
  basis_after (n_dft c) (n_overlap c) (@sum0 C size nloc) step_c step_m (basis_step own w svd)
    (local_stream own X) (@mean0 C size nloc) (@basis0 C c size nloc) N r f
  = if gbasis f N is Some us then Some (\matrix_(i, j) us.1 (own i) j, us.2) else None.
Proof.
elim: N r => [|N IH] r.
  rewrite /basis_after /= /basis0; congr (Some (_, _)); by apply/matrixP => i j; rewrite !mxE.
rewrite [basis_after _ _ _ _ _ _ _ _ _ _](_ : _ = basis_step own w svd N.+1
  (block_sum (n_dft c) (@sum0 C size nloc) step_c (local_stream own X) (start N))
  (mean_after step_m (local_stream own X) (@mean0 C size nloc) (start N + n_dft c)%N)
  (basis_after (n_dft c) (n_overlap c) (@sum0 C size nloc) step_c step_m (basis_step own w svd)
    (local_stream own X) (@mean0 C size nloc) (@basis0 C c size nloc) N)); last first.
  by rewrite /basis_after List.seq_S List.fold_left_app.
move: (basis_after _ _ _ _ _ _ _ _ _ N) IH => B IH; rewrite /basis_step /=.
move: IH => /(_ _) IH.
case Eg: (gbasis f N) IH => [us|] IH; last by rewrite (all_someF (IH r)).
rewrite all_someT; last by move=> q; rewrite IH.
apply: updateE => [q i|q i j|q]; rewrite ?IH //; last by rewrite mxE.
exact: x_weightedE.
Qed.
Hypothesis Hov : (n_overlap c < n_dft c)%N.
Notation done := (due (n_dft c) (n_overlap c)).
Lemma stateE N K r f : done N K ->
  Model_Streaming.basis (stream_state own w svd X N) r f
  = if gbasis f K is Some us then Some (\matrix_(i, j) us.1 (own i) j, us.2) else None.
Proof.
move=> HK; have Hov' : (n_overlap c < n_dft c)%coq_nat by apply/ssrnat.ltP.
have [K' [HK' E]] := run_law (@sum0 C size nloc) step_c step_m (basis_step own w svd) Hov'
    (local_stream own X) (@mean0 C size nloc) (@basis0 C c size nloc) N.
rewrite /stream_state E /= (due_unique Hov' HK HK'); exact: basis_afterE.
Qed.
End S.

Section Hist.
Variable C : numClosedFieldType.
Variable c : config C.
Notation k := (n_modes_save c).
Variable n : nat.
Variable w : 'cV[C]_n.
Variable svd : 'M[C]_(k + 1) -> 'M[C]_(k + 1) * 'rV[C]_(k + 1).
Hypothesis Hsvd : svd_ok svd.
Variable X : nat -> 'cV[C]_n.
Notation start := (start (n_dft c) (n_overlap c)).
Notation gb := (gbasis w svd X).
Lemma gbasis_inv f N us : gb f N = Some us -> binv us.1 us.2 /\ cnt us.2 N.
Proof.
elim: N us => [|N IH] us /=.
  move=> [<-]; split=> [|i]; last by rewrite mxE eqxx.
  split=> [i|]; first by rewrite mxE.
  by rewrite mulmx0; apply/matrixP => i j; rewrite !mxE eqxx mul0rn.
case E: (gb f N) => [[U S]|] //=; have [HB Hc] := IH _ E.
rewrite /gupdate; case: eqP => // /eqP Ha [<-] /=; split.
  exact: (binv_trunc N.+1 Hsvd HB Ha).
have Hc' : cnt S (minn N k) by move=> i; rewrite Hc leq_min ltn_ord andbT.
have := cnt_update N.+1 Hsvd HB Ha (geq_minr N k) Hc' => Hc2 i.
by rewrite mxE Hc2 /= ltnS leq_min (ltnW (ltn_ord i)) andbT.
Qed.
Definition wt (N j : nat) : C := j.+2%:R / (j.+3%:R * N.+2%:R).
Definition ideal (f N : nat) : 'M[C]_n := \sum_(j < N) wt N j *: (xw c w X (start j) f *m adj (xw c w X (start j) f)).
Lemma ideal_S f N : ideal f N.+1 = (N.+2%:R / N.+3%:R) *: ideal f N
   + (N.+2%:R / N.+3%:R ^+ 2) *: (xw c w X (start N) f *m adj (xw c w X (start N) f)).
Proof.
rewrite /ideal big_ord_recr /= scaler_sumr; congr (_ + _).
apply: eq_bigr => j _; rewrite scalerA; congr (_ *: _); rewrite /wt.
by rewrite !invfM [RHS]mulrC !mulrA mulfVK ?pnatr_eq0.
Qed.
Lemma gbasis_cov f N us us' : gb f N = Some us -> gb f N.+1 = Some us' ->
  exists (lam : C) (u : 'cV[C]_n), [/\ 0 <= lam,
   (N < k)%N -> lam = 0
  & cov us'.1 us'.2 = (N.+2%:R / N.+3%:R) *: cov us.1 us.2
     + (N.+2%:R / N.+3%:R ^+ 2) *: (xw c w X (start N) f *m adj (xw c w X (start N) f)) - lam *: (u *m adj u)].
Proof.
move=> E /=; rewrite E; have [HB Hc] := gbasis_inv E; case: us E HB Hc => [U S] /= E HB Hc.
rewrite /gupdate; case: eqP => // /eqP Ha [<-] /=.
have Hc' : cnt S (minn N k) by move=> i; rewrite Hc leq_min ltn_ord andbT.
have Hc2 := cnt_update N.+1 Hsvd HB Ha (geq_minr N k) Hc'.
have Ec := cov_update N.+1 Hsvd U (xw c w X (start N) f) (proj1 HB).
have Hc3 : cnt (gS svd N.+1 (xw c w X (start N) f) U S) (minn N k).+1 := Hc2.
pose Uf := gU svd N.+1 (xw c w X (start N) f) U S; pose Sf := gS svd N.+1 (xw c w X (start N) f) U S.
exists (Sf 0 (rshift k 0) ^+ 2), (col (rshift k 0) Uf); split.
- by rewrite exprn_ge0 //; have [_ H _ _] := Hsvd (K_mx N.+1 S (gUx (xw c w X (start N) f) U) (gabs (xw c w X (start N) f) U)).
- move=> HN; have := Hc3 (rshift k 0); rewrite /= addn0 ltnS leq_min leqnn andbT leqNgt HN /=.
  by move/negbFE/eqP => ->; rewrite expr0n.
- have Ec' : cov Uf Sf = _ := Ec; rewrite -[X in _ = X - _]Ec'; apply/matrixP => x y.
  rewrite [RHS]mxE [X in _ = _ + X]mxE [X in _ = _ - X]mxE (cov_split Uf Sf x y) -/Uf -/Sf.
  rewrite [(col _ Uf *m adj (col _ Uf)) x y]mxE big_ord1 [adj _ _ _]mxE ![col _ Uf _ _]mxE mulrA.
  by rewrite -[RHS]addrA subrr addr0.
Qed.
Lemma gbasis_prev f N us : gb f N.+1 = Some us -> exists us', gb f N = Some us'.
Proof. by rewrite /=; case: (gb f N) => // us' _; exists us'. Qed.
Lemma gbasis_exact f N us : (N <= k)%N -> gb f N = Some us -> cov us.1 us.2 = ideal f N.
Proof.
elim: N us => [|N IH] us HN.
  by move=> [<-] /=; rewrite /ideal big_ord0 /cov !mul0mx.
move=> H; have [us' E] := gbasis_prev H; have [lam [u [_ Hl ->]]] := gbasis_cov E H.
by rewrite (Hl HN) scale0r subr0 ideal_S (IH _ (ltnW HN) E).
Qed.
Lemma psdE (M : 'M[C]_n) : psd M <-> forall v : 'cV[C]_n, 0 <= (adj v *m M *m v) 0 0.
Proof.
have E (u : 'I_n -> C) (v : 'cV[C]_n) : (forall i, v i 0 = u i) -> (adj v *m M *m v) 0 0 = \sum_i \sum_j (u i)^* * M i j * u j.
  move=> Hv; rewrite mxE exchange_big /=; apply: eq_bigr => j _; rewrite mxE mulr_suml; apply: eq_bigr => i _.
  by rewrite !mxE !Hv.
split=> [H v|H u]; first by rewrite (E (fun i => v i 0)) //; exact: H.
by rewrite -(E u (\col_i u i)) // => i; rewrite mxE.
Qed.
Lemma psd_rank1 (u : 'cV[C]_n) : psd (u *m adj u).
Proof.
apply/psdE => v; rewrite !mulmxA -mulmxA -[adj v *m u]adjK adjM adjK.
rewrite mxE big_ord1 [X in X * _]mxE -normCKC; exact: exprn_ge0.
Qed.
Lemma gbasis_le f N us : gb f N = Some us -> psd (ideal f N - cov us.1 us.2).
Proof.
elim: N us => [|N IH] us.
  move=> [<-] /=; rewrite /ideal big_ord0 /cov !mul0mx subrr; apply/psdE => v; by rewrite mulmx0 mul0mx mxE.
move=> H; have [us' E] := gbasis_prev H; have [lam [u [Hl _ ->]]] := gbasis_cov E H.
rewrite ideal_S opprB addrCA opprD addrACA subrr addr0 addrC -scalerBr.
apply/psdE => v; rewrite mulmxDr mulmxDl mxE -!scalemxAr -!scalemxAl ![(_ *: _ : 'M_(_)) 0 0]mxE addr_ge0 //.
  by apply: mulr_ge0; [rewrite divr_ge0 ?ler0n|move/psdE: (IH _ E); apply].
by apply: mulr_ge0 => //; move/psdE: (psd_rank1 u); apply.
Qed.
End Hist.
