From Verif Require Import Base_List Model_Streaming Proof_Streaming Spec_StreamTime.
From mathcomp Require Import all_ssreflect all_algebra.
From Verif Require Import Base_CRing Model_Spod Spec_Spod Spec_Stream Spec_StreamNum Model_StreamNum Proof_Spod Proof_StreamAlg Proof_StreamNum Proof_StreamNum2.
Set Implicit Arguments.
Unset Strict Implicit.
Unset Printing Implicit Defensive.
Import GRing.Theory Num.Theory Order.TTheory.
Local Open Scope ring_scope.
Section R.
Variable C : numClosedFieldType.
Add Ring Cring : (cr_th C). Ltac cring := cr_norm C; ring.
Lemma ring45 (a b d e m : C) : b * (e * d) * a - b * (e * d) * m = e * ((a - m) * b * d). Proof. by cring. Qed.
Lemma ring46 (q a b s t : C) : s != 0 -> t != 0 -> q * (a / s) * (b / t) * (s * t) = q * a * b.
Proof.
move=> Hs Ht; rewrite -[in RHS](divfK Hs a) -[in RHS](divfK Ht b).
by move: (a / s) (b / t) => a' b'; cring.
Qed.
Lemma ring47 (a D b s t : C) : s != 0 -> t != 0 -> a / s * (D * (s * t)) * (b / t) = a * D * b.
Proof.
move=> Hs Ht; rewrite -[in RHS](divfK Hs a) -[in RHS](divfK Ht b).
by move: (a / s) (b / t) => a' b'; cring.
Qed.
Lemma ring46b (q a b s t : C) : q * ((a * s) * (b * t)) = q * a * b * (s * t). Proof. by cring. Qed.
Variable c : config C.
Variable n : nat.
Variable w : 'cV[C]_n.
Notation k := (n_modes_save c).
Variable svd : 'M[C]_(k + 1) -> 'M[C]_(k + 1) * 'rV[C]_(k + 1).
Variable X : nat -> 'cV[C]_n.
Notation start := (start (n_dft c) (n_overlap c)).
Lemma bhatE s f x : bhat c X s f x 0 = stream_transform c (fun u => X u x 0) s f.
Proof.
rewrite /bhat /stream_transform mxE summxE [RHS]mulrCA; congr (_ * _); rewrite mulr_sumr; apply: eq_bigr => l _.
rewrite !mxE /avg /dft_entry [(l * f)%N]mulnC summxE [_^-1 * _]mulrC -ring45 -mulrBr //.
Qed.
Lemma bhat_block j f x : bhat c X (start j) f x 0 = stream_block c (fun u => X u x 0) j f.
Proof. exact: bhatE. Qed.
Variable size : nat.
Variable nloc : 'I_size -> nat.
Variable own : forall r : 'I_size, 'I_(nloc r) -> 'I_n.
Hypothesis Hown : partition_of own.
Hypothesis Hov : (n_overlap c < n_dft c)%N.
Lemma due_exists N : exists K, due (n_dft c) (n_overlap c) N K.
Proof.
have Hov' : (n_overlap c < n_dft c)%coq_nat by apply/ssrnat.ltP.
have [K [HK _]] := run_law tt (fun _ _ _ => tt) (fun _ _ _ => tt) (fun _ _ _ _ => tt) Hov' (fun _ => tt) tt tt N.
by exists K.
Qed.
Lemma id_partition : @partition_of 1 n (fun _ => n) (fun _ i => i).
Proof.
exists (fun i => existT (fun _ : 'I_1 => 'I_n) ord0 i) => //.
by move=> [r i] /=; rewrite [r]ord1.
Qed.
Lemma modesE N K r f : due (n_dft c) (n_overlap c) N K ->
  stream_modes own w svd X N r f = if gbasis w svd X f K is Some us then Some (\matrix_(i, j) (us.1 (own i) j / sqrtC (w (own i) 0))) else None.
Proof.
move=> HK; rewrite /stream_modes (stateE w svd X Hown Hov r f HK); case: (gbasis _ _ _ _ _) => // us.
by congr Some; apply/matrixP => i j; rewrite !mxE.
Qed.
Lemma eigsE N K r f : due (n_dft c) (n_overlap c) N K ->
  stream_eigs own w svd X N r f = if gbasis w svd X f K is Some us then Some us.2 else None.
Proof. by move=> HK; rewrite /stream_eigs (stateE w svd X Hown Hov r f HK); case: (gbasis _ _ _ _ _). Qed.
Lemma own_surj (y : 'I_n) : exists r (i : 'I_(nloc r)), own i = y.
Proof.
by have [g _ Hg] := Hown; exists (tag (g y)), (tagged (g y)); exact: Hg.
Qed.
Lemma assembled N K f P e : due (n_dft c) (n_overlap c) N K -> 'I_size ->
  assembles own (fun r => stream_modes own w svd X N r f) P ->
  (forall r, stream_eigs own w svd X N r f = Some e) ->
  exists U, gbasis w svd X f K = Some (U, e) /\ P = \matrix_(x, l) (U x l / sqrtC (w x 0)).
Proof.
move=> HK r0 HP He; have := He r0; rewrite (eigsE _ _ HK).
case E: (gbasis _ _ _ _ _) => [[U e']|] // [Ee]; rewrite /= in Ee; subst e'.
exists U; split=> //; apply/matrixP => y l; have [r [i Ey]] := own_surj y; subst y.
have [M [EM HM]] := HP r; rewrite -HM; move: EM; rewrite (modesE _ _ HK) E /= => -[<-]; by rewrite !mxE.
Qed.
Lemma exact_csd K f U e : svd_ok svd -> (forall y, 0 < w y 0) -> (K <= k)%N -> gbasis w svd X f K = Some (U, e) ->
  forall y z, represented (\matrix_(x, l) (U x l / sqrtC (w x 0))) e y z = stream_csd c X K f y z.
Proof.
move=> Hsvd Hw Hk E y z.
have Hs v : sqrtC (w v 0) != 0 by rewrite sqrtC_eq0 lt0r_neq0.
have Hr v : (sqrtC (w v 0))^* = sqrtC (w v 0) by apply: real_conj; rewrite sqrtC_ge0 ltW.
have := congr1 (fun M : 'M_n => M y z) (gbasis_exact Hsvd Hk E); rewrite covE /= /ideal summxE => Ec.
have Hst : sqrtC (w y 0) * sqrtC (w z 0) != 0 by rewrite mulf_neq0.
apply: (mulIf Hst); transitivity (represented U e y z).
  rewrite /represented mulr_suml; apply: eq_bigr => l _; rewrite !mxE rmorphM /= fmorphV Hr.
  exact: ring46.
rewrite Ec /stream_csd mulr_suml; apply: eq_bigr => j _; rewrite mxE [(_ *m _) y z]mxE big_ord1 [adj _ _ _]mxE.
by rewrite [xw _ _ _ _ _ y 0]mxE [xw _ _ _ _ _ z 0]mxE rmorphM /= Hr !bhat_block ring46b.
Qed.
(* Loewner order, whatever the number of blocks *)
Lemma le_csd K f U e : svd_ok svd -> (forall y, 0 < w y 0) -> gbasis w svd X f K = Some (U, e) ->
  forall v : 'I_n -> C,
  0 <= \sum_y \sum_z (v y)^* * (stream_csd c X K f y z - represented (\matrix_(x, l) (U x l / sqrtC (w x 0))) e y z) * v z.
Proof.
move=> Hsvd Hw E v.
have Hs y : sqrtC (w y 0) != 0 by rewrite sqrtC_eq0 lt0r_neq0.
have Hr y : (sqrtC (w y 0))^* = sqrtC (w y 0) by apply: real_conj; rewrite sqrtC_ge0 ltW.
have := gbasis_le Hsvd E (fun y => v y / sqrtC (w y 0)); apply: etrans; congr (0 <= _).
apply: eq_bigr => y _; apply: eq_bigr => z _; rewrite rmorphM /= fmorphV Hr.
have EE : (ideal c w X f K - cov U e) y z = (stream_csd c X K f y z - represented (\matrix_(x, l) (U x l / sqrtC (w x 0))) e y z) * (sqrtC (w y 0) * sqrtC (w z 0)).
  rewrite mxE [X in _ + X]mxE mulrBl covE; congr (_ - _).
    rewrite /ideal summxE /stream_csd mulr_suml; apply: eq_bigr => j _; rewrite mxE [(_ *m _) y z]mxE big_ord1 [adj _ _ _]mxE.
    by rewrite [xw _ _ _ _ _ y 0]mxE [xw _ _ _ _ _ z 0]mxE rmorphM /= Hr !bhat_block ring46b.
  rewrite /represented mulr_suml; apply: eq_bigr => l _; rewrite !mxE rmorphM /= fmorphV Hr.
  by rewrite ring46.
rewrite /= EE; move: (stream_csd _ _ _ _ _ _ - _) => D.
by rewrite -(ring47 _ D _ (Hs y) (Hs z)).
Qed.
End R.
