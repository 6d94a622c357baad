(* Property theorems C45-C48, C85, C86: the numbers computed by the streaming algorithm, for every
   closed field, configuration, stream, distribution over ranks and SVD routine meeting svd_ok. *)
From Coq Require Import List ZArith Lia.
From Verif Require Import Base_List Model_Base Model_Streaming Proof_Streaming Spec_StreamTime.
From mathcomp Require Import all_ssreflect all_algebra.
From Verif Require Import Model_Spod Spec_Spod Spec_Stream Spec_StreamNum Model_StreamNum Proof_Spod Proof_StreamAlg Proof_StreamNum Proof_StreamNum2 Proof_StreamNum3 Proof_Svd.
Set Implicit Arguments.
Unset Strict Implicit.
Unset Printing Implicit Defensive.
Import GRing.Theory Num.Theory Order.TTheory.
Local Open Scope ring_scope.

(* the hypothesis on the SVD routine can be met, at every size *)
Example svd_routine_exists : forall (C : numClosedFieldType) n, exists svd, @svd_ok C n svd.
Proof. exact: svd_exists. Qed.

(* ---- C45 ---- *)
(* the vector that snapshot t hands to the basis update (before weighting) when it completes a block *)
Theorem C45_completed_transform : forall (C : numClosedFieldType) (c : config C) size n (nloc : 'I_size -> nat)
    (own : forall r, 'I_(nloc r) -> 'I_n) (w : 'cV[C]_n)
    (svd : 'M[C]_(n_modes_save c + 1) -> 'M[C]_(n_modes_save c + 1) * 'rV[C]_(n_modes_save c + 1)) (X : nat -> 'cV[C]_n) t h,
  (n_overlap c < n_dft c)%N ->
  completed (n_dft c) (n_overlap c) (@sum0 C size nloc) (@contrib C c size nloc) (@mean_step C size nloc)
    (basis_step own w svd) (@mean0 C size nloc) (@basis0 C c size nloc) (local_stream own X) t = Some h ->
  exists s, (t.+1 = s + n_dft c)%N /\
  forall r f (i : 'I_(nloc r)),
  x_centred c h (Model_Streaming.mu (stream_state own w svd X t.+1)) r f i 0
  = stream_transform c (fun u => X u (own r i) 0) s f.
Proof.
move=> C c size n nloc own w svd X t h Hov Hcomp.
have Hov' : (n_overlap c < n_dft c)%coq_nat by apply/ssrnat.ltP.
move/(completed_iff _ _ _ _ Hov'): Hcomp => [b [Et Eh]].
exists (start (n_dft c) (n_overlap c) b); split=> // r f i.
have [K [HK E]] := run_law (@sum0 C size nloc) (@contrib C c size nloc) (@mean_step C size nloc) (basis_step own w svd) Hov'
    (local_stream own X) (@mean0 C size nloc) (@basis0 C c size nloc) t.+1.
rewrite /stream_state E /= /x_centred Eh [LHS]mxE [X in _ * X]mxE block_sumE [X in _ * (_ + X)]mxE.
rewrite /stream_transform [RHS]mulrCA; congr (_ * _); rewrite mulr_sumr !summxE -sumrB; apply: eq_bigr => l _.
rewrite ![((_ *: _ : 'cV_(_)) i 0)]mxE mean_after_avg /avg [local_stream _ _ _ _ _ _]mxE [X in _ - _ * X]mxE summxE /dft_entry [(l * f)%N]mulnC.
have Et' : (start (n_dft c) (n_overlap c) b + n_dft c = t.+1)%N by [].
by rewrite [_^-1 * _]mulrC -ring45 Et'.
Qed.
Print Assumptions C45_completed_transform.

(* ---- C46 ---- *)
(* one update on one rank that holds everything, before truncation to n_modes_save columns:
   U S^2 U^H becomes (m+1)/(m+2) U S^2 U^H + (m+1)/(m+2)^2 x x^H, m the number of the block (from 1 on) *)
Theorem C46_one_update : forall (C : numClosedFieldType) (c : config C) n
    svd (m : nat) (x : 'cV[C]_n) (U : 'M[C]_(n, n_modes_save c)) (S : 'rV[C]_(n_modes_save c)),
  svd_ok svd -> (forall l, 0 <= S 0 l) ->
  let U' := @U_full C c 1 (fun _ => n) svd m (fun _ => x) (fun _ => U) (fun _ => S) ord0 in
  let S' := @S_full C c 1 (fun _ => n) svd m (fun _ => x) (fun _ => U) (fun _ => S) ord0 in
  forall y z, represented U' S' y z
    = m.+1%:R / m.+2%:R * represented U S y z + m.+1%:R / m.+2%:R ^+ 2 * (x y 0 * (x z 0)^*).
Proof.
move=> C c n svd m x U S Hsvd HS U' S' y z.
have Hid := id_partition n.
have Hx : forall (r : 'I_1) (i : 'I_n), x i 0 = x i 0 by [].
have EUx := @UxE C c n 1 (fun _ => n) (fun _ i => i) Hid (fun _ => x) (fun _ => U) x U Hx (fun _ _ _ => erefl).
have Eab := @abs_upE C c n 1 (fun _ => n) (fun _ i => i) Hid (fun _ => x) (fun _ => U) x U Hx (fun _ _ _ => erefl).
have Eun : u_new (nloc := fun _ : 'I_1 => n) (fun _ => x) (fun _ => U) ord0 = gun x U.
  by apply/matrixP => i j; rewrite [j]ord1; apply: (@u_newE C c n 1 (fun _ => n) (fun _ i => i) Hid (fun _ => x) (fun _ => U) x U Hx (fun _ _ _ => erefl)).
have EU : U' = gU svd m x U S by rewrite /U' /U_full Eun EUx Eab.
have ES : S' = gS svd m x U S by rewrite /S' /S_full EUx Eab.
have := congr1 (fun M : 'M_n => M y z) (cov_update m Hsvd U x HS).
rewrite -[cov _ _]/(cov (gU svd m x U S) (gS svd m x U S)) -EU -ES covE => ->.
by rewrite mxE [X in X + _]mxE [X in _ + X]mxE covE [(x *m _) y z]mxE big_ord1 [adj x _ _]mxE.
Qed.
Print Assumptions C46_one_update.
(* whole history, as long as no more blocks than modes have been processed: what the saved arrays
   represent is the weighted cross-spectral matrix, entry by entry *)
Theorem C46_history_exact : forall (C : numClosedFieldType) (c : config C) size n (nloc : 'I_size -> nat)
    (own : forall r, 'I_(nloc r) -> 'I_n) (w : 'cV[C]_n)
    (svd : 'M[C]_(n_modes_save c + 1) -> 'M[C]_(n_modes_save c + 1) * 'rV[C]_(n_modes_save c + 1)) (X : nat -> 'cV[C]_n) N K f P e (r0 : 'I_size),
  partition_of own -> (n_overlap c < n_dft c)%N -> svd_ok svd -> (forall y, 0 < w y 0) ->
  blocks_done (n_dft c) (n_dft c - n_overlap c) N K -> (K <= n_modes_save c)%N ->
  assembles own (fun r => stream_modes own w svd X N r f) P ->
  (forall r, stream_eigs own w svd X N r f = Some e) ->
  forall y z, represented P e y z = stream_csd c X K f y z.
Proof.
move=> C c size n nloc own w svd X N K f P e r0 Hown Hov Hsvd Hw HK Hk HP He y z.
have [U [E ->]] := assembled Hown Hov HK r0 HP He.
exact: (exact_csd Hsvd Hw Hk E).
Qed.
Print Assumptions C46_history_exact.
(* beyond that, truncation only removes: the difference is positive semi-definite *)
Theorem C46_history_bound : forall (C : numClosedFieldType) (c : config C) size n (nloc : 'I_size -> nat)
    (own : forall r, 'I_(nloc r) -> 'I_n) (w : 'cV[C]_n)
    (svd : 'M[C]_(n_modes_save c + 1) -> 'M[C]_(n_modes_save c + 1) * 'rV[C]_(n_modes_save c + 1)) (X : nat -> 'cV[C]_n) N K f P e (r0 : 'I_size),
  partition_of own -> (n_overlap c < n_dft c)%N -> svd_ok svd -> (forall y, 0 < w y 0) ->
  blocks_done (n_dft c) (n_dft c - n_overlap c) N K ->
  assembles own (fun r => stream_modes own w svd X N r f) P ->
  (forall r, stream_eigs own w svd X N r f = Some e) ->
  psd (\matrix_(y, z) (stream_csd c X K f y z - represented P e y z)).
Proof.
move=> C c size n nloc own w svd X N K f P e r0 Hown Hov Hsvd Hw HK HP He v.
have [U [E ->]] := assembled Hown Hov HK r0 HP He.
have := le_csd Hsvd Hw E v; apply: etrans; congr (0 <= _).
by apply: eq_bigr => y _; apply: eq_bigr => z _; rewrite [(\matrix_(_, _) (_ - _)) y z]mxE.
Qed.
Print Assumptions C46_history_bound.

(* ---- C47 ---- *)
(* number of completed blocks K: the first K saved modes are orthonormal, the others are zero *)
Theorem C47_orthonormal : forall (C : numClosedFieldType) (c : config C) size n (nloc : 'I_size -> nat)
    (own : forall r, 'I_(nloc r) -> 'I_n) (w : 'cV[C]_n)
    (svd : 'M[C]_(n_modes_save c + 1) -> 'M[C]_(n_modes_save c + 1) * 'rV[C]_(n_modes_save c + 1)) (X : nat -> 'cV[C]_n) N K f P e (r0 : 'I_size),
  partition_of own -> (n_overlap c < n_dft c)%N -> svd_ok svd -> (forall y, 0 < w y 0) ->
  blocks_done (n_dft c) (n_dft c - n_overlap c) N K ->
  assembles own (fun r => stream_modes own w svd X N r f) P ->
  (forall r, stream_eigs own w svd X N r f = Some e) ->
  forall i j, wip w P P i j = if (i == j) && (i < K)%N then 1 else 0.
Proof.
move=> C c size n nloc own w svd X N K f P e r0 Hown Hov Hsvd Hw HK HP He i j.
have [U [E ->]] := assembled Hown Hov HK r0 HP He.
by rewrite (modes_wip i j Hsvd Hw E); case: (_ && _).
Qed.
Print Assumptions C47_orthonormal.

(* ---- C48 ---- *)
(* whatever the distribution over ranks, a rank saves its rows of the serial modes and the serial values;
   it has NaN exactly when the serial run has *)
Theorem C48_rank_independence : forall (C : numClosedFieldType) (c : config C) size n (nloc : 'I_size -> nat)
    (own : forall r, 'I_(nloc r) -> 'I_n) (w : 'cV[C]_n)
    (svd : 'M[C]_(n_modes_save c + 1) -> 'M[C]_(n_modes_save c + 1) * 'rV[C]_(n_modes_save c + 1)) (X : nat -> 'cV[C]_n) N r f,
  partition_of own -> (n_overlap c < n_dft c)%N ->
  stream_modes own w svd X N r f = omap (fun P : 'M[C]_(n, n_modes_save c) => \matrix_(i, j) P (own r i) j) (serial_stream_modes w svd X N f) /\
  stream_eigs own w svd X N r f = serial_stream_eigs w svd X N f.
Proof.
move=> C c size n nloc own w svd X N r f Hown Hov; have [K HK] := due_exists Hov N.
rewrite /serial_stream_modes /serial_stream_eigs.
rewrite (modesE w svd X Hown Hov r f HK) (modesE w svd X (id_partition n) Hov ord0 f HK).
rewrite (eigsE w svd X Hown Hov r f HK) (eigsE w svd X (id_partition n) Hov ord0 f HK).
by case: (gbasis _ _ _ _ _) => [us|]; split=> //=; congr Some; apply/matrixP => i j; rewrite !mxE.
Qed.
Print Assumptions C48_rank_independence.

(* ---- C85 ---- *)
(* saved modes are eigenvectors of the weighted cross-spectral matrix; the eigenvalue is the square of
   the value saved with them *)
Theorem C85_saved_values_are_roots : forall (C : numClosedFieldType) (c : config C) size n (nloc : 'I_size -> nat)
    (own : forall r, 'I_(nloc r) -> 'I_n) (w : 'cV[C]_n)
    (svd : 'M[C]_(n_modes_save c + 1) -> 'M[C]_(n_modes_save c + 1) * 'rV[C]_(n_modes_save c + 1)) (X : nat -> 'cV[C]_n) N K f P e (r0 : 'I_size),
  partition_of own -> (n_overlap c < n_dft c)%N -> svd_ok svd -> (forall y, 0 < w y 0) ->
  blocks_done (n_dft c) (n_dft c - n_overlap c) N K -> (K <= n_modes_save c)%N ->
  assembles own (fun r => stream_modes own w svd X N r f) P ->
  (forall r, stream_eigs own w svd X N r f = Some e) ->
  (forall y l, \sum_z stream_csd c X K f y z * w z 0 * P z l = e 0 l ^+ 2 * P y l) /\
  \sum_l e 0 l ^+ 2 = \sum_(j < K) block_weight C K j * \sum_y w y 0 * `|stream_block c (fun u => X u y 0) j f| ^+ 2.
Proof.
move=> C c size n nloc own w svd X N K f P e r0 Hown Hov Hsvd Hw HK Hk HP He.
have [U [E ->]] := assembled Hown Hov HK r0 HP He; split=> [y l|].
  have := modes_eig y l Hsvd Hw Hk E; rewrite /= [X in _ = _ * X -> _](_ : _ = (\matrix_(x, l) (U x l / sqrtC (w x 0))) y l); last by rewrite mxE.
  move=> <-; apply: eq_bigr => z _; rewrite mxE; congr (_ * _ * _); apply: eq_bigr => j _.
  by rewrite !bhat_block.
rewrite (eigs_sum Hsvd (fun y => ltW (Hw y)) Hk E); apply: eq_bigr => j _; congr (_ * _); apply: eq_bigr => y _.
by rewrite bhat_block.
Qed.
Print Assumptions C85_saved_values_are_roots.
(* the weights of the blocks never add up to one: the streaming spectrum is below the block average *)
Theorem C85_weights_below_one : forall (C : numClosedFieldType) N, \sum_(j < N) block_weight C N j < 1.
Proof. exact: wt_sum_lt1. Qed.
Print Assumptions C85_weights_below_one.

(* ---- C86 ---- *)
(* the result should be finite for every stream; a stream of equal snapshots gives NaN on every rank, at every
   frequency, from the first completed block on *)
Theorem C86_constant_stream_refuted : forall (C : numClosedFieldType) (c : config C) size n (nloc : 'I_size -> nat)
    (own : forall r, 'I_(nloc r) -> 'I_n) (w : 'cV[C]_n)
    (svd : 'M[C]_(n_modes_save c + 1) -> 'M[C]_(n_modes_save c + 1) * 'rV[C]_(n_modes_save c + 1)) (X : nat -> 'cV[C]_n) N r f,
  partition_of own -> (n_overlap c < n_dft c)%N -> svd_ok svd ->
  (forall t, X t = X 0%N) -> (n_dft c <= N)%N ->
  stream_modes own w svd X N r f = None /\ stream_eigs own w svd X N r f = None.
Proof.
move=> C c size n nloc own w svd X N r f Hown Hov Hsvd HX HN; have [K HK] := due_exists Hov N.
have Hd : (0 < n_dft c)%N by apply: leq_ltn_trans Hov.
have H0 : (0 < K)%N.
  case: K HK => // -[H _]; have Hov' : (n_overlap c < n_dft c)%coq_nat by apply/ssrnat.ltP.
  have Hp := npar_pos Hov'; have Es := start_cj Hov' 0 (Hp : (0 < n_blocks_par (n_dft c) (n_overlap c))%coq_nat).
  by move: H; rewrite [start _ _ 0]Es => /ssrnat.ltP; rewrite ltnNge HN.
by rewrite (modesE w svd X Hown Hov r f HK) (eigsE w svd X Hown Hov r f HK) (const_none w f Hsvd Hd HX H0).
Qed.
Print Assumptions C86_constant_stream_refuted.
(* so does asking for at least as many modes as there are entries, once n+1 blocks are complete *)
Theorem C86_full_basis_refuted : forall (C : numClosedFieldType) (c : config C) size n (nloc : 'I_size -> nat)
    (own : forall r, 'I_(nloc r) -> 'I_n) (w : 'cV[C]_n)
    (svd : 'M[C]_(n_modes_save c + 1) -> 'M[C]_(n_modes_save c + 1) * 'rV[C]_(n_modes_save c + 1)) (X : nat -> 'cV[C]_n) N K r f,
  partition_of own -> (n_overlap c < n_dft c)%N -> svd_ok svd ->
  (n <= n_modes_save c)%N -> blocks_done (n_dft c) (n_dft c - n_overlap c) N K -> (n < K)%N ->
  stream_modes own w svd X N r f = None /\ stream_eigs own w svd X N r f = None.
Proof.
move=> C c size n nloc own w svd X N K r f Hown Hov Hsvd Hn HK HnK.
by rewrite (modesE w svd X Hown Hov r f HK) (eigsE w svd X Hown Hov r f HK) (gbasis_full w X f Hsvd Hn HnK).
Qed.
Print Assumptions C86_full_basis_refuted.

(* ---- the hypotheses of C46-C48, C85 are met: two entries, n_dft = 2, two snapshots, one block ---- *)
Definition ex_config (C : numClosedFieldType) : config C :=
  Config 2 2 0 1 2 2 Longtime false 0 (fun _ => 1) false (-1) 0 (fun _ _ => 0).
Definition ex_stream (C : numClosedFieldType) (t : nat) : 'cV[C]_2 := if t == 0%N then const_mx 1 else 0.
Lemma gbasis_one (C : numClosedFieldType) (c : config C) n (w : 'cV[C]_n) svd (X : nat -> 'cV[C]_n) f i :
  xw c w X (start (n_dft c) (n_overlap c) 0) f i 0 != 0 -> exists us, gbasis (c := c) w svd X f 1 = Some us.
Proof.
move=> Hx; rewrite /= /gupdate; case: eqP => [E|_]; last by eexists.
exfalso; move/eqP: E; rewrite /gabs sqrtC_eq0 /gup mul0mx subr0 mxE psumr_eq0.
  move=> /allP /(_ i (mem_index_enum i)); rewrite mxE mulf_eq0 conjC_eq0 orbb; by rewrite (negbTE Hx).
by move=> j _; rewrite mxE -normCKC exprn_ge0.
Qed.
Example C46_C47_C48_C85_nonvacuous : forall (C : numClosedFieldType) svd,
  exists P e, blocks_done 2 2 2 1 /\
  assembles (fun (_ : 'I_1) i => i) (fun _ => serial_stream_modes (c := ex_config C) (const_mx 1) svd (@ex_stream C) 2 1) P /\
  serial_stream_eigs (c := ex_config C) (const_mx 1) svd (@ex_stream C) 2 1 = Some e.
Proof.
move=> C svd; have HK : blocks_done 2 2 2 1 by split=> [|[|k]] //=; [apply/ssrnat.ltP|move=> /ssrnat.ltP].
have Hx : xw (ex_config C) (const_mx 1) (@ex_stream C) (start 2 0 0) 1 (0 : 'I_2) 0 != 0.
  rewrite mxE bhatE !mxE sqrtC1 mulr1 /stream_transform /= mul1r.
  rewrite /win_weight /= !big_ord_recl !big_ord0 /= !mxE !addr0 !mulr1.
  rewrite -[start 2 0 0]/0%N add0n -[(1 * bump 0 0)%N]/1%N expr1 mulrN1 opprB subr0 subrK mulr1.
  by rewrite mulf_neq0 ?invr_eq0 ?mulf_neq0 ?invr_eq0 ?pnatr_eq0 // -[1 + 1]/(2%:R) pnatr_eq0.
have [us E] := gbasis_one svd Hx.
have Hov : (n_overlap (ex_config C) < n_dft (ex_config C))%N by [].
exists (\matrix_(x, l) (us.1 x l / sqrtC ((const_mx 1 : 'cV_2) x 0))), us.2; split=> //.
rewrite /serial_stream_modes /serial_stream_eigs.
rewrite (modesE (const_mx 1) svd (@ex_stream C) (id_partition 2) Hov ord0 1 HK) (eigsE (const_mx 1) svd (@ex_stream C) (id_partition 2) Hov ord0 1 HK).
rewrite E; split=> // r; eexists; split; first reflexivity.
by move=> i j; rewrite !mxE.
Qed.

(* the same stream: the second snapshot completes the first block *)
Example C45_nonvacuous : forall (C : numClosedFieldType) svd, exists h,
  completed 2 0 (@sum0 C 1 (fun _ => 2%N)) (@contrib C (ex_config C) 1 (fun _ => 2%N)) (@mean_step C 1 (fun _ => 2%N))
    (basis_step (c := ex_config C) (fun (_ : 'I_1) (i : 'I_2) => i) (const_mx 1) svd) (@mean0 C 1 (fun _ => 2%N)) (@basis0 C (ex_config C) 1 (fun _ => 2%N))
    (local_stream (fun (_ : 'I_1) (i : 'I_2) => i) (@ex_stream C)) 1 = Some h.
Proof. by move=> C svd; eexists. Qed.
