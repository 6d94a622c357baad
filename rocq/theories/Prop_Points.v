(* C136: what the layout of the points contributes to batch SPOD. *)
From mathcomp Require Import all_ssreflect all_algebra.
From Verif Require Import Base_CRing Model_Spod Spec_Spod Proof_Spod Proof_Spectral Proof_Dft Proof_Spod2 Proof_Optimal Proof_Optimal2 Prop_Spod Prop_Optimal2 Prop_Spectrum.
Set Implicit Arguments.
Unset Strict Implicit.
Unset Printing Implicit Defensive.
Import GRing.Theory Num.Theory Order.TTheory.
Local Open Scope ring_scope.

(* ---- specification ---- *)
(* X' records, at each of its points i, the signal of point s i of X in units alpha i, and the weights w' of all copies of a point,
   in their units, add up to the weight of that point; a point without a copy has no weight *)
Definition copies (C : numClosedFieldType) n n' (s : 'I_n' -> 'I_n) (alpha : 'I_n' -> C)
    (X : nat -> 'I_n -> C) (w : 'cV[C]_n) (X' : nat -> 'I_n' -> C) (w' : 'cV[C]_n') : Prop :=
  (forall t i, X' t i = alpha i * X t (s i)) /\
  (forall x, w x 0 = \sum_(i | s i == x) `|alpha i| ^+ 2 * w' i 0).

Section Points.
Variable C : numClosedFieldType.
Add Ring Cring : (cr_th C).
Ltac cring := cr_norm C; ring.
Variable c : config C.
Lemma centred_unit (a : C) x b k : block_centred c (fun t => a * x t) b k = a * block_centred c x b k.
Proof.
have Hm : t_mean c (fun t => a * x t) = a * t_mean c x.
  by rewrite /t_mean; case: (mean_type c); rewrite ?mulr0 // -mulr_sumr mulrA.
rewrite /block_centred Hm; case: (mean_type c); rewrite ?mulrBr //.
rewrite (eq_bigr (fun j : 'I_(n_dft c) => a * (x (block_offset c b + j)%N - t_mean c x))) => [|j _]; last by rewrite mulrBr.
by rewrite -mulr_sumr mulrA.
Qed.
Lemma hat_unit (a : C) x b f : normalize_data c = false \/ a = 1 -> block_hat c (fun t => a * x t) b f = a * block_hat c x b f.
Proof.
have hyp k : normalize_data c = false \/ a = 1 -> block_windowed c (fun t => a * x t) b k = a * block_windowed c x b k.
  rewrite /block_windowed /block_normalized; case: (normalize_data c) => [] [] // E; first last.
  - by rewrite centred_unit mulrA.
  - by rewrite centred_unit mulrA.
  rewrite E mul1r; congr (_ * _); have Hc j : block_centred c (fun t => 1 * x t) b j = block_centred c x b j by rewrite centred_unit mul1r.
  have Hs : \sum_(j < n_dft c) block_centred c (fun t => 1 * x t) b j = \sum_(j < n_dft c) block_centred c x b j by apply: eq_bigr => j _; rewrite Hc.
  have -> : block_var c (block_centred c (fun t => 1 * x t) b) = block_var c (block_centred c x b).
    by rewrite /block_var Hs; congr (_ / _); apply: eq_bigr => j _; rewrite Hc.
  by rewrite Hc.
move=> Ha; rewrite /block_hat mulrCA; congr (_ * _); rewrite /dft mulr_sumr; apply: eq_bigr => k _.
by rewrite (hyp k Ha) -mulrA.
Qed.
Variables (n n' : nat) (s : 'I_n' -> 'I_n) (alpha : 'I_n' -> C).
Variables (X : nat -> 'I_n -> C) (w : 'cV[C]_n) (X' : nat -> 'I_n' -> C) (w' : 'cV[C]_n').
Hypothesis Hc : copies s alpha X w X' w'.
Hypothesis Ha : forall i, normalize_data c = false \/ alpha i = 1.
Lemma copy_hat f i b : q_hat c X' f i b = alpha i * q_hat c X f (s i) b.
Proof.
rewrite !mxE -hat_unit //; have [HX _] := Hc.
have Hm : t_mean c (fun t => X' t i) = t_mean c (fun t => alpha i * X t (s i)).
  by rewrite /t_mean; case: (mean_type c) => //; congr (_ / _); apply: eq_bigr => t _; rewrite HX.
have Hce k : block_centred c (fun t => X' t i) b k = block_centred c (fun t => alpha i * X t (s i)) b k.
  rewrite /block_centred Hm; case: (mean_type c) => /=; rewrite HX //; congr (_ - _ / _); by apply: eq_bigr => j _; rewrite HX.
have Hs : \sum_(j < n_dft c) block_centred c (fun t => X' t i) b j = \sum_(j < n_dft c) block_centred c (fun t => alpha i * X t (s i)) b j by apply: eq_bigr => j _; rewrite Hce.
have Hv : block_var c (block_centred c (fun t => X' t i) b) = block_var c (block_centred c (fun t => alpha i * X t (s i)) b).
  by rewrite /block_var Hs; congr (_ / _); apply: eq_bigr => j _; rewrite Hce.
rewrite /block_hat /dft; congr (_ * _); apply: eq_bigr => k _; congr (_ * _).
by rewrite /block_windowed /block_normalized Hv; case: (normalize_data c); rewrite Hce.
Qed.
Lemma copy_gram f : gram (q_hat c X' f) w' = gram (q_hat c X f) w.
Proof.
apply/matrixP => i j; rewrite !gramE; congr (_ * _); have [_ Hw] := Hc.
rewrite (partition_big s predT) //=; apply: eq_bigr => x _.
rewrite Hw mulr_sumr; apply: eq_bigr => y /eqP <-; rewrite !copy_hat rmorphM.
move: (q_hat c X f (s y) i) (q_hat c X f (s y) j) => u v; rewrite normCK; move: (w' y 0) => z; cring.
Qed.
End Points.

(* The reported eigenvalues do not change and each copy shows the mode of its point in its own units. In particular: the order of points
   and variables does not matter (s a permutation), a point may be split in copies that share its weight, points without weight may be left
   out, a variable may be expressed in other units if its weights are divided by the square. *)
Theorem C136_layout_of_points : forall (C : numClosedFieldType) (c : config C) eig argsort n n' (s : 'I_n' -> 'I_n) (alpha : 'I_n' -> C)
    X w X' w' size (nloc : 'I_size -> nat) (own : forall r, 'I_(nloc r) -> 'I_n)
    size' (nloc' : 'I_size' -> nat) (own' : forall r, 'I_(nloc' r) -> 'I_n'),
  partition_of own -> partition_of own' ->
  copies s alpha X w X' w' -> (forall i, normalize_data c = false \/ alpha i = 1) ->
  (forall f, run_eigs (c := c) eig argsort own' X' w' f = run_eigs eig argsort own X w f) /\
  (forall f H r (i : 'I_(nloc r)) r' (i' : 'I_(nloc' r')) k, s (own' r' i') = own r i ->
     run_modes (c := c) eig argsort own' X' w' r' f H i' k = alpha (own' r' i') * run_modes eig argsort own X w r f H i k).
Proof.
move=> C c eig argsort n n' s alpha X w X' w' size nloc own size' nloc' own' Hown Hown' Hc Ha.
have HL f : run_L (c := c) eig argsort own' X' w' f = run_L eig argsort own X w f.
  by rewrite /run_L (reduced_gram Hown) (reduced_gram Hown') (copy_gram Hc Ha).
have HV f : run_V (c := c) eig argsort own' X' w' f = run_V eig argsort own X w f.
  by rewrite /run_V (reduced_gram Hown) (reduced_gram Hown') (copy_gram Hc Ha).
split=> [f|f H r i r' i' k Hs]; first by rewrite /run_eigs HL.
rewrite /run_modes /kept_modes !mxE HL HV mulr_sumr; apply: eq_bigr => b _; rewrite mulrA; congr (_ * _).
have := copy_hat Hc Ha f (own' r' i') b; by rewrite !mxE /local_X Hs.
Qed.
Print Assumptions C136_layout_of_points.
(* point 0 split in two copies, the second recorded in half units *)
Example C136_nonvacuous (C : numClosedFieldType) :
  copies (n := 2) (n' := 3) (fun i => if i == lift ord0 ord0 then lift ord0 ord0 else ord0) (fun i => if i == ord0 then 1 else if i == lift ord0 ord0 then 1 else 2%:R)
    (fun t i => (t + i)%:R : C) (\col_i (if i == ord0 then 9%:R else 1))
    (fun t i => if i == ord0 then t%:R else if i == lift ord0 ord0 then (t + 1)%:R else (2 * t)%:R)
    (\col_i (if i == ord0 then 1 else if i == lift ord0 ord0 then 1 else 2%:R)).
Proof.
split=> [t i|x].
  by case: i => [[|[|[|i]]] Hi] //=; rewrite ?mul1r ?addn0 ?natrM // !mulr1.
rewrite mxE big_mkcond /= !big_ord_recl big_ord0 !mxE /=.
case: x => [[|[|x]] Hx] //=; rewrite ?normr1 ?expr1n ?mulr1 ?mul1r ?addr0 ?add0r //.
by rewrite ger0_norm ?ler0n // -natrX -natrM -(natrD _ 1).
Qed.

(* ---- C137: the end and the direction of time ---- *)
(* the same settings for a record of nt' snapshots *)
Definition with_nt (C : numClosedFieldType) (c : config C) (nt' : nat) : config C :=
  Config nt' (n_dft c) (n_overlap c) (n_blocks c) (n_freq c) (n_modes_save c) (mean_type c) (normalize_data c) (eps4 c) (window c)
    (isrealx c) (omega c) (c_level c) (gammaincinv c).
(* number of snapshots the blocks cover *)
Definition covered_length (C : numClosedFieldType) (c : config C) : nat := ((n_blocks c).-1 * (n_dft c - n_overlap c) + n_dft c)%N.

Section Time.
Variable C : numClosedFieldType.
Variable c : config C.
Lemma offset_fits b : (covered_length c <= nt c)%N -> (b < n_blocks c)%N -> block_offset c b = (b * (n_dft c - n_overlap c))%N.
Proof.
move=> Hn Hb; rewrite /block_offset (minn_idPl _) ?addnK //; apply: leq_trans Hn; rewrite leq_add2r leq_mul2r.
by apply/orP; right; rewrite -ltnS prednK // (leq_ltn_trans _ Hb).
Qed.
Lemma in_cover b k : (b < n_blocks c)%N -> (k < n_dft c)%N -> (b * (n_dft c - n_overlap c) + k < covered_length c)%N.
Proof.
move=> Hb Hk; rewrite /covered_length -addnS; apply: leq_add => //; rewrite leq_mul2r.
by apply/orP; right; rewrite -ltnS prednK // (leq_ltn_trans _ Hb).
Qed.
(* the transform of a block depends on the centred samples of the block only *)
Lemma hat_ext (c' : config C) x x' b b' f : n_dft c' = n_dft c -> normalize_data c' = normalize_data c -> eps4 c' = eps4 c -> window c' = window c -> omega c' = omega c ->
  (forall k, (k < n_dft c)%N -> block_centred c' x' b' k = block_centred c x b k) ->
  block_hat c' x' b' f = block_hat c x b f.
Proof.
move=> E1 E2 E3 E4 E5 H; rewrite /block_hat /win_weight /dft E1 E4 E5; congr (_ * _); apply: eq_bigr => k _; congr (_ * _).
have Hs : \sum_(j < n_dft c) block_centred c' x' b' j = \sum_(j < n_dft c) block_centred c x b j by apply: eq_bigr => j _; rewrite H.
have Hv : block_var c' (block_centred c' x' b') = block_var c (block_centred c x b).
  by rewrite /block_var E1 Hs; congr (_ / _); apply: eq_bigr => j _; rewrite H.
by rewrite /block_windowed /block_normalized Hv E2 E3 E4; case: (normalize_data c); rewrite H.
Qed.
End Time.

(* Snapshots behind the last block have no influence, unless the long-time mean is removed: then only through the mean. *)
Theorem C137_trailing_snapshots : forall (C : numClosedFieldType) (size : nat) (c : config C) (eig : 'M[C]_(n_blocks c) -> 'rV[C]_(n_blocks c) * 'M[C]_(n_blocks c)) (argsort : 'rV[C]_(n_blocks c) -> 'I_(n_blocks c) -> 'I_(n_blocks c)) n
    (nloc : 'I_size -> nat) (own : forall r, 'I_(nloc r) -> 'I_n) (X X' : nat -> 'I_n -> C) (w : 'cV[C]_n) nt',
  partition_of own -> (covered_length c <= nt c)%N -> (covered_length c <= nt')%N ->
  (forall t i, (t < covered_length c)%N -> X' t i = X t i) ->
  (mean_type c = Longtime -> forall i, (\sum_(t < nt') X' t i) / nt'%:R = (\sum_(t < nt c) X t i) / (nt c)%:R) ->
  let c' := with_nt c nt' in
  forall f, run_eigs (c := c') eig argsort own X' w f = run_eigs (c := c) eig argsort own X w f /\
    (forall r H, run_modes (c := c') eig argsort own X' w r f H = run_modes (c := c) eig argsort own X w r f H).
Proof.
move=> C size c eig argsort n nloc own X X' w nt' Hown H1 H2 HX Hm c' f.
have Hh i b : (b < n_blocks c)%N -> block_hat c' (fun t => X' t i) b f = block_hat c (fun t => X t i) b f.
  move=> Hb; apply: hat_ext => // k Hk.
  have Em : t_mean c' (fun t => X' t i) = t_mean c (fun t => X t i).
    by rewrite /t_mean /=; case: (mean_type c) Hm => // Hm; exact: Hm.
  have Eo : block_offset c' b = block_offset c b by rewrite !offset_fits.
  have Ex j : (j < n_dft c)%N -> X' (block_offset c b + j)%N i = X (block_offset c b + j)%N i.
    by move=> Hj; apply: HX; rewrite offset_fits // in_cover.
  rewrite /block_centred Em Eo /=; case: (mean_type c); rewrite ?Ex //.
  by congr (_ - _ / _); apply: eq_bigr => j _; rewrite Ex.
have HM : reduced_M c' own X' w f = reduced_M c own X w f.
  by apply: eq_bigr => r _; congr gram; apply/matrixP => i b; rewrite !mxE Hh.
have HL : run_L (c := c') eig argsort own X' w f = run_L (c := c) eig argsort own X w f by rewrite /run_L HM.
have HV : run_V (c := c') eig argsort own X' w f = run_V (c := c) eig argsort own X w f by rewrite /run_V HM.
split; first by rewrite /run_eigs HL.
move=> r H; rewrite /run_modes HL HV; congr (kept_modes H (all_modes _ _ _)).
by apply/matrixP => i b; rewrite !mxE Hh.
Qed.
Print Assumptions C137_trailing_snapshots.

Section Reverse.
Variable C : numClosedFieldType.
Variable c : config C.
Hypothesis Hom : (n_dft c).-primitive_root (omega c).
Hypothesis Hnt : nt c = covered_length c.
Hypothesis Hsym : forall k, (k < n_dft c)%N -> window c ((n_dft c).-1 - k)%N = window c k.
Notation N := (n_dft c).
Notation om := (omega c).
Variables x x' : nat -> C.
Hypothesis Hx : forall t, (t < nt c)%N -> x' t = x ((nt c).-1 - t)%N.
Lemma N_gt0 : (0 < N)%N. Proof. exact: n_gt0 Hom. Qed.
Lemma rev_mean : t_mean c x' = t_mean c x.
Proof.
rewrite /t_mean; case: (mean_type c) => //; congr (_ / _); rewrite [RHS](reindex_inj rev_ord_inj) /=.
by apply: eq_bigr => t _; rewrite Hx // subnS predn_sub.
Qed.
Lemma rev_block b : (b < n_blocks c)%N -> ((n_blocks c).-1 - b < n_blocks c)%N.
Proof. by move=> Hb; rewrite -[X in (_ < X)%N]prednK ?ltnS ?leq_subr // (leq_ltn_trans _ Hb). Qed.
Lemma rev_in k : (k < N)%N -> (N.-1 - k < N)%N.
Proof. by move=> Hk; rewrite -[X in (_ < X)%N]prednK ?ltnS ?leq_subr // N_gt0. Qed.
Lemma rev_sample b k : (b < n_blocks c)%N -> (k < N)%N ->
  x' (block_offset c b + k)%N = x (block_offset c ((n_blocks c).-1 - b) + (N.-1 - k))%N.
Proof.
move=> Hb Hk; rewrite !offset_fits ?Hnt ?rev_block // Hx ?Hnt ?in_cover //; congr x; rewrite /covered_length mulnBl.
set h := (N - n_overlap c)%N; have Hbh : (b * h <= (n_blocks c).-1 * h)%N by rewrite leq_mul2r -ltnS prednK ?Hb ?orbT // (leq_ltn_trans _ Hb).
have HN := N_gt0; move: Hbh Hk HN; move: (b * h)%N ((n_blocks c).-1 * h)%N N => u v M Huv Hk HM.
by rewrite -subn1 -addnBA // subn1 subnDA -addnBAC // addnBA // -ltnS prednK.
Qed.
Lemma rev_centred b k : (b < n_blocks c)%N -> (k < N)%N ->
  block_centred c x' b k = block_centred c x ((n_blocks c).-1 - b) (N.-1 - k).
Proof.
move=> Hb Hk; rewrite /block_centred rev_mean; case: (mean_type c); rewrite rev_sample //.
congr (_ - _ / _); rewrite [RHS](reindex_inj rev_ord_inj) /=; apply: eq_bigr => j _; rewrite rev_sample //; congr (x (_ + _)%N - _).
by rewrite subnS predn_sub.
Qed.
Lemma rev_sum (F G : nat -> C) : (forall k, (k < N)%N -> F k = G (N.-1 - k)%N) -> \sum_(k < N) F k = \sum_(k < N) G k.
Proof.
move=> H; rewrite [RHS](reindex_inj rev_ord_inj) /=; apply: eq_bigr => j _; rewrite H //; congr G.
by rewrite subnS predn_sub.
Qed.
Lemma rev_hat b f : (b < n_blocks c)%N -> (f <= N)%N ->
  block_hat c x' b f = om ^+ (f * N.-1) * block_hat c x ((n_blocks c).-1 - b) (N - f).
Proof.
move=> Hb Hf; rewrite /block_hat mulrCA; congr (_ * _); rewrite /dft mulr_sumr.
apply: (rev_sum (F := fun k => block_windowed c x' b k * om ^+ (f * k)) (G := fun k => om ^+ (f * N.-1) * (block_windowed c x ((n_blocks c).-1 - b) k * om ^+ ((N - f) * k)))) => k Hk.
have Hv : block_var c (block_centred c x' b) = block_var c (block_centred c x ((n_blocks c).-1 - b)).
  rewrite /block_var (rev_sum (G := block_centred c x ((n_blocks c).-1 - b))) => [|j Hj]; last exact: rev_centred.
  congr (_ / _); apply: (rev_sum (F := fun j => (block_centred c x' b j - _) ^+ 2) (G := fun j => (block_centred c x _ j - _) ^+ 2)) => j Hj.
  by rewrite rev_centred.
have Hwd : block_windowed c x' b k = block_windowed c x ((n_blocks c).-1 - b) (N.-1 - k).
  by rewrite /block_windowed /block_normalized Hv Hsym //; case: (normalize_data c); rewrite rev_centred.
rewrite Hwd mulrCA; congr (_ * _).
have Hkle : (k <= N.-1)%N by rewrite -ltnS prednK ?N_gt0.
apply: (mulIf (expf_neq0 (f * (N.-1 - k)) (w_neq0 Hom))); rewrite -mulrA -!exprD -!mulnDl -!mulnDr subnK // subnKC //.
by rewrite exprD [om ^+ (N * _)]exprM (prim_expr_order Hom) expr1n mulr1.
Qed.
End Reverse.

(* A record played backwards (whole number of blocks, symmetric window) has at every frequency the eigenvalues the record has at the mirrored
   frequency; for real data these are the same, so that the spectrum does not tell the direction of time. *)
Theorem C137_time_reversal : forall (C : numClosedFieldType) (size : nat) (c : config C) eig argsort n
    (nloc : 'I_size -> nat) (own : forall r, 'I_(nloc r) -> 'I_n) X X' (w : 'cV[C]_n) f,
  partition_of own -> (forall i, 0 <= w i 0) -> eig_ok eig -> eig_basis eig -> argsort_ok argsort ->
  (n_dft c).-primitive_root (omega c) -> nt c = covered_length c ->
  (forall k, (k < n_dft c)%N -> window c ((n_dft c).-1 - k)%N = window c k) ->
  (forall t i, (t < nt c)%N -> X' t i = X ((nt c).-1 - t)%N i) -> (f <= n_dft c)%N ->
  run_L (c := c) eig argsort own X' w f = run_L (c := c) eig argsort own X w (n_dft c - f) /\
  ((forall k, window c k \is Num.real) -> (forall t x, X t x \is Num.real) ->
     run_eigs (c := c) eig argsort own X' w f = run_eigs (c := c) eig argsort own X w f).
Proof.
move=> C size c eig argsort n nloc own X X' w f Hown Hw Heig Hinv Hsort Hom Hnt Hsym HX Hf.
have E : run_L (c := c) eig argsort own X' w f = run_L (c := c) eig argsort own X w (n_dft c - f).
  have HV := run_V_unit Hown X Hw Heig Hinv Hsort (n_dft c - f); have EV := run_diag argsort Hown X Hw Heig (n_dft c - f).
  have HD := run_desc Hown X Hw Heig Hsort (n_dft c - f).
  set V := run_V _ _ _ _ _ _ in HV EV; set L := run_L _ _ _ _ _ _ in EV HD; rewrite -/L; clearbody V L.
  set G := gram _ _ in EV.
  pose P : 'M[C]_(n_blocks c) := \matrix_(i, j) (j == rev_ord i)%:R.
  have PE m (A : 'M[C]_(n_blocks c, m)) i j : (P *m A) i j = A (rev_ord i) j.
    rewrite mxE (bigD1 (rev_ord i)) //= mxE eqxx mul1r big1 ?addr0 // => k Hk; by rewrite mxE (negbTE Hk) mul0r.
  have PP : P *m P = 1%:M by apply/matrixP => i j; rewrite PE !mxE rev_ordK eq_sym.
  have EG : gram (q_hat c X' f) w = P *m G *m P.
    apply/matrixP => i j; rewrite [RHS]mxE [RHS](bigD1 (rev_ord j)) //= [X in _ + X]big1 => [|k Hk]; last first.
      by rewrite [P _ _]mxE (_ : (j == rev_ord k) = false) ?mulr0 //; apply: contraNF Hk => /eqP ->; rewrite rev_ordK.
    rewrite addr0 PE [P _ _]mxE rev_ordK eqxx mulr1 !gramE; congr (_ * _); apply: eq_bigr => x _.
    have Hr b : q_hat c X' f x b = omega c ^+ (f * (n_dft c).-1) * q_hat c X (n_dft c - f) x (rev_ord b).
      rewrite !mxE (rev_hat (x := fun t => X t x) Hom Hnt Hsym) // => [|t Ht]; last exact: HX.
      by congr (_ * block_hat _ _ _ _); rewrite /= subnS predn_sub.
    rewrite !Hr rmorphM; set z := omega c ^+ _; have Hz : z^* * z = 1.
      by rewrite mulrC -normCK normrX (w_norm Hom) expr1n expr1n.
    move: (q_hat _ _ _ _ _) (q_hat _ _ _ _ _) => u v; rewrite mulrACA; by rewrite Hz mul1r.
  apply: (run_L_unique Hown Hw Heig Hinv Hsort (V := P *m V)) => //.
    rewrite unitmx_mul HV andbT; by case: (mulmx1_unit PP).
  by rewrite EG -!mulmxA (mulmxA P P) PP mul1mx EV.
split=> // Hwin Hre; rewrite /run_eigs E; congr eigs_of; exact: C114_mirrored_frequencies_agree.
Qed.
Print Assumptions C137_time_reversal.
(* the number of blocks of the program (base.py:433-435) always leaves the covered part within the record *)
Example C137_hypothesis_met : forall nt n_dft n_overlap, (n_overlap < n_dft <= nt)%N ->
  ((((nt - n_overlap) %/ (n_dft - n_overlap)).-1) * (n_dft - n_overlap) + n_dft <= nt)%N.
Proof.
move=> t d o /andP[Ho Hd]; set h := (d - o)%N; have Hh : (0 < h)%N by rewrite subn_gt0.
have Hq : (0 < (t - o) %/ h)%N by rewrite divn_gt0 // leq_sub2r.
have := leq_trunc_div (t - o) h; rewrite -[X in (X * h)%N](prednK Hq) mulSn => H.
have Ed : d = (h + o)%N by rewrite subnK // ltnW.
have := leq_add H (leqnn o); rewrite subnK ?(leq_trans (ltnW Ho)) // => H2.
by rewrite [X in (_ + X <= _)%N]Ed addnA [(_ * h + h)%N]addnC.
Qed.
Example C137_nonvacuous (C : numClosedFieldType) : exists c : config C,
  [/\ (n_dft c).-primitive_root (omega c), nt c = covered_length c, (0 < n_overlap c)%N, (1 < n_blocks c)%N &
      forall k, (k < n_dft c)%N -> window c ((n_dft c).-1 - k)%N = window c k].
Proof.
have [om Hom] := Prop_Spectrum.prim_root_exists C (isT : (0 < 4)%N).
exists (Config 10 4 1 3 3 2 Longtime false 0 (fun k => if (0 < k < 3)%N then 2%:R else 1) true om 0 (fun _ x => x)); split=> //.
by case=> [|[|[|[|k]]]].
Qed.
