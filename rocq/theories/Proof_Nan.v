(* missing values in the batch fit *)
From mathcomp Require Import all_ssreflect all_algebra.
From Verif Require Import Model_Spod Spec_Spod Spec_Nan Model_Nan Proof_Spod.
Set Implicit Arguments.
Unset Strict Implicit.
Unset Printing Implicit Defensive.
Import GRing.Theory Num.Theory Order.TTheory.
Local Open Scope ring_scope.

Section Sums.
Variable C : numClosedFieldType.
Lemma nsum_some (I : eqType) (r : seq I) (F : I -> option C) (G : I -> C) :
  (forall i, i \in r -> F i = Some (G i)) -> nsum r F = Some (\sum_(i <- r) G i).
Proof.
elim: r => [|a r IH] H /=; first by rewrite big_nil.
by rewrite big_cons H ?mem_head // IH // => i Hi; apply: H; rewrite inE Hi orbT.
Qed.
Lemma nsum_none (I : eqType) (r : seq I) (F : I -> option C) i : i \in r -> F i = None -> nsum r F = None.
Proof.
elim: r => // a r IH; rewrite inE /= => /orP [/eqP <- ->//|/IH H /H ->].
by case: (F a).
Qed.
Lemma nsum_isSome (I : eqType) (r : seq I) (F : I -> option C) : isSome (nsum r F) -> forall i, i \in r -> isSome (F i).
Proof. by move=> H i Hi; case E: (F i) => //; rewrite (nsum_none Hi E) in H. Qed.
Lemma nsum_enum_some (I : finType) (F : I -> option C) (G : I -> C) :
  (forall i, F i = Some (G i)) -> nsum (enum I) F = Some (\sum_i G i).
Proof. by move=> H; rewrite (nsum_some (G := G)) ?big_enum. Qed.
Lemma nsum_iota_some (m : nat) (F : nat -> option C) (G : nat -> C) :
  (forall i, (i < m)%N -> F i = Some (G i)) -> nsum (iota 0 m) F = Some (\sum_(i < m) G i).
Proof.
move=> H; rewrite (nsum_some (G := G)) => [|i]; last by rewrite mem_iota add0n => /andP [_ /H].
by rewrite -(big_mkord xpredT) /index_iota subn0.
Qed.
Lemma nsum_iota_none (m : nat) (F : nat -> option C) i : (i < m)%N -> F i = None -> nsum (iota 0 m) F = None.
Proof. by move=> H; apply: nsum_none; rewrite mem_iota. Qed.
Lemma ndiv_some (x y : C) : y != 0 -> ndiv (Some x) (Some y) = Some (x / y).
Proof. by rewrite /ndiv => /negbTE ->. Qed.
Lemma nsub_None (x : option C) : nsub x None = None. Proof. by case: x. Qed.
Lemma nmul_None (x : option C) : nmul x None = None. Proof. by case: x. Qed.
Lemma nadd_None (x : option C) : nadd x None = None. Proof. by case: x. Qed.
End Sums.

Section Series.
Variable C : numClosedFieldType.
Variable c : config C.
Hypothesis Hdft : (1 < n_dft c)%N.
Hypothesis Heps : 0 < eps4 c.
Hypothesis Hnt : (0 < nt c)%N.
Variables (x : nat -> option C) (xc : nat -> C).
Hypothesis Hx : forall t v, x t = Some v -> xc t = v.
Lemma dft0 : (n_dft c)%:R != 0 :> C.
Proof. by rewrite pnatr_eq0 -lt0n (ltn_trans _ Hdft). Qed.
Lemma dft1 : (n_dft c)%:R - 1 != 0 :> C.
Proof. by rewrite subr_eq0 pnatr_eq1 neq_ltn Hdft orbT. Qed.
Lemma x_some t : x t <> None -> x t = Some (xc t).
Proof. by case E: (x t) => [v|] // _; rewrite (Hx E). Qed.

Definition series_ok (b : nat) : Prop :=
  (forall k, (k < n_dft c)%N -> x (block_offset c b + k)%N <> None) /\
  (mean_type c = Longtime -> forall t, (t < nt c)%N -> x t <> None).
Lemma n_t_mean_some b : series_ok b -> n_t_mean c x = Some (t_mean c xc).
Proof.
move=> [_ H]; rewrite /n_t_mean /t_mean; case: (mean_type c) H => // /(_ erefl) H.
by rewrite (nsum_iota_some (G := xc)) => [|i /H /x_some //]; rewrite ndiv_some // pnatr_eq0 -lt0n.
Qed.
Lemma n_mean_block_some (q : nat -> option C) (qc : nat -> C) : (forall k, (k < n_dft c)%N -> q k = Some (qc k)) ->
  n_mean_block c q = Some ((\sum_(j < n_dft c) qc j) / (n_dft c)%:R).
Proof. by move=> H; rewrite /n_mean_block (nsum_iota_some H) ndiv_some // dft0. Qed.
Lemma n_centred_some b k : series_ok b -> (k < n_dft c)%N -> n_centred c x b k = Some (block_centred c xc b k).
Proof.
move=> H Hk; have Hm := n_t_mean_some H; rewrite /n_centred /block_centred Hm.
have Hq j : (j < n_dft c)%N -> nsub (x (block_offset c b + j)%N) (Some (t_mean c xc)) = Some (xc (block_offset c b + j)%N - t_mean c xc).
  by move=> /H.1 /x_some ->.
case: (mean_type c); rewrite ?Hq //.
by rewrite (n_mean_block_some Hq).
Qed.
Lemma n_normalized_some (q : nat -> option C) (qc : nat -> C) k : (forall k, (k < n_dft c)%N -> q k = Some (qc k)) ->
  (k < n_dft c)%N -> n_normalized c q k = Some (block_normalized c qc k).
Proof.
move=> H Hk; rewrite /n_normalized /block_normalized; case: (normalize_data c); last exact: H.
have -> : n_var c q = Some (block_var c qc).
  rewrite /n_var /block_var (n_mean_block_some H).
  rewrite (nsum_iota_some (G := fun j => (qc j - (\sum_(j < n_dft c) qc j) / (n_dft c)%:R) ^+ 2)); last by move=> i /H ->; rewrite expr2.
  by rewrite ndiv_some // dft1.
by rewrite H //; case: ifP => Hv; rewrite ndiv_some ?oner_neq0 //; apply: contraFN Hv => /eqP ->.
Qed.
Lemma n_hat_some b f : series_ok b -> n_hat c x b f = Some (block_hat c xc b f).
Proof.
move=> H; rewrite /n_hat (nsum_iota_some (G := fun k => block_windowed c xc b k * omega c ^+ (f * k))) // => k Hk.
by rewrite /n_windowed (n_normalized_some (qc := block_centred c xc b)) // => j Hj; apply: n_centred_some.
Qed.
(* a missing value of the block, or anywhere when the long-time mean is subtracted *)
Lemma n_centred_none b k : (k < n_dft c)%N -> x (block_offset c b + k)%N = None -> n_centred c x b k = None.
Proof. by move=> Hk E; rewrite /n_centred; case: (mean_type c); rewrite E. Qed.
Lemma n_windowed_none b k : n_centred c x b k = None -> n_windowed c x b k = None.
Proof. by move=> E; rewrite /n_windowed /n_normalized; case: (normalize_data c); rewrite E. Qed.
Lemma n_hat_none b f k : (k < n_dft c)%N -> n_centred c x b k = None -> n_hat c x b f = None.
Proof.
by move=> Hk /n_windowed_none E; rewrite /n_hat (nsum_iota_none Hk) // E.
Qed.
Lemma n_hat_none_mean b f t : mean_type c = Longtime -> (t < nt c)%N -> x t = None -> n_hat c x b f = None.
Proof.
move=> Em Ht E; apply: (@n_hat_none b f 0); first exact: ltn_trans Hdft.
by rewrite /n_centred Em /n_t_mean Em (nsum_iota_none Ht E) /= nsub_None.
Qed.
Lemma n_hat_iff b f : (n_hat c x b f = None) <-> (exists2 k, (k < n_dft c)%N & x (block_offset c b + k)%N = None) \/
   (mean_type c = Longtime /\ exists2 t, (t < nt c)%N & x t = None).
Proof.
split=> [E|[[k Hk Ex]|[Em [t Ht Ex]]]]; last exact: n_hat_none_mean Em Ht Ex.
  case: (pickP (fun k : 'I_(n_dft c) => ~~ isSome (x (block_offset c b + k)%N))) => [k|H1].
    by case Ek: (x _) => // _; left; exists k.
  case: (pickP (fun t : 'I_(nt c) => ~~ isSome (x t))) => [t|H2].
    case Et: (x t) => // _; case Em: (mean_type c); [by right; split=> //; exists t| |].
      by move: E; rewrite n_hat_some //; split=> [k Hk Ek|]; [move: (H1 (Ordinal Hk)); rewrite /= Ek|rewrite Em].
    by move: E; rewrite n_hat_some //; split=> [k Hk Ek|]; [move: (H1 (Ordinal Hk)); rewrite /= Ek|rewrite Em].
  move: E; rewrite n_hat_some //; split=> [k Hk Ek|_ t Ht Et]; first by move: (H1 (Ordinal Hk)); rewrite /= Ek.
  by move: (H2 (Ordinal Ht)); rewrite /= Et.
exact/(@n_hat_none b f k)/n_centred_none.
Qed.
End Series.

Section Fit.
Variable C : numClosedFieldType.
Variable c : config C.
Hypothesis Hl : layout_ok c.
Variable eig : 'M[C]_(n_blocks c) -> 'rV[C]_(n_blocks c) * 'M[C]_(n_blocks c).
Variable argsort : 'rV[C]_(n_blocks c) -> 'I_(n_blocks c) -> 'I_(n_blocks c).
Variables (size n : nat) (nloc : 'I_size -> nat) (own : forall r : 'I_size, 'I_(nloc r) -> 'I_n).
Hypothesis Hown : partition_of own.
Variables (X : nat -> 'I_n -> option C) (w : 'I_n -> option C).
Notation M := (n_M c own X w).
Definition bad (i : 'I_n) : Prop :=
  w i = None \/ exists2 t, X t i = None & in_a_block c t \/ (mean_type c = Longtime /\ (t < nt c)%N).

Lemma offsetE b : (b < n_blocks c)%N -> block_offset c b = (b * (n_dft c - n_overlap c))%N.
Proof.
move=> Hb; have [_ _ _ H _] := Hl; rewrite /block_offset (minn_idPl _) ?addnK //.
by apply: leq_trans H; rewrite leq_add2r leq_mul2r -ltnS prednK ?Hb ?orbT // (leq_trans _ Hb).
Qed.
Lemma layout_nt : (0 < nt c)%N.
Proof. by have [_ _ H1 H _] := Hl; apply: leq_trans H; rewrite addn_gt0 (ltn_trans _ H1) ?orbT. Qed.
(* no bad entry: everything is finite and equals the clean computation on any completion *)
Lemma good_hat (Xc : nat -> 'I_n -> C) i b f : completes X Xc -> ~ bad i -> (b < n_blocks c)%N ->
  n_hat c (fun t => X t i) b f = Some (block_hat c (fun t => Xc t i) b f).
Proof.
move=> Hc Hi Hb; have [_ _ H1 _ He] := Hl; apply: n_hat_some => //; first exact: layout_nt.
  by move=> t v; exact: Hc.
split=> [k Hk E|Em t Ht E]; apply: Hi; right.
  exists (block_offset c b + k)%N => //; left; exists b; split=> //.
  by rewrite offsetE // leq_addr ltn_add2l.
by exists t => //; right.
Qed.
Lemma good_w i : ~ bad i -> w i = Some (odflt 0 (w i)).
Proof. by move=> H; case E: (w i) => //; case: H; left. Qed.
Definition wc : 'cV[C]_n := \col_i odflt 0 (w i).
Lemma good_M (Xc : nat -> 'I_n -> C) (f : nat) (b b' : 'I_(n_blocks c)) : completes X Xc -> (forall i, ~ bad i) ->
  M f b b' = Some (reduced_M c own Xc wc f b b').
Proof.
move=> Hc Hg; rewrite /n_M (nsum_enum_some (G := fun r => gram (q_hat c (@local_X C size n nloc own Xc r) f) (local_w own wc r) b b')).
  by rewrite /reduced_M summxE.
move=> r; rewrite /n_local_M (nsum_enum_some (G := fun i => (block_hat c (fun t => Xc t (@own r i)) b f)^* * (block_hat c (fun t => Xc t (@own r i)) b' f * odflt 0 (w (@own r i))))).
  have [Hb _ _ _ _] := Hl; rewrite ndiv_some ?pnatr_eq0 -?lt0n //; congr Some.
  rewrite mulrC [RHS]mxE; congr (_ * _); rewrite [RHS]mxE; apply: eq_bigr => i _.
  by rewrite !mxE.
by move=> i; rewrite /n_q !(good_hat _ Hc) // (good_w (Hg _)).
Qed.
Lemma bad_M i f : bad i -> (f < n_freq c)%N -> exists b b' : 'I_(n_blocks c), M f b b' = None.
Proof.
move=> Hi Hf; have [Hb _ H1 H2 He] := Hl; pose xc := fun t => odflt 0 (X t i).
have [r [k Ek]] : exists r k, @own r k = i by have [g _ Hg] := Hown; exists (tag (g i)), (tagged (g i)); exact: Hg.
have Hxc : forall t v, X t i = Some v -> xc t = v by rewrite /xc => t v ->.
have [b [b' E]] : exists b b' : 'I_(n_blocks c), n_q c own X f k b = None \/ w (@own r k) = None /\ b = b'.
  case: Hi => [E|[t E [[b [Hb1 Hb2]]|[Em Ht]]]].
  - by exists (Ordinal Hb), (Ordinal Hb); right; rewrite Ek.
  - exists (Ordinal Hb1), (Ordinal Hb1); left; rewrite /n_q Ek /=; apply/(n_hat_iff H1 He layout_nt Hxc b f); left.
    move/andP: Hb2 => [Hb2 Hb3]; exists (t - b * (n_dft c - n_overlap c))%N; first by rewrite ltn_subLR.
    by rewrite offsetE // subnKC.
  - exists (Ordinal Hb), (Ordinal Hb); left; rewrite /n_q Ek; apply/(n_hat_iff H1 He layout_nt Hxc); right.
    by split=> //; exists t.
exists b, b'; rewrite /n_M (@nsum_none _ _ _ _ r) ?mem_enum // /n_local_M (@nsum_none _ _ _ _ k) ?mem_enum //.
by case: E => [->|[-> _]] //; rewrite !nmul_None.
Qed.
Lemma block_inside t : in_a_block c t -> (t < nt c)%N.
Proof.
move=> [b [Hb /andP [_ Ht]]]; have [_ _ _ H _] := Hl; apply: leq_trans Ht _; apply: leq_trans H.
by rewrite leq_add2r leq_mul2r -ltnS prednK ?Hb ?orbT // (leq_trans _ Hb).
Qed.
Lemma bad_dec : (exists i, bad i) \/ (forall i, ~ bad i).
Proof.
pose lt := if mean_type c is Longtime then true else false.
pose bb i := ~~ isSome (w i) || [exists t : 'I_(nt c), ~~ isSome (X t i) &&
   ([exists b : 'I_(n_blocks c), (b * (n_dft c - n_overlap c) <= t < b * (n_dft c - n_overlap c) + n_dft c)%N] || lt)].
have H i : bad i <-> bb i.
  rewrite /bb; split=> [[->//|[t E Ht]]|/orP [|/existsP [t /andP [E Ht]]]].
  - have Ht' : (t < nt c)%N by case: Ht => [/block_inside //|[]].
    apply/orP; right; apply/existsP; exists (Ordinal Ht'); rewrite /= E /=; apply/orP.
    case: Ht => [[b [Hb Hb2]]|[Em _]]; last by right; rewrite /lt Em.
    by left; apply/existsP; exists (Ordinal Hb).
  - by case E: (w i) => // _; left.
  - right; exists t; first by case: (X t i) E.
    case/orP: Ht => [/existsP [b Hb]|]; first by left; exists b; rewrite ltn_ord.
    by rewrite /lt; case: (mean_type c) => // _; right; rewrite ltn_ord.
case: (pickP bb) => [i Hi|Hn]; first by left; exists i; apply/H.
by right=> i /H; rewrite Hn.
Qed.
Lemma fit_batch_raises : (exists i, bad i) -> fit_batch eig argsort own X w = LinAlgError.
Proof.
move=> [i Hi]; rewrite /fit_batch; case: ifP => // /forallP H.
have [_ Hf _ _ _] := Hl; have [b [b' E]] := bad_M Hi Hf.
by move/forallP: (H (Ordinal Hf)) => /(_ b) /forallP /(_ b'); rewrite /= E.
Qed.
Lemma fit_batch_returns (Xc : nat -> 'I_n -> C) : completes X Xc -> (forall i, ~ bad i) ->
  exists R, [/\ fit_batch eig argsort own X w = Returned R,
    (forall f, b_eigs R f = run_eigs eig argsort own Xc wc f) &
    forall r f i k, b_modes R f i k = Some (all_modes (q_hat c (@local_X C size n nloc own Xc r) f) (run_L eig argsort own Xc wc f) (run_V eig argsort own Xc wc f) i k)].
Proof.
move=> Hc Hg; have HV f : value_M c own X w f = reduced_M c own Xc wc f.
  by apply/matrixP => b b'; rewrite [LHS]mxE (good_M _ _ _ Hc Hg).
have Hfin : finite_M c own X w.
  by apply/forallP => f; apply/forallP => b; apply/forallP => b'; rewrite (good_M _ _ _ Hc Hg).
rewrite /fit_batch Hfin; eexists; split; first reflexivity.
  by move=> f /=; rewrite /n_L HV.
move=> r f i k /=; rewrite /n_modes /n_V /n_L HV.
rewrite (nsum_enum_some (G := fun b : 'I_(n_blocks c) => block_hat c (fun t => Xc t (@own r i)) b f * (run_V eig argsort own Xc wc f b k * (sqrtC (n_blocks c)%:R * sqrtC (run_L eig argsort own Xc wc f 0 k))^-1))) //.
  congr Some; rewrite [RHS]mxE; apply: eq_bigr => b _; congr (_ * _); last by rewrite [RHS]mxE.
  by rewrite [RHS]mxE.
by move=> b; rewrite /n_q (good_hat _ Hc).
Qed.
End Fit.
