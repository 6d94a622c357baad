(* Property theorems C154, C155 and the exact outcome for C86: missing values (NaN). *)
From Coq Require Import List PeanoNat.
From Verif Require Import Model_Streaming Proof_Streaming.
From mathcomp Require Import all_ssreflect all_algebra.
From Verif Require Import Model_Spod Spec_Spod Spec_Stream Spec_StreamTime Spec_StreamNum Model_StreamNum Proof_Spod Proof_StreamAlg Proof_StreamNum Proof_StreamNum2 Proof_StreamNum3.
From Verif Require Import Spec_Nan Model_Nan Proof_Nan Proof_NanStream.
Set Implicit Arguments.
Unset Strict Implicit.
Unset Printing Implicit Defensive.
Import GRing.Theory Num.Theory Order.TTheory.
Local Open Scope ring_scope.

(* ---- C154 ---- *)
(* the batch fit raises iff a weight is missing or a value is missing in a block, or anywhere when the long-time mean is
   subtracted; on any number of processes, whatever the weight of the entry (zero, for instance) *)
Theorem C154_raises_iff : forall (C : numClosedFieldType) (c : config C) eig argsort size n (nloc : 'I_size -> nat)
    (own : forall r : 'I_size, 'I_(nloc r) -> 'I_n) (X : nat -> 'I_n -> option C) (w : 'I_n -> option C),
  layout_ok c -> partition_of own ->
  fit_batch (c := c) eig argsort own X w = LinAlgError <->
  (exists i, w i = None) \/ (exists t i, X t i = None /\ (in_a_block c t \/ (mean_type c = Longtime /\ (t < nt c)%N))).
Proof.
move=> C c eig argsort size n nloc own X w Hl Hown; split=> [E|H]; last first.
  by apply: fit_batch_raises => //; case: H => [[i E]|[t [i [E H]]]]; exists i; [left|right; exists t].
have [[i [Ei|[t Et Ht]]]|H] := bad_dec Hl X w; [by left; exists i|by right; exists t, i|].
have Hc : completes X (fun t i => odflt 0 (X t i)) by move=> t i v ->.
by have [R [ER _ _]] := fit_batch_returns Hl eig argsort own Hc H; rewrite ER in E.
Qed.
Print Assumptions C154_raises_iff.
(* when it returns, every saved number is a number, and the results are those of the clean algorithm on the record with the
   missing values filled in in any way: they do not matter *)
Theorem C154_otherwise_the_clean_result : forall (C : numClosedFieldType) (c : config C) eig argsort size n (nloc : 'I_size -> nat)
    (own : forall r : 'I_size, 'I_(nloc r) -> 'I_n) (X : nat -> 'I_n -> option C) (w : 'I_n -> option C) R (Xc : nat -> 'I_n -> C) (wc : 'cV[C]_n)
    (H : (n_modes_save c <= n_blocks c)%N),
  layout_ok c -> partition_of own -> fit_batch (c := c) eig argsort own X w = Returned R ->
  completes X Xc -> (forall i v, w i = Some v -> wc i 0 = v) ->
  (forall f, b_eigs R f = run_eigs eig argsort own Xc wc f) /\
  (forall r f i k, b_modes R f i (widen_ord H k) = Some (run_modes eig argsort own Xc wc r f H i k)).
Proof.
move=> C c eig argsort size n nloc own X w R Xc w' H Hl Hown E Hc Hw.
have [Hb|Hg] := bad_dec Hl X w; first by rewrite (fit_batch_raises Hl eig argsort Hown Hb) in E.
have Ew : wc w = w'.
  apply/matrixP => i j; rewrite [j]ord1 mxE; case Ei: (w i) => [v|]; first by rewrite (Hw _ _ Ei).
  by case: (Hg i); left.
have [R' [ER HE HM]] := fit_batch_returns Hl eig argsort own Hc Hg.
rewrite ER in E; case: E => <-; rewrite -Ew; split=> // r f i k.
by rewrite HM /run_modes /kept_modes [in RHS]mxE.
Qed.
Print Assumptions C154_otherwise_the_clean_result.

(* normalize_weights: serially the missing values are left out of the variance, in parallel a single one, wherever it is, makes
   the weights of its variable NaN and the fit raises, for every order and bracketing of the reduction *)
Section Tree.
Variable C : numClosedFieldType.
Variable c : config C.
Variables (n : nat) (var_of : 'I_n -> nat) (X : nat -> 'I_n -> option C) (w : 'I_n -> option C).
Variables (size : nat) (nloc : 'I_size -> nat) (own : forall r : 'I_size, 'I_(nloc r) -> 'I_n).
Lemma local_missing r (i : 'I_(nloc r)) t : (t < nt c)%N -> X t (own i) = None ->
  exists N, local_stat c var_of X own (var_of (own i)) r = (N, None, None).
Proof.
move=> Ht E; rewrite /local_stat.
have Hin : None \in local_values c var_of X own (var_of (own i)) r.
  apply/allpairsPdep; exists t, i; split=> //; first by rewrite mem_iota.
  by rewrite mem_filter eqxx mem_enum.
by rewrite (nsum_none Hin erefl) (nsum_none Hin) //=; eexists.
Qed.
Lemma reduce_missing v t r : r \in leaves t -> (exists N, local_stat c var_of X own v r = (N, None, None)) ->
  exists N, reduce c var_of X own v t = (N, None, None).
Proof.
elim: t => [q|a IHa b IHb] /=; first by rewrite inE => /eqP ->.
rewrite mem_cat => /orP [/IHa|/IHb] H /H [N ->] /=; first by case: (reduce _ _ _ _ _ b) => [[nb mb] vb] /=; eexists.
by case: (reduce _ _ _ _ _ a) => [[na ma] va] /=; rewrite !nadd_None; eexists.
Qed.
End Tree.
Theorem C154_parallel_normalisation : forall (C : numClosedFieldType) (c : config C) eig argsort size n (nloc : 'I_size -> nat)
    (own : forall r : 'I_size, 'I_(nloc r) -> 'I_n) (X : nat -> 'I_n -> option C) (w : 'I_n -> option C) var_of (tree : rtree size) t i,
  layout_ok c -> partition_of own -> (forall r, r \in leaves tree) ->
  (t < nt c)%N -> X t i = None ->
  fit_batch (c := c) eig argsort own X (parallel_weights c var_of X w own tree) = LinAlgError.
Proof.
move=> C c eig argsort size n nloc own X w var_of tree t i Hl Hown Ht Hlt E.
apply/C154_raises_iff => //; left; exists i; rewrite /parallel_weights.
have [r [p Ep]] := own_surj Hown i; subst i.
have [N EN] := reduce_missing (Ht r) (@local_missing _ c n var_of X size nloc own r p t Hlt E).
by rewrite EN /=; case: (w _).
Qed.
Print Assumptions C154_parallel_normalisation.
(* serially the same record is fitted when no missing value lies in a block, the long-time mean is not subtracted and the values
   present of every variable vary *)
Theorem C154_serial_normalisation : forall (C : numClosedFieldType) (c : config C) eig argsort n
    (X : nat -> 'I_n -> option C) (w : 'I_n -> option C) var_of,
  layout_ok c -> (forall i, w i <> None) -> (forall i, exists v, nanvar c var_of X (var_of i) = Some v /\ v != 0) ->
  mean_type c <> Longtime -> (forall t i, in_a_block c t -> X t i <> None) ->
  exists R, fit_batch (c := c) eig argsort (fun (_ : 'I_1) (i : 'I_n) => i) X (serial_weights c var_of X w) = Returned R.
Proof.
move=> C c eig argsort n X w var_of Hl Hw Hv Hm Hb.
case E: (fit_batch _ _ _ _ _) => [|R]; last by exists R.
move/C154_raises_iff: E => /(_ Hl (id_partition n)) [[i]|[t [i [E [Ht|[Em _]]]]]]; [|by case: (Hb t i Ht)|by case: Hm].
rewrite /serial_weights; have [v [-> H0]] := Hv i; case Ew: (w i) => [x|]; last by case: (Hw i).
by rewrite ndiv_some.
Qed.
Print Assumptions C154_serial_normalisation.

(* ---- C155 ---- *)
Lemma start_spec (C : numClosedFieldType) (c : config C) j : stream_start (n_dft c) (n_dft c - n_overlap c) j = start (n_dft c) (n_overlap c) j.
Proof. by []. Qed.
(* a missing value at or before the completion of a block ends the streaming fit with an exception *)
Theorem C155_missing_value_raises : forall (C : numClosedFieldType) (c : config C) size n (nloc : 'I_size -> nat)
    (own : forall r : 'I_size, 'I_(nloc r) -> 'I_n) (w : 'cV[C]_n) svd (X : nat -> 'I_n -> option C) N t t0 i,
  partition_of own -> (n_overlap c < n_dft c)%N -> (0 < n_freq c)%N ->
  (t < N)%N -> completes_a_block c t -> (t0 <= t)%N -> X t0 i = None ->
  fit_stream (c := c) own w svd X N = LinAlgError.
Proof.
move=> C c size n nloc own w svd X N t t0 i Hown Hov Hf HtN [j Ej] Ht0 E.
have [K HK] := due_exists Hov N; rewrite /fit_stream (n_streamE w svd own Hov X HK).
have HjK : (j < K)%N.
  rewrite ltnNge; apply/negP => HKj; have [H1 _] := HK; move/ssrnat.ltP: H1; rewrite ltnNge => /negP; apply.
  have Hov' : (n_overlap c < n_dft c)%coq_nat by apply/ssrnat.ltP.
  have Hm : (start (n_dft c) (n_overlap c) K <= start (n_dft c) (n_overlap c) j)%N.
    move: HKj; rewrite leq_eqVlt => /orP [/eqP -> //|/ssrnat.ltP /(start_mono Hov') /ssrnat.leP]; exact: leq_trans (leq_addr _ _).
  apply: leq_trans (_ : t.+1 <= N)%N => //.
  by rewrite Ej start_spec leq_add2r.
rewrite (nb_raised HjK) //; apply: (step_missing w svd Hown Hov _ E) => //.
by rewrite -start_spec -Ej ltnS.
Qed.
Print Assumptions C155_missing_value_raises.
(* the last block complete after N snapshots *)
Lemma done_full (C : numClosedFieldType) (c : config C) n (X : nat -> 'I_n -> option C) N K :
  (n_overlap c < n_dft c)%N -> due (n_dft c) (n_overlap c) N K ->
  (forall t t0 i, (t < N)%N -> completes_a_block c t -> (t0 <= t)%N -> X t0 i <> None) ->
  forall j, (j < K)%N -> full X (start (n_dft c) (n_overlap c) j + n_dft c).
Proof.
move=> Hov [_ H2] H j /ssrnat.ltP /H2 /ssrnat.leP Hj t0 i Ht0.
have Hd : (0 < n_dft c)%N by apply: leq_ltn_trans Hov.
set s := (start _ _ j + n_dft c)%N in Hj Ht0 *; have Hs : (0 < s)%N by rewrite addn_gt0 Hd orbT.
apply: (H s.-1 t0 i); first by rewrite prednK.
  by exists j; rewrite prednK.
by rewrite -ltnS prednK.
Qed.
(* without one, the missing values do not matter: the fit is that of the record filled in in any way. It returns finite results, those
   of C45-C48, at all frequencies, except NaN modes where the weight is zero; or else, when some block adds nothing to the basis (C86), it raises
   or returns modes that are NaN throughout at some frequency *)
Theorem C155_otherwise_the_clean_result : forall (C : numClosedFieldType) (c : config C) size n (nloc : 'I_size -> nat)
    (own : forall r : 'I_size, 'I_(nloc r) -> 'I_n) (w : 'cV[C]_n) svd (X : nat -> 'I_n -> option C) (Xc : nat -> 'cV[C]_n) N,
  partition_of own -> (n_overlap c < n_dft c)%N -> (0 < n)%N -> (0 < n_modes_save c)%N ->
  (forall t t0 i, (t < N)%N -> completes_a_block c t -> (t0 <= t)%N -> X t0 i <> None) ->
  completes X (fun t i => Xc t i 0) ->
  let defined := forall r f, (f < n_freq c)%N -> stream_modes (c := c) own w svd Xc N r f <> None in
  (defined -> exists R, fit_stream (c := c) own w svd X N = Returned R /\
     forall r f, (f < n_freq c)%N -> exists M e,
       [/\ stream_modes own w svd Xc N r f = Some M, stream_eigs own w svd Xc N r f = Some e, s_eigs R r f = e &
           forall i j, s_modes R f i j = if w (own r i) 0 == 0 then None else Some (M i j)]) /\
  (~ defined -> fit_stream (c := c) own w svd X N = LinAlgError \/
     exists R f, [/\ fit_stream (c := c) own w svd X N = Returned R, (f < n_freq c)%N & forall r (i : 'I_(nloc r)) j, s_modes R f i j = None]).
Proof.
move=> C c size n nloc own w svd X Xc N Hown Hov Hn Hk Hfull HX defined.
have [K HK] := due_exists Hov N; have Hf := done_full Hov HK Hfull.
have HM r f := modesE w svd Xc Hown Hov r f HK; have He r f := eigsE w svd Xc Hown Hov r f HK.
have [g _ Hg] := Hown; have r0 : 'I_size := tag (g (Ordinal Hn)).
rewrite /fit_stream (n_streamE w svd own Hov X HK).
case: (nb_state w svd Hown HX Hn Hk Hf) => [[B [E HB]]|[B [f [E [HB [HK0 Hprev]]]]]|[E [f Hfr Eg]]]; rewrite E; split=> HD.
- eexists; split; first reflexivity; move=> r f Hfr; have [us [Eg HU]] := HB f Hfr.
  exists (\matrix_(i, l) (us.1 (own r i) l / sqrtC (w (own r i) 0))), us.2; split=> /=; rewrite ?HM ?He ?Eg //.
    exact: (HU r).2.
  by move=> i j; rewrite (HU r).1 /ndiv /sqrt_w sqrtC_eq0; case: ifP => // _; rewrite mxE.
- case: HD => r f Hfr; have [us [Eg _]] := HB f Hfr; by rewrite HM Eg.
- case: (HD r0 f); first by case: HB.
  by rewrite HM; case: HB => _ -> _.
- right; eexists; exists f; split; first reflexivity; first by case: HB.
  by move=> r i j /=; case: HB => _ _ ->.
- case: (HD r0 f) => //; rewrite HM (gb_none (leq_pred K) Eg) //.
- by left.
Qed.
Print Assumptions C155_otherwise_the_clean_result.

(* ---- C86, exact outcome ---- *)
Lemma svd0 (C : numClosedFieldType) m (svd : 'M[C]_m -> 'M[C]_m * 'rV[C]_m) : svd_ok svd -> (svd 0).2 = 0.
Proof.
move=> H; have [HU [V [HV E]]] := svdP 0 H.
have E0 : diag_mx (svd 0).2 = 0.
  transitivity (adj (svd 0).1 *m (0 : 'M_m) *m V); last by rewrite mulmx0 mul0mx.
  by rewrite {3}E !mulmxA HU mul1mx -mulmxA HV mulmx1.
by apply/matrixP => i j; rewrite [i]ord1; move/matrixP: E0 => /(_ j j); rewrite !mxE eqxx mulr1n.
Qed.
(* a stream of equal snapshots: after exactly one block the fit returns zero eigenvalues and modes that are NaN everywhere, after more blocks it raises *)
Theorem C86_constant_stream_outcome : forall (C : numClosedFieldType) (c : config C) size n (nloc : 'I_size -> nat)
    (own : forall r : 'I_size, 'I_(nloc r) -> 'I_n) (w : 'cV[C]_n) svd (x : 'I_n -> C) N K,
  partition_of own -> (n_overlap c < n_dft c)%N -> (0 < n)%N -> (0 < n_modes_save c)%N -> (0 < n_freq c)%N -> svd_ok svd ->
  blocks_done (n_dft c) (n_dft c - n_overlap c) N K ->
  (K = 1%N -> exists R, fit_stream (c := c) own w svd (fun _ i => Some (x i)) N = Returned R /\
     forall r f, (f < n_freq c)%N -> s_eigs R r f = 0 /\ forall i j, s_modes R (r := r) f i j = None) /\
  ((1 < K)%N -> fit_stream (c := c) own w svd (fun _ i => Some (x i)) N = LinAlgError).
Proof.
move=> C c size n nloc own w svd x N K Hown Hov Hn Hk Hf Hsvd HK.
pose Xc := fun _ : nat => \col_i x i : 'cV[C]_n; pose X := fun (_ : nat) i => Some (x i).
have HX : completes X (fun t i => Xc t i 0) by move=> t i v [<-]; rewrite /Xc mxE.
have Hd : (0 < n_dft c)%N by apply: leq_ltn_trans Hov.
have Hfull m : full X m by [].
rewrite /fit_stream (n_streamE w svd own Hov X HK).
have HB0 : finite_basis w svd own Xc (fun r f => (fun _ _ => Some 0, 0)) 0.
  by move=> f _; exists (0, 0); split=> // r; split=> // i j; rewrite mxE.
have [B' [E' H']] := step_finite Hown HX (Hfull _) (erefl : nb w svd own X 0 = Returned _) HB0.
have Hnan f : (f < n_freq c)%N -> forall r, (forall i j, (B' r f).1 i j = None) /\ (B' r f).2 = 0.
  move=> Hfr; move: (H' f Hfr); have -> : gbasis (c := c) w svd Xc f 1 = None by apply: const_none.
  move=> [us [[<-] Hr]] r; have [H1 H2] := Hr r; split=> //; rewrite H2 /gS /=.
  rewrite const_xw // /gabs /gup mul0mx subr0 mulmx0 mxE sqrtC0 /gUx.
  have -> : K_mx 1 (0 : 'rV[C]_(n_modes_save c)) (adj (0 : 'M_(n, _)) *m (0 : 'cV[C]_n)) 0 = 0.
    rewrite /K_mx mulmx0 (_ : diag_mx 0 = 0) ?scaler0; last by apply/matrixP => i j; rewrite !mxE mul0rn.
    by rewrite (_ : 0%:M = 0 :> 'M_1) ?raddf0 // !row_mx0 col_mx0 scaler0.
  by rewrite svd0 //; apply/matrixP => i j; rewrite !mxE.
split=> [EK|HK1].
  rewrite EK E'; eexists; split; first reflexivity; move=> r f Hfr /=.
  by have [H1 H2] := Hnan f Hfr r; split=> // i j; rewrite H1.
rewrite (nb_raised HK1) //; apply: (@step_nan _ _ _ w svd _ _ _ Hown X Xc Hn Hk 1 B' 0) => //.
split=> //; first exact: const_none.
by move=> r i j; have [->] := Hnan 0%N Hf r.
Qed.
Print Assumptions C86_constant_stream_outcome.
(* as many modes as entries: from the second block on that finds the basis full the fit raises *)
Theorem C86_full_basis_raises : forall (C : numClosedFieldType) (c : config C) size n (nloc : 'I_size -> nat)
    (own : forall r : 'I_size, 'I_(nloc r) -> 'I_n) (w : 'cV[C]_n) svd (X : nat -> 'I_n -> C) N K,
  partition_of own -> (n_overlap c < n_dft c)%N -> (0 < n)%N -> (n <= n_modes_save c)%N -> (0 < n_freq c)%N -> svd_ok svd ->
  blocks_done (n_dft c) (n_dft c - n_overlap c) N K -> (n.+1 < K)%N ->
  fit_stream (c := c) own w svd (fun t i => Some (X t i)) N = LinAlgError.
Proof.
move=> C c size n nloc own w svd X N K Hown Hov Hn Hk Hf Hsvd HK HnK.
pose Xc := fun t => \col_i X t i : 'cV[C]_n; pose Xo := fun t i => Some (X t i).
have HX : completes Xo (fun t i => Xc t i 0) by move=> t i v [<-]; rewrite /Xc mxE.
rewrite /fit_stream (n_streamE w svd own Hov Xo HK).
have Hnone L f : (n < L)%N -> gbasis (c := c) w svd Xc f L = None by move=> HL; apply: gbasis_full.
have HnK1 : (n < K.-1)%N by rewrite -ltnS prednK // (leq_trans _ HnK).
case: (nb_state w svd Hown HX Hn (leq_trans Hn Hk) (K := K)) => //; last by case=> ->.
  by move=> [B [E HB]]; have [us [Eg _]] := HB 0%N Hf; rewrite Hnone // ltnW in Eg.
by move=> [B [f [_ [_ [_ H]]]]]; have [us Eg] := H 0%N Hf; rewrite Hnone in Eg.
Qed.
Print Assumptions C86_full_basis_raises.

(* ---- the hypotheses are met: five snapshots, two blocks of two, one entry; the last snapshot is in no block and its value is missing ---- *)
Definition nan_config (C : numClosedFieldType) (m : mean_kind) : config C :=
  Config 5 2 0 2 2 2 m false 1 (fun _ => 1) false (-1) 0 (fun _ _ => 0).
Definition nan_record (C : numClosedFieldType) (t : nat) (i : 'I_1) : option C := if t == 4%N then None else Some (odd t)%:R.
Lemma nan_layout (C : numClosedFieldType) m : layout_ok (nan_config C m).
Proof. by split=> //=; rewrite ltr01. Qed.
Lemma nan_outside (C : numClosedFieldType) m t i : in_a_block (nan_config C m) t -> @nan_record C t i <> None.
Proof. by move=> [[|[|b]] [// _]] /=; move: t => [|[|[|[|[|t]]]]]. Qed.
Lemma nan_variance (C : numClosedFieldType) m (i : 'I_1) : exists v, nanvar (nan_config C m) (fun _ => 0%N) (@nan_record C) 0 = Some v /\ v != 0.
Proof.
rewrite /nanvar (_ : present _ _ _ _ = [:: 0; 1; 0; 1]); last first.
  by rewrite /present /= (_ : [seq i <- enum 'I_1 | 0%N == 0%N] = [:: ord0]) ?filter_predT ?enum_ordSl ?(size0nil (size_enum_ord 0)) //=; case: (enum 'I_0) (size_enum_ord 0).
eexists; split; first reflexivity.
rewrite !big_cons !big_nil /= !addr0 !add0r mulf_neq0 ?invr_eq0 ?pnatr_eq0 //.
have -> : (1 + 1) / 4%:R = 2%:R^-1 :> C.
  rewrite -[1 + 1]/(2%:R) -[4%N]/(2 * 2)%N natrM invfM mulrA divff ?pnatr_eq0 // mul1r //.
have H : 2%:R^-1 * 2%:R = 1 :> C by rewrite mulVf // pnatr_eq0.
have Hr : 0 < 2%:R^-1 :> C by rewrite invr_gt0 ltr0n.
have -> : 1 - 2%:R^-1 = 2%:R^-1 :> C by apply/eqP; rewrite subr_eq -mulr2n -(mulr_natr (2%:R^-1) 2) H.
by rewrite !sqrrN; apply: lt0r_neq0; rewrite !addr_gt0 ?exprn_gt0.
Qed.
Example C154_nonvacuous : forall (C : numClosedFieldType) eig argsort,
  [/\ (* block mean: fitted *) exists R, fit_batch (c := nan_config C Blockwise) eig argsort (fun (_ : 'I_1) (i : 'I_1) => i) (@nan_record C) (fun _ => Some 1) = Returned R,
      (* long-time mean: raises *) fit_batch (c := nan_config C Longtime) eig argsort (fun (_ : 'I_1) (i : 'I_1) => i) (@nan_record C) (fun _ => Some 1) = LinAlgError,
      (* weights normalised serially: fitted *) exists R, fit_batch (c := nan_config C Blockwise) eig argsort (fun (_ : 'I_1) (i : 'I_1) => i) (@nan_record C)
        (serial_weights (nan_config C Blockwise) (fun _ => 0%N) (@nan_record C) (fun _ => Some 1)) = Returned R
    & (* normalised in parallel, here on one process: raises *) fit_batch (c := nan_config C Blockwise) eig argsort (fun (_ : 'I_1) (i : 'I_1) => i) (@nan_record C)
        (parallel_weights (nan_config C Blockwise) (fun _ => 0%N) (@nan_record C) (fun _ => Some 1) (fun (_ : 'I_1) (i : 'I_1) => i) (Leaf ord0)) = LinAlgError].
Proof.
move=> C eig argsort; split.
- case E: (fit_batch _ _ _ _ _) => [|R]; last by exists R.
  move/C154_raises_iff: E => /(_ (nan_layout C Blockwise) (id_partition 1)) [[i]//|[t [i [E [Ht|[]//]]]]].
  by case: (@nan_outside C Blockwise t i Ht).
- apply/C154_raises_iff; [exact: nan_layout|exact: id_partition|right; exists 4%N, ord0; split=> //; by right].
- apply: C154_serial_normalisation => //; [exact: nan_layout|by move=> i; apply: nan_variance|by move=> t i; apply: nan_outside].
- apply: (@C154_parallel_normalisation _ _ _ _ _ _ _ _ _ _ _ _ 4 ord0) => //; [exact: nan_layout|exact: id_partition|by move=> r; rewrite inE [r]ord1].
Qed.
(* a stream: the first block completes at snapshot 1, the second at snapshot 4 *)
Example C155_nonvacuous : forall (C : numClosedFieldType), let c := nan_config C Blockwise in
  [/\ completes_a_block c 1, completes_a_block c 4, ~ completes_a_block c 2 & ~ completes_a_block c 3] /\
  (forall t t0 (i : 'I_2), (t < 4)%N -> completes_a_block c t -> (t0 <= t)%N -> (fun t (i : 'I_2) => if t == 3%N then None else Some (t%:R : C)) t0 i <> None).
Proof.
move=> C c; have H j : stream_start 2 2 j = (3 * j)%N by rewrite /stream_start (_ : windows_open 2 2 = 1%N) // Nat.div_1_r multE plusE -[3%N]/(2 + 1)%N mulnDl mul1n mulnC.
split.
  split; [by exists 0%N|by exists 1%N| |].
    by move=> [[|[|j]]]; rewrite /= H // mulnS mulnS.
  by move=> [[|[|j]]]; rewrite /= H // mulnS mulnS.
move=> t t0 i Ht [j Ej] Ht0; have {Ej} : (t.+1 = 3 * j + 2)%N by rewrite -H.
case: j => [|j] Ej; last by have : (t.+1 <= 4)%N := Ht; rewrite Ej mulnS addnAC.
by case: t Ej Ht Ht0 => [|[|t]] // _ _; case: t0 => [|[|[|[|t0]]]].
Qed.

(* the same value at every time: two blocks of two raise *)
Example C86_nonvacuous : forall (C : numClosedFieldType) svd, svd_ok svd ->
  blocks_done 2 2 5 2 /\ fit_stream (c := nan_config C Longtime) (fun (_ : 'I_1) (i : 'I_1) => i) (const_mx 1) svd (fun _ _ => Some 3%:R) 5 = LinAlgError.
Proof.
move=> C svd Hsvd.
have HK : blocks_done 2 2 5 2.
  split; first by rewrite /=; apply/ssrnat.ltP.
  move=> [|[|k]] Hk; [by apply/ssrnat.leP|by apply/ssrnat.leP|by move/ssrnat.ltP: Hk].
split=> //.
have [_ H] := C86_constant_stream_outcome (c := nan_config C Longtime) (const_mx 1) (fun _ => 3%:R) (id_partition 1)
  (isT : (0 < 2)%N) (isT : (0 < 1)%N) (isT : (0 < 2)%N) (isT : (0 < 2)%N) Hsvd HK.
exact: H.
Qed.
