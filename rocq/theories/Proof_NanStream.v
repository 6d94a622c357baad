(* missing values and NaN in the streaming fit *)
From Coq Require Import List.
From Verif Require Import Model_Streaming Proof_Streaming.
From mathcomp Require Import all_ssreflect all_algebra.
From Verif Require Import Model_Spod Spec_Spod Spec_Stream Spec_StreamTime Spec_StreamNum Model_StreamNum Proof_Spod Proof_StreamAlg Proof_StreamNum.
From Verif Require Import Spec_Nan Model_Nan Proof_Nan.
Set Implicit Arguments.
Unset Strict Implicit.
Unset Printing Implicit Defensive.
Import GRing.Theory Num.Theory Order.TTheory.
Local Open Scope ring_scope.

Arguments n_weighted {C} c {size n nloc} own w h m f r i : simpl never.

Section S.
Variable C : numClosedFieldType.
Variable c : config C.
Notation k := (n_modes_save c).
Variable n : nat.
Variable w : 'cV[C]_n.
Variable svd : 'M[C]_(k + 1) -> 'M[C]_(k + 1) * 'rV[C]_(k + 1).
Variables (size : nat) (nloc : 'I_size -> nat) (own : forall r : 'I_size, 'I_(nloc r) -> 'I_n).
Hypothesis Hown : partition_of own.
Hypothesis Hov : (n_overlap c < n_dft c)%N.
Variables (X : nat -> 'I_n -> option C) (Xc : nat -> 'cV[C]_n).
Hypothesis HX : completes X (fun t i => Xc t i 0).
Notation start := (start (n_dft c) (n_overlap c)).
Notation strm := (fun t (r : 'I_size) (i : 'I_(nloc r)) => X t (own i)).
Notation nmean := (mean_after (@n_mean_step C size nloc) strm (@n_mean0 C size nloc)).
Notation nblock := (block_sum (n_dft c) (@n_sum0 C size nloc) (@n_contrib C c size nloc) strm).
Definition nb (K : nat) : fit_result (nbasis c nloc) :=
  basis_after (n_dft c) (n_overlap c) (@n_sum0 C size nloc) (@n_contrib C c size nloc) (@n_mean_step C size nloc)
    (n_basis_step own w svd) strm (@n_mean0 C size nloc) (@n_basis0 C c size nloc) K.
Lemma nbS K : nb K.+1 = n_basis_step own w svd K.+1 (nblock (start K)) (nmean (start K + n_dft c)%N) (nb K).
Proof. by rewrite /nb /basis_after seq_S fold_left_app. Qed.
Lemma n_streamE N K : due (n_dft c) (n_overlap c) N K -> n_stream own w svd X N = nb K.
Proof.
move=> HK; have Hov' : (n_overlap c < n_dft c)%coq_nat by apply/ssrnat.ltP.
have [K' [HK' E]] := run_law (@n_sum0 C size nloc) (@n_contrib C c size nloc) (@n_mean_step C size nloc)
    (n_basis_step own w svd) Hov' strm (@n_mean0 C size nloc) (@n_basis0 C c size nloc) N.
by rewrite /n_stream E /= (due_unique Hov' HK HK').
Qed.
Lemma nmeanS N r (i : 'I_(nloc r)) : nmean N.+1 r i = ndiv (nadd (nmul (Some N%:R) (nmean N r i)) (X N (own i))) (Some N.+1%:R).
Proof. by rewrite /mean_after seq_S fold_left_app. Qed.
Definition full (N : nat) : Prop := forall t i, (t < N)%N -> X t i <> None.
Lemma X_some N t i : full N -> (t < N)%N -> X t i = Some (Xc t i 0).
Proof. by move=> H Ht; move: (H t i Ht); case E: (X t i) => [v|] // _; rewrite (HX E). Qed.
Lemma full_le N N' : (N' <= N)%N -> full N -> full N'.
Proof. by move=> H Hf t i Ht; apply: Hf; apply: leq_trans H. Qed.
Lemma nmean_some N r (i : 'I_(nloc r)) : full N -> nmean N r i = Some (avg Xc N (own i) 0).
Proof.
elim: N => [|N IH] Hf; first by rewrite /mean_after /= !mxE invr0 mul0r.
rewrite nmeanS IH; last exact: full_le Hf.
rewrite (X_some _ Hf (ltnSn _)) /= pnatr_eq0 /=; congr Some; rewrite /avg !mxE big_ord_recr /= mxE [RHS]mulrC.
congr ((_ + _) * _); case: N {IH Hf} => [|N]; first by rewrite mul0r big_ord0 mxE.
by rewrite mulVKf // pnatr_eq0.
Qed.
Lemma nmean_none N t r (i : 'I_(nloc r)) : (t < N)%N -> X t (own i) = None -> nmean N r i = None.
Proof.
move=> Ht E; elim: N Ht => // N IH; rewrite nmeanS ltnS leq_eqVlt => /orP [/eqP <-|/IH ->]; last by [].
by rewrite E nadd_None.
Qed.
Lemma nblock_some s r f (i : 'I_(nloc r)) : full (s + n_dft c) ->
  nblock s r f i = Some (\sum_(j < n_dft c) window c j * dft_entry c j f * Xc (s + j)%N (own i) 0).
Proof.
rewrite /block_sum; elim: (n_dft c) => [|m IH] Hf; first by rewrite big_ord0.
rewrite seq_S fold_left_app /= /n_contrib; rewrite IH; last by apply: full_le Hf; rewrite leq_add2l.
by rewrite (X_some (N := (s + m.+1)%N)) // ?ltn_add2l // big_ord_recr.
Qed.
Lemma n_weighted_some s r f (i : 'I_(nloc r)) : full (s + n_dft c) ->
  n_weighted c own w (nblock s) (nmean (s + n_dft c)%N) f r i = Some (xw c w Xc s f (own i) 0).
Proof.
move=> Hf; rewrite /n_weighted /n_centred_s nblock_some // nmean_some //.
rewrite (nsum_iota_some (G := fun j => window c j * dft_entry c j f * avg Xc (s + n_dft c) (own i) 0)) //=.
rewrite /xw /bhat /sqrt_w !mxE; congr (Some (_ * _ * _)).
by rewrite [in RHS]summxE -sumrB; apply: eq_bigr => j _; rewrite !mxE mulrBr.
Qed.
Lemma n_weighted_none s t r f (i : 'I_(nloc r)) : (t < s + n_dft c)%N -> X t (own i) = None ->
  n_weighted c own w (nblock s) (nmean (s + n_dft c)%N) f r i = None.
Proof.
move=> Ht E; rewrite /n_weighted /n_centred_s (nmean_none Ht E).
rewrite [nsum _ _](@nsum_iota_none _ _ _ 0) ?nsub_None //.
by apply: leq_ltn_trans Hov.
Qed.

Section Upd.
Variables (b : nat) (x : nsnap C nloc) (U : forall r, 'I_(nloc r) -> 'I_k -> option C) (S : forall r : 'I_size, 'rV[C]_k).
Lemma up_none r i : @x r i = None -> finite_K x U = false.
Proof.
move=> E; rewrite /finite_K [n_abs _ _](_ : _ = None) ?andbF // /n_abs (@nsum_none _ _ _ _ r) ?mem_enum //.
by rewrite (@nsum_none _ _ _ _ i) ?mem_enum // /n_up E.
Qed.
Lemma U_none r (i : 'I_(nloc r)) (j : 'I_k) : @U r i j = None -> @finite_K C c size nloc x U = false.
Proof.
move=> E; rewrite /finite_K; apply/negbTE/nandP; left; apply/negP => /forallP /(_ j).
by rewrite /n_Ux (@nsum_none _ _ _ _ r) ?mem_enum // (@nsum_none _ _ _ _ i) ?mem_enum // E.
Qed.
Variables (xg : 'cV[C]_n) (Ug : 'M[C]_(n, k)) (Sg : 'rV[C]_k).
Hypothesis Hx : forall r i, @x r i = Some (xg (own i) 0).
Hypothesis HU : forall r i j, @U r i j = Some (Ug (own i) j).
Hypothesis HS : forall r, S r = Sg.
Lemma n_UxE j : n_Ux x U j = Some (gUx xg Ug j 0).
Proof.
rewrite /n_Ux (nsum_enum_some (G := fun r => \sum_i (Ug (@own r i) j)^* * xg (@own r i) 0)).
  congr Some; rewrite mxE -(sum_ranks Hown (fun i => adj Ug j i * xg i 0)).
  by apply: eq_bigr => r _; apply: eq_bigr => i _; rewrite mxE.
by move=> r; rewrite (nsum_enum_some (G := fun i => (Ug (@own r i) j)^* * xg (@own r i) 0)) // => i; rewrite HU Hx.
Qed.
Lemma n_upE r (i : 'I_(nloc r)) : n_up x U i = Some (gup xg Ug (own i) 0).
Proof.
rewrite /n_up Hx (nsum_enum_some (G := fun j => Ug (own i) j * gUx xg Ug j 0)) => [|j]; last by rewrite HU n_UxE.
by rewrite /= /gup !mxE.
Qed.
Lemma n_absE : n_abs x U = Some (gabs xg Ug).
Proof.
rewrite /n_abs (nsum_enum_some (G := fun r => \sum_i (gup xg Ug (@own r i) 0)^* * gup xg Ug (@own r i) 0)).
  congr Some; rewrite /gabs; congr sqrtC; rewrite mxE -(sum_ranks Hown (fun i => adj (gup xg Ug) 0 i * gup xg Ug i 0)).
  by apply: eq_bigr => r _; apply: eq_bigr => i _; rewrite [X in _ = X * _]mxE.
by move=> r; rewrite (nsum_enum_some (G := fun i => (gup xg Ug (@own r i) 0)^* * gup xg Ug (@own r i) 0)) // => i; rewrite n_upE.
Qed.
Lemma finite_KE : finite_K x U.
Proof. by rewrite /finite_K n_absE andbT; apply/forallP => j; rewrite n_UxE. Qed.
Lemma value_KE r : value_K b x U S r = K_mx b Sg (gUx xg Ug) (gabs xg Ug).
Proof.
rewrite /value_K HS n_absE; congr (K_mx _ _ _ _); apply/matrixP => j z.
by rewrite mxE n_UxE [z]ord1.
Qed.
Lemma n_U_some r (i : 'I_(nloc r)) j : gabs xg Ug != 0 -> n_U svd b x U S i j = Some (lsubmx (gU svd b xg Ug Sg) (own i) j).
Proof.
move=> H0; rewrite /n_U value_KE.
rewrite (nsum_enum_some (G := fun l => row_mx Ug (gun xg Ug) (own i) l * (svd (K_mx b Sg (gUx xg Ug) (gabs xg Ug))).1 l (lshift 1 j))).
  by congr Some; rewrite !mxE.
move=> l; rewrite mxE; case: (split l) => l'; first by rewrite HU.
by rewrite /n_new n_absE n_upE ndiv_some // [l']ord1 [gun _ _ _ _]mxE.
Qed.
Lemma n_U_none r (i : 'I_(nloc r)) j : gabs xg Ug = 0 -> n_U svd b x U S i j = None.
Proof.
move=> H0; rewrite /n_U (@nsum_none _ _ _ _ (rshift k ord0)) ?mem_enum //.
by rewrite (unsplitK (inr ord0)) /n_new n_absE n_upE H0 /= eqxx.
Qed.
Lemma n_SE r : n_S svd b x U S r = lsubmx (gS svd b xg Ug Sg).
Proof. by rewrite /n_S value_KE. Qed.
End Upd.

Hypothesis Hn : (0 < n)%N.
Hypothesis Hk : (0 < k)%N.
Notation gb := (gbasis (c := c) w svd Xc).
(* finite basis at every frequency *)
Definition finite_basis (B : nbasis c nloc) (K : nat) : Prop := forall f, (f < n_freq c)%N -> exists us,
  gb f K = Some us /\ forall r, (forall i j, (B r f).1 i j = Some (us.1 (own i) j)) /\ (B r f).2 = us.2.
Definition nan_basis (B : nbasis c nloc) (K f : nat) : Prop :=
  [/\ (f < n_freq c)%N, gb f K = None & forall r i j, (B r f).1 i j = None].

Lemma step_finite K B : full (start K + n_dft c) -> nb K = Returned B -> finite_basis B K ->
  exists B', nb K.+1 = Returned B' /\ forall f, (f < n_freq c)%N ->
    match gb f K.+1 with
    | Some us => forall r, (forall i j, (B' r f).1 i j = Some (us.1 (own i) j)) /\ (B' r f).2 = us.2
    | None => exists us, gb f K = Some us /\ forall r, (forall i j, (B' r f).1 i j = None) /\
        (B' r f).2 = lsubmx (gS svd K.+1 (xw c w Xc (start K) f) us.1 us.2)
    end.
Proof.
move=> Hf E HB; rewrite nbS E /n_basis_step.
have Hfin : [forall f : 'I_(n_freq c), finite_K (n_weighted c own w (nblock (start K)) (nmean (start K + n_dft c)%N) f) (fun r => (B r f).1)].
  apply/forallP => f; have [us [Eg HU]] := HB f (ltn_ord f).
  apply: (@finite_KE _ _ (xw c w Xc (start K) f) us.1) => [r i|r i j]; first exact: n_weighted_some.
  exact: (HU r).1.
rewrite Hfin; eexists; split; first reflexivity.
move=> f Hfr; have [us [Eg HU]] := HB f Hfr.
have H1 r (i : 'I_(nloc r)) : n_weighted c own w (nblock (start K)) (nmean (start K + n_dft c)%N) f r i = Some (xw c w Xc (start K) f (own i) 0) by apply: n_weighted_some.
have H2 r i j : (B r f).1 i j = Some (us.1 (own i) j) := (HU r).1 i j.
have H3 r : (B r f).2 = us.2 := (HU r).2.
rewrite /= Eg /gupdate; case: eqP => [E0|/eqP E0] /=.
  exists us; split=> // r; split=> [i j|]; first exact: (n_U_none _ _ H1 H2 _ _ E0).
  exact: (n_SE _ H1 H2 H3).
move=> r; split=> [i j|]; first exact: (n_U_some _ H1 H2 H3 _ _ E0).
exact: (n_SE _ H1 H2 H3).
Qed.
Lemma step_nan K B f : nb K = Returned B -> nan_basis B K f -> nb K.+1 = LinAlgError.
Proof.
move=> E [Hf Eg HB]; rewrite nbS E /n_basis_step; case: ifP => // /forallP /(_ (Ordinal Hf)).
have [g _ Hg] := Hown; set p := g (Ordinal Hn).
by rewrite (@U_none _ _ (tag p) (tagged p) (Ordinal Hk)) //= HB.
Qed.
Lemma step_missing K t i : (t < start K + n_dft c)%N -> X t i = None -> (0 < n_freq c)%N -> nb K.+1 = LinAlgError.
Proof.
move=> Ht E H0; rewrite nbS /n_basis_step; case: (nb K) => // B; case: ifP => // /forallP /(_ (Ordinal H0)).
have [g _ Hg] := Hown; set p := g i; have Ep : own (tagged p) = i by exact: Hg.
by rewrite (@up_none _ _ (tag p) (tagged p)) //=; apply: n_weighted_none Ht _; rewrite Ep.
Qed.
Lemma nb_raised K L : (K <= L)%N -> nb K = LinAlgError -> nb L = LinAlgError.
Proof. by move=> H E; rewrite -(subnK H); elim: (L - K)%N => // m IH; rewrite addSn nbS IH. Qed.
Lemma gb_none f K L : (K <= L)%N -> gb f K = None -> gb f L = None.
Proof. by move=> H E; rewrite -(subnK H); elim: (L - K)%N => // m IH; rewrite addSn /= IH. Qed.
(* the state after K blocks *)
Lemma nb_state K : (forall j, (j < K)%N -> full (start j + n_dft c)) ->
  [\/ exists B, nb K = Returned B /\ finite_basis B K,
      exists B f, nb K = Returned B /\ nan_basis B K f /\ (0 < K)%N /\ (forall f, (f < n_freq c)%N -> exists us, gb f K.-1 = Some us)
    | nb K = LinAlgError /\ exists2 f, (f < n_freq c)%N & gb f K.-1 = None].
Proof.
elim: K => [|K IH] Hf.
  constructor 1; exists (fun r f => (fun _ _ => Some 0, 0)); split=> // f _; exists (0, 0); split=> // r; split=> // i j.
  by rewrite mxE.
have Hf' j : (j < K)%N -> full (start j + n_dft c) by move=> Hj; apply: Hf; apply: ltnW.
case: (IH Hf') => [[B [E HB]]|[B [f [E [HB _]]]]|[E [f Hfr Eg]]].
- have [B' [E' H']] := step_finite (Hf K (ltnSn _)) E HB.
  case: (pickP (fun f : 'I_(n_freq c) => ~~ isSome (gb f K.+1))) => [f Ef|Hall].
    constructor 2; exists B', f; split=> //; split; last by split=> // g /HB [us [Eg _]]; exists us.
    split; [exact: ltn_ord|by case: (gb f K.+1) Ef|move=> r i j].
    by move: (H' f (ltn_ord f)); case: (gb f K.+1) Ef => // _ [us [_ /(_ r) [-> _]]].
  constructor 1; exists B'; split=> // f Hfr; move: (Hall (Ordinal Hfr)) (H' f Hfr); rewrite -[nat_of_ord _]/f.
  by case: (gb f K.+1) => [us _ H|//]; exists us.
- constructor 3; split; first exact: step_nan E HB.
  by case: HB => Hfr Eg _; exists f.
- constructor 3; split; first by rewrite nbS E.
  by exists f => //; apply: gb_none Eg; rewrite leq_pred.
Qed.
End S.
