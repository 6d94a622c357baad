(* C98: operations that stop half-way. *)
From Coq Require Import QArith String.
From Verif Require Import Base_List Model_Base Model_Select Model_Session Proof_Session Prop_Select Prop_Session Prop_Session3.
Set Implicit Arguments.
Local Open Scope nat_scope.

Section S.
Variables Wt Md Lm Cf Rc Dat : Type.
Variable zero_mode : Md.
Variable mean_of : Dat -> Lm.
Variable nt_of_data : Dat -> nat.
Variable project : list Md -> Wt -> Dat -> Q -> bool -> res Cf.
Variable nt_of : Cf -> nat.
Variable rebuild : list Md -> Lm -> Cf -> list nat -> res Rc.
Variable conf : nat -> config.
Notation content := (content Wt Md Lm Cf Rc).
Notation store := (store Wt Md Lm Cf Rc).
Notation step := (@step Wt Md Lm Cf Rc Dat zero_mode mean_of nt_of_data project nt_of rebuild conf).
Notation run := (@run Wt Md Lm Cf Rc Dat zero_mode mean_of nt_of_data project nt_of rebuild conf).
Notation start := (@start Wt Md Lm Cf Rc).
Notation event := (event Wt Md Lm Dat).
Notation op := (op Wt Md Lm Dat).
Notation world := (world Wt Md Lm Cf Rc).
Notation coeffs_writes := (@coeffs_writes Wt Md Lm Cf Rc Dat zero_mode mean_of nt_of_data project).
Notation recon_writes := (@recon_writes Wt Md Lm Cf Rc nt_of rebuild).


Notation coeffs_event := (@coeffs_event Wt Md Lm Dat).

(* ---------- C98 ---------- *)
Lemma params_origin w e d lb ub i l u : let p := PCoeffsParams d lb ub in
  lookup p (w_store (fst (step w e))) = Some (CCoeffsParams i l u) ->
  lookup p (w_store w) = Some (CCoeffsParams i l u) \/ (exists a, coeffs_event e a) /\ snd (step w e) = Dir (d, lb, ub).
Proof.
  cbv zeta. intros H.
  assert (G : forall ws cd stop st b f a, coeffs_writes (w_store w) f a = Ok (ws, cd) -> perform (w_store w) ws stop = (st, b) ->
    lookup (PCoeffsParams d lb ub) st = Some (CCoeffsParams i l u) ->
    lookup (PCoeffsParams d lb ub) (w_store w) = Some (CCoeffsParams i l u) \/ (b = true /\ cd = (d, lb, ub))).
  { intros ws cd stop st b f a C P L. apply coeffs_writes_inv in C as (nf & nm & fr & wt & sel & phir & c & _ & _ & _ & -> & ->).
    destruct (path_eq_dec (PCoeffsParams d lb ub) (PCoeffsParams f (f_idx_lb sel) (f_idx_ub sel))) as [E|N].
    - injection E as -> -> ->. destruct b; [right; split; reflexivity|]. left.
      match type of P with perform _ [?x; ?y; ?z; (?p, ?c)] _ = _ =>
        destruct (@perform_last _ _ _ _ _ (w_store w) [x; y; z] stop st p c) as [E|E] end; [cbn; intuition discriminate|exact P|congruence|congruence].
    - left. rewrite <- L. symmetry. eapply perform_frame; [exact P|]. cbn. intuition congruence. }
  destruct e as [x stop]. revert H. unfold Model_Session.step. cbn [fst snd]. destruct x as [o r|o f0 a|o cd0 t|f a|cd t].
  - destruct (perform _ _ stop) as [st b] eqn:P. cbn [fst w_store]. intros H. left. rewrite <- H. symmetry. eapply perform_frame; [exact P|].
    intros I. apply (@fit_paths_cd Wt Md Lm Cf Rc zero_mode conf _ _ (d, lb, ub) _ I). cbn. tauto.
  - destruct (o_sim (w_obj w o)) as [f|]; [|now left]. destruct (coeffs_writes _ _ _) as [[ws cd]|y] eqn:C; [|now left].
    destruct (perform _ _ stop) as [st b] eqn:P. assert (G' := G _ _ _ _ _ _ _ C P). destruct b; cbn [fst snd w_store]; intros H; destruct (G' H) as [G1|[G1 G2]]; auto.
    + right. split; [|congruence]. exists a. left. repeat eexists.
    + discriminate.
  - destruct (o_coeffs (w_obj w o)) as [cd|]; [|now left]. destruct (recon_writes _ _ _) as [[ws r]|y] eqn:C; [|now left].
    destruct (perform _ _ stop) as [st b] eqn:P. cbn [fst w_store]. intros H. left. rewrite <- H. symmetry. eapply perform_frame; [exact P|].
    intros I. apply (@recon_paths_cd Wt Md Lm Cf Rc nt_of rebuild conf _ _ (d, lb, ub) _ _ _ _ C I). cbn. tauto.
  - destruct (coeffs_writes _ _ _) as [[ws cd]|y] eqn:C; [|now left].
    destruct (perform _ _ stop) as [st b] eqn:P. assert (G' := G _ _ _ _ _ _ _ C P). destruct b; cbn [fst snd w_store]; intros H; destruct (G' H) as [G1|[G1 G2]]; auto.
    + right. split; [|congruence]. exists a. right. repeat eexists.
    + discriminate.
  - destruct (recon_writes _ _ _) as [[ws r]|y] eqn:C; [|now left].
    destruct (perform _ _ stop) as [st b] eqn:P. cbn [fst w_store]. intros H. left. rewrite <- H. symmetry. eapply perform_frame; [exact P|].
    intros I. apply (@recon_paths_cd Wt Md Lm Cf Rc nt_of rebuild conf _ _ (d, lb, ub) _ _ _ _ C I). cbn. tauto.
Qed.
Lemma trace_snoc h e : combine (h ++ [e]) (snd (run start (h ++ [e]))) =
  combine h (snd (run start h)) ++ [(e, snd (step (fst (run start h)) e))].
Proof.
  rewrite run_app. cbn [snd fst]. rewrite combine_app by (now rewrite run_length). f_equal. cbn [Model_Session.run].
  destruct (step _ e). reflexivity.
Qed.
Lemma world_snoc h e : fst (run start (h ++ [e])) = fst (step (fst (run start h)) e).
Proof. rewrite run_app. cbn [fst Model_Session.run]. now destruct (step _ e). Qed.

(* A reconstruction succeeds only if a computation of coefficients for that folder ran to completion before: one that was
   interrupted, at whatever point, and never repeated is not mistaken for a complete one. *)
Theorem C98_reconstruction_needs_completed : forall h cd t stop r cd',
  snd (step (fst (run start h)) (URecon cd t, stop)) = Rec r cd' ->
  exists e a, coeffs_event e a /\ In (e, Dir cd) (combine h (snd (run start h))).
Proof.
  intros h [[d lb] ub] t stop r cd' H. unfold Model_Session.step in H. cbn [fst snd] in H.
  destruct (recon_writes _ _ _) as [[ws rr]|x] eqn:C; [|discriminate]. clear H.
  apply recon_writes_inv in C as (_ & lm & phir & i & l & u & cf & ts & _ & _ & L & _). clear lm phir cf ts.
  revert i l u L. induction h as [|e h IH] using rev_ind; intros i l u L; [discriminate|].
  rewrite trace_snoc. rewrite world_snoc in L. apply params_origin in L as [L|[[a He] Ho]].
  - destruct (IH i l u L) as (e' & a & He & I). exists e', a. split; [exact He|]. apply in_or_app. now left.
  - exists e, a. split; [exact He|]. apply in_or_app. right. rewrite Ho. now left.
Qed.

Lemma eigs_origin w e d fr : lookup (PEigs d) (w_store (fst (step w e))) = Some (CEigs fr) ->
  lookup (PEigs d) (w_store w) = Some (CEigs fr) \/
  exists o r s, e = (OFit o r, s) /\ snd (step w e) = Done /\ sim_folder conf o r = d.
Proof.
  destruct e as [x stop]. unfold Model_Session.step. cbn [fst snd]. destruct x as [o r|o f0 a|o cd0 t|f a|cd t].
  - destruct (perform _ _ stop) as [st b] eqn:P. cbn [fst snd w_store]. intros H.
    destruct (folder_eq_dec (sim_folder conf o r) d) as [E|N].
    + destruct b; [right; exists o, r, stop; auto|]. left. rewrite E in P. unfold fit_writes in P.
      rewrite <- H. symmetry. change (mode_writes Cf Rc zero_mode d r ++ [(PWeights d, CWeights (r_weights r)); (PLtmModes d, CLtm (r_ltm r)); (PParams d, CParams (r_nfreq r) (r_nmodes r)); (PEigs d, CEigs (r_freq r))])
        with (mode_writes Cf Rc zero_mode d r ++ ([(PWeights d, CWeights (r_weights r)); (PLtmModes d, CLtm (r_ltm r)); (PParams d, CParams (r_nfreq r) (r_nmodes r))] ++ [(PEigs d, CEigs (r_freq r))])) in P.
      rewrite app_assoc in P.
      match type of P with perform _ (?ws ++ _) _ = _ => assert (Nin : ~ In (PEigs d) (map fst ws)) end.
      { clear P H. rewrite map_app. intros I. apply in_app_iff in I as [I|I]; [|cbn in I; intuition discriminate].
        apply in_map_iff in I as [[q c] [Eq I]]. cbn in Eq. subst q. unfold mode_writes in I. destruct (r_kind r); [easy| |].
        * apply in_map_iff in I as [? [Ef _]]. discriminate.
        * apply in_flat_map in I as [? [_ I]]. apply in_map_iff in I as [? [Ef _]]. discriminate. }
      destruct (@perform_last _ _ _ _ _ _ _ _ _ _ _ Nin P) as [E'|E']; [exact E'|congruence].
    + left. rewrite <- H. symmetry. eapply perform_frame; [exact P|]. intros I.
      apply in_map_iff in I as [[q c] [Eq I]]. cbn in Eq. subst q. apply fit_writes_paths in I. cbn in I. congruence.
  - destruct (o_sim (w_obj w o)) as [f|]; [|now left]. destruct (coeffs_writes _ _ _) as [[ws cd]|y] eqn:C; [|now left].
    destruct (perform _ _ stop) as [st b] eqn:P. intros H. left. rewrite <- H. symmetry. apply coeffs_writes_paths in C as [Ew _].
    destruct b; cbn [fst w_store]; (eapply perform_frame; [exact P|]); rewrite Ew; destruct cd as [[? ?] ?]; cbn; intuition discriminate.
  - destruct (o_coeffs (w_obj w o)) as [cd|]; [|now left]. destruct (recon_writes _ _ _) as [[ws r]|y] eqn:C; [|now left].
    destruct (perform _ _ stop) as [st b] eqn:P. cbn [fst w_store]. intros H. left. rewrite <- H. symmetry. eapply perform_frame; [exact P|].
    destruct cd as [[? ?] ?]. apply recon_writes_inv in C as [-> _]. cbn. intuition discriminate.
  - destruct (coeffs_writes _ _ _) as [[ws cd]|y] eqn:C; [|now left].
    destruct (perform _ _ stop) as [st b] eqn:P. intros H. left. rewrite <- H. symmetry. apply coeffs_writes_paths in C as [Ew _].
    destruct b; cbn [fst w_store]; (eapply perform_frame; [exact P|]); rewrite Ew; destruct cd as [[? ?] ?]; cbn; intuition discriminate.
  - destruct (recon_writes _ _ _) as [[ws r]|y] eqn:C; [|now left].
    destruct (perform _ _ stop) as [st b] eqn:P. cbn [fst w_store]. intros H. left. rewrite <- H. symmetry. eapply perform_frame; [exact P|].
    destruct cd as [[? ?] ?]. apply recon_writes_inv in C as [-> _]. cbn. intuition discriminate.
Qed.
(* Likewise coefficients are computed only from a folder where a fit ran to completion. *)
Theorem C98_coefficients_need_completed : forall h d a stop cd,
  snd (step (fst (run start h)) (UCoeffs d a, stop)) = Dir cd ->
  exists o r s, In ((OFit o r, s), Done) (combine h (snd (run start h))) /\
    d = Folder (c_savedir (conf o)) (result_folder (c_ndft (conf o)) (c_novlp (conf o)) (Z.of_nat (r_blocks r))).
Proof.
  intros h d a stop cd H. unfold Model_Session.step in H. cbn [fst snd] in H.
  destruct (coeffs_writes _ _ _) as [[ws rr]|x] eqn:C; [|discriminate]. clear H.
  apply coeffs_writes_inv in C as (nf & nm & fr & wt & sel & phir & c & Rq & _). clear sel phir c.
  assert (L : exists fr, lookup (PEigs d) (w_store (fst (run start h))) = Some (CEigs fr)).
  { unfold required, read in Rq. destruct (lookup (PEigs d) _) as [e|]; [|discriminate].
    destruct (lookup (PWeights d) _) as [w|]; [|destruct e; discriminate]. destruct (lookup (PParams d) _) as [p|]; [|destruct e, w; discriminate].
    destruct e, w, p; try discriminate. eauto. }
  clear fr Rq. destruct L as [fr L]. revert fr L. induction h as [|e h IH] using rev_ind; intros fr L; [discriminate|].
  rewrite trace_snoc. rewrite world_snoc in L. apply eigs_origin in L as [L|(o & r & s & Ee & Ho & Ed)].
  - destruct (IH fr L) as (o & r & s & I & E). exists o, r, s. split; [apply in_or_app; now left|exact E].
  - exists o, r, s. split; [|symmetry; exact Ed]. apply in_or_app. right. rewrite Ho, Ee. now left.
Qed.

(* a computation stopped after k of its writes: the state it leaves *)
Lemma stopped_coeffs w x a cd k g : coeffs_event (x, None) a -> snd (step w (x, None)) = Dir cd -> k < 4 ->
  exists phir wt c i, project phir wt (a_data a) (a_tol a) (a_svd a) = Ok c /\
  let '(d, lb, ub) := cd in
  let ws := [(PPhir d lb ub, CModes phir); (PLtm d lb ub, CLtm (mean_of (a_data a))); (PCoeffs d lb ub, CCoeffs c); (PCoeffsParams d lb ub, CCoeffsParams i lb ub)] in
  w_store (fst (step w (x, Some (k, g)))) = (if g then [(nth k (cd_paths cd) (PParams d), Torn)] else []) ++ rev (firstn k ws) ++ w_store w.
Proof.
  assert (G : forall f a' ws st, a_data a' = a_data a -> a_tol a' = a_tol a -> a_svd a' = a_svd a -> k < 4 ->
     coeffs_writes (w_store w) f a' = Ok (ws, cd) -> perform (w_store w) ws (Some (k, g)) = st -> snd st = false /\
     exists phir wt c i, project phir wt (a_data a) (a_tol a) (a_svd a) = Ok c /\
     let '(d, lb, ub) := cd in
     let ws := [(PPhir d lb ub, CModes phir); (PLtm d lb ub, CLtm (mean_of (a_data a))); (PCoeffs d lb ub, CCoeffs c); (PCoeffsParams d lb ub, CCoeffsParams i lb ub)] in
     fst st = (if g then [(nth k (cd_paths cd) (PParams d), Torn)] else []) ++ rev (firstn k ws) ++ w_store w).
  { intros f a' ws st E1 E2 E3 Hk C P. apply coeffs_writes_inv in C as (nf & nm & fr & wt & sel & phir & c & _ & _ & Hp & -> & ->). subst st.
    rewrite E1, E2, E3 in Hp. rewrite E1. split; [|exists phir, wt, c, (a_modes_idx a'); split; [exact Hp|]];
    (destruct k as [|[|[|[|k]]]]; [..|lia]); reflexivity. }
  intros He H Hk. destruct He as [(o & d0 & Ex)|(d0 & Ex)]; cbn in Ex; subst x; unfold Model_Session.step in *; cbn [fst snd] in *.
  - destruct (o_sim (w_obj w o)) as [d'|]; [|discriminate].
    destruct (coeffs_writes _ _ _) as [[ws cd']|y] eqn:C; [|discriminate]. cbn [perform] in H. cbn in H. injection H as ->.
    destruct (G _ (no_freq_idx a) _ _ eq_refl eq_refl eq_refl Hk C eq_refl) as [B F]. destruct (perform (w_store w) ws (Some (k, g))) as [st' b]. cbn in B. subst b. exact F.
  - destruct (coeffs_writes _ _ _) as [[ws cd']|y] eqn:C; [|discriminate]. cbn in H. injection H as ->.
    destruct (G _ _ _ _ eq_refl eq_refl eq_refl Hk C eq_refl) as [B F]. destruct (perform (w_store w) ws (Some (k, g))) as [st' b]. cbn in B. subst b. exact F.
Qed.
Ltac paths := repeat (match goal with |- context [path_eq_dec ?x ?y] =>
      let Ep := fresh in destruct (path_eq_dec x y) as [Ep|Ep]; [try discriminate Ep|try (exfalso; apply Ep; reflexivity)] end).
(* A computation stopped in the middle of a file is noticed by the next reconstruction, whatever the folder held before. *)
Theorem C98_torn_file_detected : forall w x a cd k t, coeffs_event (x, None) a -> snd (step w (x, None)) = Dir cd -> k < 4 ->
  exists y, snd (step (fst (step w (x, Some (k, true)))) (URecon cd t, None)) = Raised y.
Proof.
  intros w x a cd k t He Hd Hk. destruct (@stopped_coeffs w x a cd k true He Hd Hk) as (phir & wt & c & i & Hp & F).
  destruct cd as [[d lb] ub]. cbv zeta in F.
  destruct (snd (step (fst (step w (x, Some (k, true)))) (URecon (d, lb, ub) t, None))) eqn:E; [| | |eauto|];
    unfold Model_Session.step at 1 in E; cbn [fst snd] in E; destruct (recon_writes _ _ _) as [[ws rr]|y] eqn:C; try discriminate.
  apply recon_writes_inv in C as (_ & lm' & phir' & i' & l & u & cf' & ts & L1 & L2 & L3 & L4 & _). rewrite F in L1, L2, L3, L4.
  destruct k as [|[|[|[|k]]]]; [..|lia]; cbn [nth cd_paths app lookup] in L1, L2, L3, L4.
  - revert L2. paths. discriminate.
  - revert L1. paths. discriminate.
  - revert L4. paths. discriminate.
  - revert L3. paths. discriminate.
Qed.
(* But when the folder already held a complete computation, one that is stopped between two files leaves a mixture that the
   next reconstruction accepts: new modes with the old mean and coefficients, or new modes and mean with the old coefficients. *)
Theorem C98_mixture_refuted : forall w e1 a1 x2 a2 cd k t, coeffs_event e1 a1 -> snd (step w e1) = Dir cd ->
  let w1 := fst (step w e1) in coeffs_event (x2, None) a2 -> snd (step w1 (x2, None)) = Dir cd -> k = 1 \/ k = 2 ->
  exists phir1 wt1 c1 phir2 wt2 c2, project phir1 wt1 (a_data a1) (a_tol a1) (a_svd a1) = Ok c1 /\
    project phir2 wt2 (a_data a2) (a_tol a2) (a_svd a2) = Ok c2 /\
    snd (step (fst (step w1 (x2, Some (k, false)))) (URecon cd t, None)) =
    match (do ts <- selected_times (nt_of c1) t; rebuild phir2 (mean_of (if k =? 1 then a_data a1 else a_data a2)) c1 ts) with
    | Ok r => Rec r cd | Err y => Raised y end.
Proof.
  intros w e1 a1 x2 a2 cd k t H1 D1 w1 H2 D2 Hk.
  destruct (@coeffs_done Wt Md Lm Cf Rc Dat zero_mode mean_of nt_of_data project nt_of rebuild conf w e1 a1 cd H1 D1) as (phir1 & wt1 & c1 & i1 & P1 & F1).
  destruct (@stopped_coeffs w1 x2 a2 cd k false H2 D2) as (phir2 & wt2 & c2 & i2 & P2 & F2); [lia|].
  exists phir1, wt1, c1, phir2, wt2, c2. split; [exact P1|]. split; [exact P2|].
  destruct cd as [[d lb] ub]. cbv zeta in F1, F2. fold w1 in F1. destruct F1 as (A1 & A2 & A3 & A4).
  set (st2 := w_store (fst (step w1 (x2, Some (k, false))))) in *.
  assert (B1 : lookup (PPhir d lb ub) st2 = Some (CModes phir2)) by (rewrite F2; destruct Hk as [-> | ->]; cbn [firstn rev app lookup]; paths; reflexivity).
  assert (B2 : lookup (PLtm d lb ub) st2 = Some (CLtm (mean_of (if k =? 1 then a_data a1 else a_data a2)))).
  { rewrite F2. destruct Hk as [-> | ->]; cbn [firstn rev app lookup Nat.eqb]; paths; [exact A2|reflexivity]. }
  assert (B3 : lookup (PCoeffs d lb ub) st2 = Some (CCoeffs c1)) by (rewrite F2; destruct Hk as [-> | ->]; cbn [firstn rev app lookup]; paths; exact A3).
  assert (B4 : lookup (PCoeffsParams d lb ub) st2 = Some (CCoeffsParams i1 lb ub)) by (rewrite F2; destruct Hk as [-> | ->]; cbn [firstn rev app lookup]; paths; exact A4).
  unfold Model_Session.step at 1. cbn [fst snd]. fold st2. rewrite (@recon_writes_ok _ _ _ _ _ nt_of rebuild _ _ _ _ t _ _ _ _ _ _ B2 B1 B4 B3).
  destruct (selected_times _ _) as [ts|y]; [|reflexivity]. cbn [bind]. destruct (rebuild _ _ _ _) as [r|y]; reflexivity.
Qed.
End S.
Print Assumptions C98_reconstruction_needs_completed.
Print Assumptions C98_coefficients_need_completed.
Print Assumptions C98_torn_file_detected.
Print Assumptions C98_mixture_refuted.
