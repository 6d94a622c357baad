(* C97: who shares coefficients with whom. *)
From Coq Require Import QArith String.
From Verif Require Import Base_List Model_Base Model_Select Model_Session Proof_Session Prop_Session.
Set Implicit Arguments.
Local Open Scope nat_scope.

Section S.
Variables Wt Md Lm Cf Rc Dat : Type.
Variable zero_mode : Md.
Variable mean_of : Dat -> Lm.
Variable nt_of_data : Dat -> nat.
Variable project : list Md -> Wt -> Dat -> Q -> bool -> res Cf.
Variable nt_of : Cf -> nat.
Variable rebuild : list Md -> Lm -> Cf -> list nat -> res Rc.
Variable conf : nat -> config.
Notation content := (content Wt Md Lm Cf Rc).
Notation store := (store Wt Md Lm Cf Rc).
Notation step := (@step Wt Md Lm Cf Rc Dat zero_mode mean_of nt_of_data project nt_of rebuild conf).
Notation run := (@run Wt Md Lm Cf Rc Dat zero_mode mean_of nt_of_data project nt_of rebuild conf).
Notation start := (@start Wt Md Lm Cf Rc).
Notation event := (event Wt Md Lm Dat).
Notation op := (op Wt Md Lm Dat).
Notation world := (world Wt Md Lm Cf Rc).
Notation coeffs_writes := (@coeffs_writes Wt Md Lm Cf Rc Dat zero_mode mean_of nt_of_data project).
Notation recon_writes := (@recon_writes Wt Md Lm Cf Rc nt_of rebuild).


Definition coeffs_event (e : event) (a : coeffs_args Dat) : Prop :=
  (exists o d, fst e = OCoeffs o d a) \/ (exists d, fst e = UCoeffs d a).

Lemma fit_paths_cd d (r : fit_result Wt Md Lm) cd p : In p (map fst (fit_writes Cf Rc zero_mode d r)) -> ~ In p (cd_paths cd).
Proof.
  intros I. destruct cd as [[d' lb] ub]. apply in_map_iff in I as [[q c] [E I]]. cbn in E. subst q.
  unfold fit_writes in I. apply in_app_iff in I as [I|I].
  - unfold mode_writes in I. destruct (r_kind r); [easy| |].
    + apply in_map_iff in I as [f [E _]]. injection E as <- <-. cbn. intuition discriminate.
    + apply in_flat_map in I as [f [_ I]]. apply in_map_iff in I as [m [E _]]. injection E as <- <-. cbn. intuition discriminate.
  - cbn in I. repeat (destruct I as [I|I]; [injection I as <- <-; cbn; intuition discriminate|]). easy.
Qed.
Lemma recon_paths_cd st cd cd' t ws r p : recon_writes st cd t = Ok (ws, r) -> In p (map fst ws) -> ~ In p (cd_paths cd').
Proof.
  destruct cd as [[d lb] ub], cd' as [[d' lb'] ub']. intros H I. apply recon_writes_inv in H as [-> _]. destruct I as [<-|[]]. cbn. intuition discriminate.
Qed.
Lemma cd_disjoint cd cd' p : cd <> cd' -> In p (cd_paths cd) -> ~ In p (cd_paths cd').
Proof.
  destruct cd as [[d lb] ub], cd' as [[d' lb'] ub']. cbn. intros N I J.
  repeat (destruct I as [I|I]; [subst p; repeat (destruct J as [J|J]; [try discriminate J; injection J as <- <- <-; now apply N|]); easy|]). easy.
Qed.
(* an operation leaves the coefficient files of cd alone unless it computes coefficients into cd or is stopped while computing some *)
Lemma step_frame w e cd p : (forall a, coeffs_event e a -> snd (step w e) <> Dir cd /\ snd (step w e) <> Stopped) -> In p (cd_paths cd) ->
  lookup p (w_store (fst (step w e))) = lookup p (w_store w).
Proof.
  intros H Hp. revert H. destruct e as [x stop]. unfold Model_Session.step. cbn [fst snd]. destruct x as [o r|o d a|o cd' t|d a|cd' t].
  - destruct (perform _ _ stop) as [st' b] eqn:E. intros _. cbn. eapply perform_frame; [exact E|]. intros I. exact (fit_paths_cd _ _ _ _ I Hp).
  - destruct (o_sim (w_obj w o)) as [d'|]; [|now intros].
    destruct (coeffs_writes _ _ _) as [[ws cd']|y] eqn:C; [|now intros]. destruct (perform _ _ stop) as [st' b] eqn:E. intros H.
    destruct (H a) as [H1 H2]; [left; repeat eexists|]. destruct b; cbn in *; [|congruence].
    eapply perform_frame; [exact E|]. apply coeffs_writes_paths in C as [-> _]. apply (@cd_disjoint cd); [congruence|exact Hp].
  - destruct (o_coeffs (w_obj w o)) as [d'|]; [|now intros].
    destruct (recon_writes _ _ _) as [[ws r]|y] eqn:C; [|now intros]. destruct (perform _ _ stop) as [st' b] eqn:E. intros _. cbn.
    eapply perform_frame; [exact E|]. intros I. exact (recon_paths_cd _ _ _ _ _ C I Hp).
  - destruct (coeffs_writes _ _ _) as [[ws cd']|y] eqn:C; [|now intros]. destruct (perform _ _ stop) as [st' b] eqn:E. intros H.
    destruct (H a) as [H1 H2]; [right; repeat eexists|]. destruct b; cbn in *; [|congruence].
    eapply perform_frame; [exact E|]. apply coeffs_writes_paths in C as [-> _]. apply (@cd_disjoint cd); [congruence|exact Hp].
  - destruct (recon_writes _ _ _) as [[ws r]|y] eqn:C; [|now intros]. destruct (perform _ _ stop) as [st' b] eqn:E. intros _. cbn.
    eapply perform_frame; [exact E|]. intros I. exact (recon_paths_cd _ _ _ _ _ C I Hp).
Qed.
Lemma run_frame h w cd p : (forall e out a, In (e, out) (combine h (snd (run w h))) -> coeffs_event e a -> out <> Dir cd /\ out <> Stopped) ->
  In p (cd_paths cd) -> lookup p (w_store (fst (run w h))) = lookup p (w_store w).
Proof.
  revert w. induction h as [|e h IH]; intros w H Hp; [reflexivity|]. cbn [Model_Session.run] in *.
  destruct (step w e) as [w1 o] eqn:E. specialize (IH w1). destruct (run w1 h) as [w2 os] eqn:E2. cbn [fst snd combine] in *.
  rewrite IH; [|intros e' out a I; apply H; now right|exact Hp].
  replace w1 with (fst (step w e)) by (now rewrite E). apply (@step_frame w e cd); [|exact Hp].
  intros a. rewrite E. cbn. apply H. now left.
Qed.
(* what a completed coefficients computation leaves behind *)
Lemma coeffs_done w e a cd : coeffs_event e a -> snd (step w e) = Dir cd ->
  exists phir wt c i, project phir wt (a_data a) (a_tol a) (a_svd a) = Ok c /\
    let '(d, lb, ub) := cd in let st := w_store (fst (step w e)) in
    lookup (PPhir d lb ub) st = Some (CModes phir) /\ lookup (PLtm d lb ub) st = Some (CLtm (mean_of (a_data a))) /\
    lookup (PCoeffs d lb ub) st = Some (CCoeffs c) /\ lookup (PCoeffsParams d lb ub) st = Some (CCoeffsParams i lb ub).
Proof.
  assert (G : forall a' d0 stop ws st, a_data a' = a_data a -> a_tol a' = a_tol a -> a_svd a' = a_svd a ->
    coeffs_writes (w_store w) d0 a' = Ok (ws, cd) -> perform (w_store w) ws stop = (st, true) ->
    exists phir wt c i, project phir wt (a_data a) (a_tol a) (a_svd a) = Ok c /\
    let '(d, lb, ub) := cd in
    lookup (PPhir d lb ub) st = Some (CModes phir) /\ lookup (PLtm d lb ub) st = Some (CLtm (mean_of (a_data a))) /\
    lookup (PCoeffs d lb ub) st = Some (CCoeffs c) /\ lookup (PCoeffsParams d lb ub) st = Some (CCoeffsParams i lb ub)).
  { intros a' d0 stop ws st E1 E2 E3 C P. apply coeffs_writes_inv in C as (nf & nm & fr & wt & sel & phir & c & _ & _ & Hp & -> & ->).
    apply perform_done in P. subst st. rewrite E1, E2, E3 in Hp. exists phir, wt, c, (a_modes_idx a'). split; [exact Hp|]. rewrite E1.
    cbn [rev app lookup]. 
    repeat split; repeat (match goal with |- context [path_eq_dec ?x ?y] =>
      let Ep := fresh in destruct (path_eq_dec x y) as [Ep|Ep]; [try discriminate Ep; try reflexivity|try (exfalso; apply Ep; reflexivity)] end). }
  intros He H. destruct e as [x stop]. destruct He as [(o & d0 & Ex)|(d0 & Ex)]; cbn in Ex; subst x; unfold Model_Session.step in *; cbn [fst snd] in *.
  - destruct (o_sim (w_obj w o)) as [d'|]; [|discriminate].
    destruct (coeffs_writes _ _ _) as [[ws cd']|y] eqn:C; [|discriminate]. destruct (perform _ _ stop) as [st' b] eqn:E.
    destruct b; [|discriminate]. cbn in H. injection H as ->. cbn [fst w_store]. exact (G (no_freq_idx a) _ _ _ _ eq_refl eq_refl eq_refl C E).
  - destruct (coeffs_writes _ _ _) as [[ws cd']|y] eqn:C; [|discriminate]. destruct (perform _ _ stop) as [st' b] eqn:E.
    destruct b; [|discriminate]. cbn in H. injection H as ->. cbn [fst w_store]. exact (G _ _ _ _ _ eq_refl eq_refl eq_refl C E).
Qed.

(* A reconstruction from a coefficients folder uses the data, modes and coefficients of the last computation that went to this
   folder, whoever did it and whatever happened since in other folders. *)
Theorem C97_last_computation : forall w e a cd h t, coeffs_event e a -> snd (step w e) = Dir cd ->
  let w1 := fst (step w e) in
  (forall e' out a', In (e', out) (combine h (snd (run w1 h))) -> coeffs_event e' a' -> out <> Dir cd /\ out <> Stopped) ->
  exists phir wt c, project phir wt (a_data a) (a_tol a) (a_svd a) = Ok c /\
    snd (step (fst (run w1 h)) (URecon cd t, None)) =
    match (do ts <- selected_times (nt_of c) t; rebuild phir (mean_of (a_data a)) c ts) with Ok r => Rec r cd | Err x => Raised x end.
Proof.
  intros w e a cd h t He Hd w1 Hh. destruct (@coeffs_done w e a cd He Hd) as (phir & wt & c & i & Hp & F). exists phir, wt, c. split; [exact Hp|].
  destruct cd as [[d lb] ub]. fold w1 in F. cbv zeta in F. destruct F as (F1 & F2 & F3 & F4).
  assert (Fr := fun p => @run_frame h w1 (d, lb, ub) p Hh). cbn [cd_paths In] in Fr.
  rewrite <- Fr in F1, F2, F3, F4 by tauto.
  unfold Model_Session.step. cbn [fst snd]. rewrite (@recon_writes_ok _ _ _ _ _ nt_of rebuild _ _ _ _ t _ _ _ _ _ _ F2 F1 F4 F3).
  destruct (selected_times _ _) as [ts|x]; [|reflexivity]. cbn [bind]. destruct (rebuild _ _ _ _) as [r|x]; reflexivity.
Qed.

(* Two objects whose results go to the same folder: after the second one computed coefficients, the first one reconstructs
   the data of the second. *)
Theorem C97_shared_refuted : forall h o1 o2 d2 a2 cd dir t, o1 <> o2 ->
  last_coeffs_dir o1 h (snd (run start h)) = Some cd ->
  snd (step (fst (run start h)) (OCoeffs o2 d2 a2, None)) = Dir cd ->
  exists phir wt c, project phir wt (a_data a2) (a_tol a2) (a_svd a2) = Ok c /\
    snd (step (fst (run start (h ++ [(OCoeffs o2 d2 a2, None)]))) (ORecon o1 dir t, None)) =
    match (do ts <- selected_times (nt_of c) t; rebuild phir (mean_of (a_data a2)) c ts) with Ok r => Rec r cd | Err x => Raised x end.
Proof.
  intros h o1 o2 d2 a2 cd dir t N Hl Hd.
  destruct (@C97_last_computation (fst (run start h)) (OCoeffs o2 d2 a2, None) a2 cd [] t) as (phir & wt & c & Hp & R);
    [left; repeat eexists|exact Hd|intros e' out a' []|].
  exists phir, wt, c. split; [exact Hp|]. rewrite <- R.
  assert (L := C84_reconstruction zero_mode mean_of nt_of_data project nt_of rebuild conf (h ++ [(OCoeffs o2 d2 a2, None)]) o1 dir t None).
  cbv zeta in L. rewrite L. clear L.
  assert (E : last_coeffs_dir o1 (h ++ [(OCoeffs o2 d2 a2, None)]) (snd (run start (h ++ [(OCoeffs o2 d2 a2, None)]))) = Some cd).
  { rewrite run_app. cbn [snd fst]. unfold last_coeffs_dir. rewrite combine_app by (now rewrite run_length).
    rewrite fold_left_app. fold (last_coeffs_dir o1 h (snd (run start h))). rewrite Hl. cbn [Model_Session.run].
    destruct (step _ _) as [w1 out]. cbn in Hd |- *. subst out. destruct (Nat.eqb_spec o2 o1); [congruence|reflexivity]. }
  rewrite E, run_app. cbn [fst snd Model_Session.run]. now destruct (step (fst (run start h)) _).
Qed.

(* ---- objects and calls with different savedir do not interact ---- *)
Definition uses (d : string) (e : event) : bool :=
  String.eqb d match fst e with
               | OFit o _ | OCoeffs o _ _ | ORecon o _ _ => c_savedir (conf o)
               | UCoeffs f _ => savedir_of f
               | URecon (f, _, _) _ => savedir_of f
               end.
Definition sel (d : string) (st : store) : store := filter (fun e => String.eqb d (savedir_of (folder_of (fst e)))) st.
Lemma lookup_sel d p st : savedir_of (folder_of p) = d -> lookup p (sel d st) = lookup p st.
Proof.
  intros H. induction st as [|[q c] st IH]; [reflexivity|]. cbn [sel filter fst lookup]. destruct (path_eq_dec p q) as [<-|N].
  - rewrite H, String.eqb_refl. cbn [lookup]. now destruct (path_eq_dec p p).
  - destruct (String.eqb d _); [|exact IH]. cbn [lookup]. destruct (path_eq_dec p q); [contradiction|exact IH].
Qed.
Lemma bound_in (st : store) d f m c : In (PMode d f m, c) st -> m < bound st.
Proof.
  unfold bound. induction st as [|[q x] st IH]; [easy|]. intros [E|I].
  - injection E as -> ->. cbn [fold_right fst]. lia.
  - specialize (IH I). cbn [fold_right fst]. destruct q; lia.
Qed.
Lemma lookup_in p c (st : store) : lookup p st = Some c -> In (p, c) st.
Proof. induction st as [|[q x] st IH]; cbn; [discriminate|]. destruct (path_eq_dec p q) as [->|N]; [injection 1 as ->; now left|right; auto]. Qed.
Lemma filter_none {A} (P : A -> bool) l : (forall x, In x l -> P x = false) -> filter P l = [].
Proof. induction l as [|x l IH]; intros H; [reflexivity|]. cbn. rewrite H by (now left). apply IH. intros y I. apply H. now right. Qed.
Lemma filter_seq_bound (P : nat -> bool) a b : (forall m, P m = true -> m < a) -> (forall m, P m = true -> m < b) ->
  filter P (seq 0 a) = filter P (seq 0 b).
Proof.
  assert (G : forall a k, (forall m, P m = true -> m < a) -> filter P (seq 0 (a + k)) = filter P (seq 0 a)).
  { intros a0 k H. rewrite seq_app, filter_app. rewrite (@filter_none _ P (seq (0 + a0) k)); [now rewrite app_nil_r|].
    intros x I. apply in_seq in I. destruct (P x) eqn:E; [apply H in E; lia|reflexivity]. }
  intros Ha Hb. destruct (Nat.le_ge_cases a b) as [L|L].
  - replace b with (a + (b - a)) by lia. now rewrite G.
  - replace a with (b + (a - b)) by lia. now rewrite G.
Qed.
Lemma modes_at_sel d st f x : savedir_of f = d -> modes_at (sel d st) f x = modes_at st f x.
Proof.
  intros H. unfold modes_at. rewrite lookup_sel by exact H.
  assert (M : mode_numbers (sel d st) f x = mode_numbers st f x).
  { unfold mode_numbers. erewrite filter_ext; [apply filter_seq_bound|intros m; cbn beta; rewrite lookup_sel by exact H; reflexivity];
      intros m Hm; cbn beta in Hm; destruct (lookup (PMode f x m) st) as [c|] eqn:E; try discriminate.
    - apply (@bound_in _ f x m c). apply lookup_in. rewrite lookup_sel; [exact E|exact H].
    - apply (@bound_in _ f x m c). now apply lookup_in. }
  rewrite M. assert (R : forall ms, read_modes (sel d st) f x ms = read_modes st f x ms).
  { induction ms as [|m ms IH]; [reflexivity|]. cbn [read_modes]. now rewrite IH, lookup_sel. }
  destruct (lookup (PFreq f x) st); [reflexivity|]. now destruct (mode_numbers st f x); [|rewrite R].
Qed.
Lemma read_sel d st p : savedir_of (folder_of p) = d -> read (sel d st) p = read st p.
Proof. intros H. unfold read. now rewrite lookup_sel. Qed.
Lemma coeffs_sel d st f a : savedir_of f = d -> coeffs_writes (sel d st) f a = coeffs_writes st f a.
Proof.
  intros H. unfold Model_Session.coeffs_writes, required. rewrite !read_sel by exact H.
  destruct (read st (PEigs f)) as [e|]; [|reflexivity]. destruct (read st (PWeights f)) as [w|]; [|reflexivity]. cbn [bind].
  destruct (read st (PParams f)) as [p|]; [|reflexivity]. cbn [bind].
  destruct e; try reflexivity. destruct w; try reflexivity. destruct p; try reflexivity. cbn [bind].
  rewrite (coeffs_modes_ext zero_mode (modes_at (sel d st) f) (modes_at st f)) by (intros; now apply modes_at_sel). reflexivity.
Qed.
Lemma recon_sel d st cd t : savedir_of (fst (fst cd)) = d -> recon_writes (sel d st) cd t = recon_writes st cd t.
Proof. destruct cd as [[f lb] ub]. cbn. intros H. unfold Model_Session.recon_writes. now rewrite !read_sel by exact H. Qed.
Lemma sel_app d a b : sel d (a ++ b) = sel d a ++ sel d b.
Proof. apply filter_app. Qed.
Lemma sel_all d (a : store) : (forall p, In p (map fst a) -> savedir_of (folder_of p) = d) -> sel d a = a.
Proof.
  induction a as [|[p c] a IH]; intros H; [reflexivity|]. cbn. rewrite (H p) by (now left). rewrite String.eqb_refl. f_equal. apply IH.
  intros q I. apply H. now right.
Qed.
Lemma sel_none d (a : store) : (forall p, In p (map fst a) -> savedir_of (folder_of p) <> d) -> sel d a = [].
Proof.
  induction a as [|[p c] a IH]; intros H; [reflexivity|]. cbn. destruct (String.eqb_spec d (savedir_of (folder_of p))) as [E|_].
  - exfalso. apply (H p); [now left|now symmetry].
  - apply IH. intros q I. apply H. now right.
Qed.
Lemma perform_sel d st ws stop : (forall p, In p (map fst ws) -> savedir_of (folder_of p) = d) ->
  perform (sel d st) ws stop = (sel d (fst (perform st ws stop)), snd (perform st ws stop)).
Proof.
  intros H.
  assert (Rv : forall k, sel d (rev (firstn k ws)) = rev (firstn k ws)).
  { intros k. apply sel_all. intros p I. apply H. rewrite map_rev in I. apply in_rev in I. apply in_map_iff in I as [x [E I]].
    apply in_map_iff. exists x. split; [exact E|]. rewrite <- (firstn_skipn k ws). apply in_or_app. now left. }
  assert (Rv' : sel d (rev ws) = rev ws) by (rewrite <- (firstn_all ws) at 1; rewrite Rv; now rewrite firstn_all).
  unfold perform. destruct stop as [[k g]|].
  - destruct (nth_error ws k) as [[q c]|] eqn:E; cbn [fst snd]; rewrite !sel_app, ?Rv, ?Rv'; [|reflexivity].
    assert (Eq : savedir_of (folder_of q) = d) by (apply H, in_map_iff; exists (q, c); split; [reflexivity|eapply nth_error_In; eauto]).
    destruct g; [|reflexivity]. cbn. rewrite Eq, String.eqb_refl. reflexivity.
  - cbn [fst snd]. now rewrite sel_app, Rv'.
Qed.
Lemma perform_sel_other d st ws stop : (forall p, In p (map fst ws) -> savedir_of (folder_of p) <> d) -> sel d (fst (perform st ws stop)) = sel d st.
Proof.
  intros H. destruct (perform_ext st ws stop) as (new & b & -> & F). cbn [fst]. rewrite sel_app, sel_none; [reflexivity|]. auto.
Qed.
Lemma fit_folders f (r : fit_result Wt Md Lm) p : In p (map fst (fit_writes Cf Rc zero_mode f r)) -> folder_of p = f.
Proof. intros I. apply in_map_iff in I as [[q c] [E I]]. cbn in E. subst q. eapply fit_writes_paths; eauto. Qed.
Lemma cd_folders cd p : In p (cd_paths cd) -> folder_of p = fst (fst cd).
Proof. destruct cd as [[f lb] ub]. cbn. intros I. repeat (destruct I as [<-|I]; [reflexivity|]). easy. Qed.
Lemma recon_folders st cd t ws r p : recon_writes st cd t = Ok (ws, r) -> In p (map fst ws) -> folder_of p = fst (fst cd).
Proof. destruct cd as [[f lb] ub]. intros H I. apply recon_writes_inv in H as [-> _]. destruct I as [<-|[]]. reflexivity. Qed.

Definition tidy (w : world) : Prop := forall o,
  (forall f, o_sim (w_obj w o) = Some f -> savedir_of f = c_savedir (conf o)) /\
  (forall cd, o_coeffs (w_obj w o) = Some cd -> savedir_of (fst (fst cd)) = c_savedir (conf o)).
Definition view (d : string) (w w' : world) : Prop :=
  w_store w' = sel d (w_store w) /\ forall o, c_savedir (conf o) = d -> w_obj w' o = w_obj w o.
Lemma step_view d w w' e : tidy w -> view d w w' ->
  tidy (fst (step w e)) /\
  if uses d e then view d (fst (step w e)) (fst (step w' e)) /\ snd (step w' e) = snd (step w e) else view d (fst (step w e)) w'.
Proof.
  intros T [Vs Vo]. destruct e as [x stop]. unfold uses, Model_Session.step. cbn [fst snd]. rewrite Vs.
  destruct x as [o r|o f0 a|o cd0 t|f a|cd t].
  - (* fit *)
    set (f := sim_folder conf o r). assert (Sf : savedir_of f = c_savedir (conf o)) by reflexivity.
    assert (T' : tidy (World (fst (perform (w_store w) (fit_writes Cf Rc zero_mode f r) stop)) (set_obj (w_obj w) o (Obj (Some f) (o_coeffs (w_obj w o)))))).
    { intros o'. unfold set_obj. cbn [w_obj]. destruct (Nat.eqb_spec o' o) as [->|N]; [|apply T]. cbn [o_sim o_coeffs]. split; [now intros ? [= <-]|apply T]. }
    destruct (String.eqb_spec d (c_savedir (conf o))) as [Ed|Nd].
    + rewrite (@perform_sel d (w_store w) (fit_writes Cf Rc zero_mode f r) stop) by (intros p I; apply fit_folders in I; now rewrite I).
      rewrite (Vo o (eq_sym Ed)).
      destruct (perform (w_store w) _ stop) as [st b]. cbn [fst snd w_store w_obj] in *. split; [exact T'|]. split; [|reflexivity].
      split; [reflexivity|]. intros o' Ho'. cbn [w_obj]. unfold set_obj. destruct (o' =? o); [reflexivity|auto].
    + assert (P := @perform_sel_other d (w_store w) (fit_writes Cf Rc zero_mode f r) stop).
      destruct (perform (w_store w) _ stop) as [st b]. cbn [fst snd w_store w_obj] in *. split; [exact T'|]. split.
      * cbn [w_store]. rewrite P; [exact Vs|]. intros p I. apply fit_folders in I. rewrite I. congruence.
      * intros o' Ho'. cbn [w_obj]. unfold set_obj. destruct (Nat.eqb_spec o' o) as [->|N]; [congruence|auto].
  - (* coefficients of an object *)
    assert (To := proj1 (T o)). destruct (String.eqb_spec d (c_savedir (conf o))) as [Ed|Nd].
    + rewrite (Vo o (eq_sym Ed)). destruct (o_sim (w_obj w o)) as [f|] eqn:Eo; [|cbn; repeat split; auto; apply T].
      specialize (To f eq_refl). rewrite coeffs_sel by congruence.
      destruct (coeffs_writes (w_store w) f _) as [[ws cd]|y] eqn:C; [|cbn; repeat split; auto; apply T].
      apply coeffs_writes_paths in C as [Ew Ec].
      rewrite perform_sel by (intros p I; rewrite Ew in I; apply cd_folders in I; congruence).
      destruct (perform (w_store w) _ stop) as [st b]. destruct b; cbn [fst snd w_store w_obj]; (split; [|split; [|reflexivity]; split; [reflexivity|]]).
      * intros o'. unfold set_obj. cbn [w_obj]. destruct (Nat.eqb_spec o' o) as [->|N]; [|apply T]. cbn [o_sim o_coeffs].
        split; [intros f' [= <-]; exact To|]. intros ? [= <-]. now rewrite Ec.
      * intros o' Ho'. unfold set_obj. cbn [w_obj]. destruct (o' =? o); [reflexivity|auto].
      * exact T.
      * exact Vo.
    + destruct (o_sim (w_obj w o)) as [f|] eqn:Eo; [|cbn; repeat split; auto; apply T]. specialize (To f eq_refl).
      destruct (coeffs_writes (w_store w) f _) as [[ws cd]|y] eqn:C; [|cbn; repeat split; auto; apply T].
      apply coeffs_writes_paths in C as [Ew Ec].
      assert (P := @perform_sel_other d (w_store w) ws stop).
      assert (P' : sel d (fst (perform (w_store w) ws stop)) = sel d (w_store w)).
      { apply P. intros p I. rewrite Ew in I. apply cd_folders in I. congruence. } clear P.
      destruct (perform (w_store w) ws stop) as [st b]. cbn [fst] in P'. destruct b; cbn [fst snd w_store w_obj]; split.
      * intros o'. unfold set_obj. cbn [w_obj]. destruct (Nat.eqb_spec o' o) as [->|N]; [|apply T]. cbn [o_sim o_coeffs].
        split; [intros f' [= <-]; exact To|]. intros ? [= <-]. now rewrite Ec.
      * split; [cbn [w_store]; congruence|]. intros o' Ho'. unfold set_obj. cbn [w_obj]. destruct (Nat.eqb_spec o' o) as [->|N]; [congruence|auto].
      * exact T.
      * split; [cbn [w_store]; congruence|]. intros o' Ho'. cbn [w_obj]. auto.
  - (* reconstruction of an object *)
    assert (To := proj2 (T o)). destruct (String.eqb_spec d (c_savedir (conf o))) as [Ed|Nd].
    + rewrite (Vo o (eq_sym Ed)). destruct (o_coeffs (w_obj w o)) as [cd|] eqn:Eo; [|cbn; repeat split; auto; apply T].
      specialize (To cd eq_refl). rewrite recon_sel by congruence.
      destruct (recon_writes (w_store w) cd t) as [[ws r]|y] eqn:C; [|cbn; repeat split; auto; apply T].
      rewrite perform_sel by (intros p I; apply (recon_folders _ _ _ _ C) in I; congruence).
      destruct (perform (w_store w) ws stop) as [st b]. cbn [fst snd w_store w_obj]. split; [exact T|]. split; [|reflexivity]. split; [reflexivity|exact Vo].
    + destruct (o_coeffs (w_obj w o)) as [cd|] eqn:Eo; [|cbn; repeat split; auto; apply T]. specialize (To cd eq_refl).
      destruct (recon_writes (w_store w) cd t) as [[ws r]|y] eqn:C; [|cbn; repeat split; auto; apply T].
      assert (P : sel d (fst (perform (w_store w) ws stop)) = sel d (w_store w)).
      { apply perform_sel_other. intros p I. apply (recon_folders _ _ _ _ C) in I. congruence. }
      destruct (perform (w_store w) ws stop) as [st b]. cbn [fst snd w_store w_obj] in *. split; [exact T|]. split; [cbn [w_store]; congruence|exact Vo].
  - destruct (String.eqb_spec d (savedir_of f)) as [Ed|Nd].
    + rewrite coeffs_sel by congruence.
      destruct (coeffs_writes (w_store w) f _) as [[ws cd]|y] eqn:C; [|cbn; repeat split; auto; apply T].
      apply coeffs_writes_paths in C as [Ew Ec].
      rewrite perform_sel by (intros p I; rewrite Ew in I; apply cd_folders in I; congruence).
      destruct (perform (w_store w) _ stop) as [st b]. cbn [fst snd w_store w_obj]. split; [exact T|]. split; [|reflexivity]. split; [reflexivity|exact Vo].
    + destruct (coeffs_writes (w_store w) f _) as [[ws cd]|y] eqn:C; [|cbn; repeat split; auto; apply T].
      apply coeffs_writes_paths in C as [Ew Ec].
      assert (P : sel d (fst (perform (w_store w) ws stop)) = sel d (w_store w)).
      { apply perform_sel_other. intros p I. rewrite Ew in I. apply cd_folders in I. congruence. }
      destruct (perform (w_store w) ws stop) as [st b]. cbn [fst snd w_store w_obj] in *. split; [exact T|]. split; [cbn [w_store]; congruence|exact Vo].
  - destruct cd as [[f lb] ub]. destruct (String.eqb_spec d (savedir_of f)) as [Ed|Nd].
    + rewrite recon_sel by (cbn; congruence).
      destruct (recon_writes (w_store w) _ t) as [[ws r]|y] eqn:C; [|cbn; repeat split; auto; apply T].
      rewrite perform_sel by (intros p I; apply (recon_folders _ _ _ _ C) in I; cbn in I; congruence).
      destruct (perform (w_store w) ws stop) as [st b]. cbn [fst snd w_store w_obj]. split; [exact T|]. split; [|reflexivity]. split; [reflexivity|exact Vo].
    + destruct (recon_writes (w_store w) _ t) as [[ws r]|y] eqn:C; [|cbn; repeat split; auto; apply T].
      assert (P : sel d (fst (perform (w_store w) ws stop)) = sel d (w_store w)).
      { apply perform_sel_other. intros p I. apply (recon_folders _ _ _ _ C) in I. cbn in I. congruence. }
      destruct (perform (w_store w) ws stop) as [st b]. cbn [fst snd w_store w_obj] in *. split; [exact T|]. split; [cbn [w_store]; congruence|exact Vo].
Qed.
(* Whatever other objects and calls do under other savedirs, and in whatever order, the files under a savedir and the results
   of the calls that use it are those obtained without the others. *)
Theorem C97_isolation : forall h d, let own := filter (uses d) h in
  (forall p, savedir_of (folder_of p) = d ->
     lookup p (w_store (fst (run start h))) = lookup p (w_store (fst (run start own)))) /\
  map snd (filter (fun x => uses d (fst x)) (combine h (snd (run start h)))) = snd (run start own).
Proof.
  intros h d. cbv zeta.
  assert (G : forall w w', tidy w -> view d w w' ->
    view d (fst (run w h)) (fst (run w' (filter (uses d) h))) /\
    map snd (filter (fun x => uses d (fst x)) (combine h (snd (run w h)))) = snd (run w' (filter (uses d) h))).
  { induction h as [|e h IH]; intros w w' T V; [cbn; auto|]. destruct (@step_view d w w' e T V) as [T1 V1].
    cbn [Model_Session.run filter]. destruct (step w e) as [w1 x]. cbn [fst snd] in *.
    destruct (uses d e) eqn:U.
    - cbn [Model_Session.run]. destruct (step w' e) as [w1' x']. cbn [fst snd] in *. destruct V1 as [V1 ->].
      destruct (IH w1 w1' T1 V1) as [I1 I2]. destruct (run w1 h) as [w2 xs], (run w1' _) as [w2' xs']. cbn [fst snd combine filter] in *.
      rewrite U. cbn [map snd]. now rewrite I2.
    - destruct (IH w1 w' T1 V1) as [I1 I2]. destruct (run w1 h) as [w2 xs]. cbn [fst snd combine filter] in *. rewrite U. auto. }
  destruct (G start start) as [[Vs _] O]; [intros o; split; discriminate|split; [reflexivity|reflexivity]|].
  split; [|exact O]. intros p Hp. rewrite Vs. symmetry. now apply lookup_sel.
Qed.
End S.
Print Assumptions C97_last_computation.
Print Assumptions C97_shared_refuted.
Print Assumptions C97_isolation.
