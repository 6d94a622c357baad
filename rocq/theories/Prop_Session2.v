(* C96: the list of modes requested for the coefficients has no effect. *)
From Coq Require Import QArith String.
From Verif Require Import Base_List Model_Base Model_Select Model_Session Proof_Session.
Set Implicit Arguments.
Local Open Scope nat_scope.

Section S.
Variables Wt Md Lm Cf Rc Dat : Type.
Variable zero_mode : Md.
Variable mean_of : Dat -> Lm.
Variable nt_of_data : Dat -> nat.
Variable project : list Md -> Wt -> Dat -> Q -> bool -> res Cf.
Variable nt_of : Cf -> nat.
Variable rebuild : list Md -> Lm -> Cf -> list nat -> res Rc.
Variable conf : nat -> config.
Notation content := (content Wt Md Lm Cf Rc).
Notation store := (store Wt Md Lm Cf Rc).
Notation step := (@step Wt Md Lm Cf Rc Dat zero_mode mean_of nt_of_data project nt_of rebuild conf).
Notation run := (@run Wt Md Lm Cf Rc Dat zero_mode mean_of nt_of_data project nt_of rebuild conf).
Notation start := (@start Wt Md Lm Cf Rc).
Notation event := (event Wt Md Lm Dat).
Notation op := (op Wt Md Lm Dat).
Notation world := (world Wt Md Lm Cf Rc).
Notation coeffs_writes := (@coeffs_writes Wt Md Lm Cf Rc Dat zero_mode mean_of nt_of_data project).
Notation recon_writes := (@recon_writes Wt Md Lm Cf Rc nt_of rebuild).

(* equal arguments except the list of modes *)
Definition same_args (a a' : coeffs_args Dat) : Prop :=
  a_data a = a_data a' /\ a_tol a = a_tol a' /\ a_svd a = a_svd a' /\ a_T_lb a = a_T_lb a' /\ a_T_ub a = a_T_ub a' /\ a_freq_idx a = a_freq_idx a'.
Inductive same_but_modes : op -> op -> Prop :=
| SFit o r : same_but_modes (OFit o r) (OFit o r)
| SCoeffs o d a a' : same_args a a' -> same_but_modes (OCoeffs o d a) (OCoeffs o d a')
| SRecon o d t : same_but_modes (ORecon o d t) (ORecon o d t)
| SUCoeffs d a a' : same_args a a' -> same_but_modes (UCoeffs d a) (UCoeffs d a')
| SURecon d t : same_but_modes (URecon d t) (URecon d t).
(* equal file contents except the recorded list of modes *)
Inductive same_content : content -> content -> Prop :=
| Eq c : same_content c c
| Recorded i i' lb ub : same_content (CCoeffsParams i lb ub) (CCoeffsParams i' lb ub).
Inductive same_file : option content -> option content -> Prop :=
| Missing : same_file None None
| Present c c' : same_content c c' -> same_file (Some c) (Some c').

Definition same_store : store -> store -> Prop := Forall2 (fun e e' => fst e = fst e' /\ same_content (snd e) (snd e')).
Lemma lookup_same p st st' : same_store st st' -> same_file (lookup p st) (lookup p st').
Proof.
  induction 1 as [|[q c] [q' c'] st st' [E S] _ IH]; [constructor|]. cbn in *. subst q'.
  destruct (path_eq_dec p q); [now constructor|exact IH].
Qed.
Lemma bound_same st st' : same_store st st' -> bound st = bound st'.
Proof. induction 1 as [|[q c] [q' c'] st st' [E S] _ IH]; [reflexivity|]. cbn in E. subst q'. unfold bound in *. cbn [fold_right fst]. now rewrite IH. Qed.
Lemma modes_at_same st st' d f : same_store st st' -> modes_at st d f = modes_at st' d f.
Proof.
  intros H. unfold modes_at. destruct (lookup_same (PFreq d f) H) as [|c c' [c0|i i' lb ub]]; try reflexivity.
  assert (M : mode_numbers st d f = mode_numbers st' d f).
  { unfold mode_numbers. rewrite (bound_same H). apply filter_ext. intros m. now destruct (lookup_same (PMode d f m) H). }
  rewrite M. destruct (mode_numbers st' d f) as [|m ms]; [reflexivity|]. generalize (m :: ms). clear M m ms. intros ms.
  induction ms as [|m ms IH]; [reflexivity|]. cbn [read_modes]. rewrite IH.
  destruct (lookup_same (PMode d f m) H) as [|c c' [c0|i i' lb ub]]; reflexivity.
Qed.
Inductive same_read : res content -> res content -> Prop :=
| RErr e : same_read (Err e) (Err e)
| ROk c c' : same_content c c' -> same_read (Ok c) (Ok c').
Lemma read_same p st st' : same_store st st' -> same_read (read st p) (read st' p).
Proof.
  intros H. unfold read. destruct (lookup_same p H) as [|c c' [c0|? ? ? ?]]; [constructor| |repeat constructor].
  destruct c0; repeat constructor.
Qed.
Lemma required_same st st' d : same_store st st' -> required st d = required st' d.
Proof.
  intros H. unfold required.
  destruct (read_same (PEigs d) H) as [|e e' Se]; [reflexivity|].
  destruct (read_same (PWeights d) H) as [|w w' Sw]; [reflexivity|]. cbn [bind].
  destruct (read_same (PParams d) H) as [|p p' Sp]; [reflexivity|]. cbn [bind].
  destruct Se as [e|]; [|reflexivity]. destruct e; try reflexivity. destruct Sw as [w|]; [|reflexivity]. destruct w; try reflexivity.
  destruct Sp; reflexivity.
Qed.
Lemma coeffs_same st st' d a a' : same_store st st' -> same_args a a' ->
  (exists ws ws' cd, coeffs_writes st d a = Ok (ws, cd) /\ coeffs_writes st' d a' = Ok (ws', cd) /\ same_store ws ws') \/
  (exists x, coeffs_writes st d a = Err x /\ coeffs_writes st' d a' = Err x).
Proof.
  intros H (E1 & E2 & E3 & E4 & E5 & E6). unfold Model_Session.coeffs_writes. rewrite (required_same d H).
  destruct (required st' d) as [[[[nf nm] fr] wt]|x]; [|right; now exists x]. cbn [bind].
  rewrite E1, E2, E3, E4, E5, E6. rewrite (coeffs_modes_ext zero_mode (modes_at st d) (modes_at st' d)) by (intros; now apply modes_at_same).
  destruct (coeffs_modes _ _ _ _ _ _ _ _ _) as [[sel phir]|x]; [|right; now exists x]. cbn [bind].
  destruct (project _ _ _ _ _) as [c|x]; [|right; now exists x]. cbn [bind]. left. do 3 eexists. split; [reflexivity|]. split; [reflexivity|].
  repeat (constructor; [split; [reflexivity|cbn; constructor]|]). constructor.
Qed.
Lemma recon_same st st' cd t : same_store st st' -> recon_writes st cd t = recon_writes st' cd t.
Proof.
  intros H. destruct cd as [[d lb] ub]. unfold Model_Session.recon_writes.
  destruct (read_same (PLtm d lb ub) H) as [|m m' Sm]; [reflexivity|]. cbn [bind].
  destruct (read_same (PPhir d lb ub) H) as [|ph ph' Sph]; [reflexivity|]. cbn [bind].
  destruct (read_same (PCoeffsParams d lb ub) H) as [|p p' Sp]; [reflexivity|]. cbn [bind].
  destruct (read_same (PCoeffs d lb ub) H) as [|c c' Sc]; [reflexivity|]. cbn [bind].
  destruct Sm as [m|]; [|reflexivity]. destruct m; try reflexivity. destruct Sph as [ph|]; [|reflexivity]. destruct ph; try reflexivity.
  destruct Sp as [p|]; [destruct p; try reflexivity|]; destruct Sc; reflexivity.
Qed.
Lemma same_store_refl st : same_store st st.
Proof. induction st as [|e st IH]; [constructor|constructor; [split; [reflexivity|constructor]|exact IH]]. Qed.
Lemma perform_same st st' ws ws' stop : same_store st st' -> same_store ws ws' ->
  snd (perform st ws stop) = snd (perform st' ws' stop) /\ same_store (fst (perform st ws stop)) (fst (perform st' ws' stop)).
Proof.
  intros H W.
  assert (F : forall k, same_store (firstn k ws) (firstn k ws')).
  { clear - W. induction W; intros [|k]; cbn; try constructor; [assumption|apply IHW]. }
  assert (N : forall k, match nth_error ws k, nth_error ws' k with Some e, Some e' => fst e = fst e' | None, None => True | _, _ => False end).
  { clear - W. induction W as [|e e' ws ws' [E _] W IH]; intros [|k]; cbn; try exact I; [exact E|apply IH]. }
  assert (R : forall a a', same_store a a' -> same_store (rev a) (rev a')).
  { clear. intros a a'. induction 1; cbn; [constructor|]. apply Forall2_app; [assumption|repeat constructor; tauto]. }
  unfold perform. destruct stop as [[k g]|].
  - specialize (N k). destruct (nth_error ws k) as [[q c]|], (nth_error ws' k) as [[q' c']|]; try contradiction; cbn in N |- *.
    + subst q'. split; [reflexivity|]. apply Forall2_app; [destruct g; repeat constructor|]. apply Forall2_app; [now apply R|exact H].
    + split; [reflexivity|]. apply Forall2_app; [now apply R|exact H].
  - split; [reflexivity|]. apply Forall2_app; [now apply R|exact H].
Qed.

Lemma step_same w w' e e' : same_store (w_store w) (w_store w') -> w_obj w = w_obj w' -> same_but_modes (fst e) (fst e') -> snd e = snd e' ->
  snd (step w e) = snd (step w' e') /\ same_store (w_store (fst (step w e))) (w_store (fst (step w' e'))) /\
  w_obj (fst (step w e)) = w_obj (fst (step w' e')).
Proof.
  intros Hs Ho S Hstop. destruct e as [x stop], e' as [x' stop']. cbn in S, Hstop. subst stop'.
  unfold Model_Session.step. cbn [fst snd]. rewrite <- Ho. destruct S as [o r|o d a a' Ha|o d t|d a a' Ha|d t].
  - destruct (@perform_same _ _ (fit_writes Cf Rc zero_mode (sim_folder conf o r) r) _ stop Hs (same_store_refl _)) as [E1 E2].
    destruct (perform (w_store w) _ stop) as [st1 b1], (perform (w_store w') _ stop) as [st2 b2]. cbn in E1, E2 |- *. subst b2. auto.
  - destruct (o_sim (w_obj w o)) as [d'|]; [|cbn; auto].
    assert (Ha' : same_args (no_freq_idx a) (no_freq_idx a')) by (unfold same_args in *; cbn; tauto).
    destruct (coeffs_same d' Hs Ha') as [(ws & ws' & cd & -> & -> & W)|[y [-> ->]]]; [|cbn; auto].
    destruct (@perform_same _ _ _ _ stop Hs W) as [E1 E2].
    destruct (perform (w_store w) _ stop) as [st1 b1], (perform (w_store w') _ stop) as [st2 b2]. cbn in E1, E2. subst b2.
    destruct b1; cbn; auto. 
  - destruct (o_coeffs (w_obj w o)) as [cd|]; [|cbn; auto]. rewrite (recon_same cd t Hs).
    destruct (recon_writes (w_store w') cd t) as [[ws r]|y]; [|cbn; auto].
    destruct (@perform_same _ _ ws _ stop Hs (same_store_refl _)) as [E1 E2].
    destruct (perform (w_store w) _ stop) as [st1 b1], (perform (w_store w') _ stop) as [st2 b2]. cbn in E1, E2 |- *. subst b2. auto.
  - destruct (coeffs_same d Hs Ha) as [(ws & ws' & cd & -> & -> & W)|[y [-> ->]]]; [|cbn; auto].
    destruct (@perform_same _ _ _ _ stop Hs W) as [E1 E2].
    destruct (perform (w_store w) _ stop) as [st1 b1], (perform (w_store w') _ stop) as [st2 b2]. cbn in E1, E2 |- *. subst b2. auto.
  - rewrite (recon_same d t Hs).
    destruct (recon_writes (w_store w') d t) as [[ws r]|y]; [|cbn; auto].
    destruct (@perform_same _ _ ws _ stop Hs (same_store_refl _)) as [E1 E2].
    destruct (perform (w_store w) _ stop) as [st1 b1], (perform (w_store w') _ stop) as [st2 b2]. cbn in E1, E2 |- *. subst b2. auto.
Qed.

(* Two histories that differ only in the lists of modes requested have the same results (returned directories, exceptions,
   reconstructions) and leave the same files, except for the list recorded among the parameters. *)
Theorem C96_modes_idx_ignored : forall h h', Forall2 (fun e e' => same_but_modes (fst e) (fst e') /\ snd e = snd e') h h' ->
  snd (run start h) = snd (run start h') /\
  forall p, same_file (lookup p (w_store (fst (run start h)))) (lookup p (w_store (fst (run start h')))).
Proof.
  intros h h' H.
  assert (E : forall w w', same_store (w_store w) (w_store w') -> w_obj w = w_obj w' ->
    snd (run w h) = snd (run w' h') /\ same_store (w_store (fst (run w h))) (w_store (fst (run w' h')))).
  { induction H as [|e e' h h' [S Es] _ IH]; intros w w' Hs Ho; [cbn; auto|]. cbn [Model_Session.run].
    destruct (step_same w w' e e' Hs Ho S Es) as (E1 & E2 & E3).
    destruct (step w e) as [w1 o1], (step w' e') as [w1' o1']. cbn in E1, E2, E3. subst o1'.
    destruct (IH w1 w1' E2 E3) as [F1 F2]. destruct (run w1 h), (run w1' h'). cbn in *. subst. auto. }
  destruct (E start start (same_store_refl _) eq_refl) as [E1 E2]. split; [exact E1|]. intros p. now apply lookup_same.
Qed.
End S.
Print Assumptions C96_modes_idx_ignored.
