(* C115-C117: POD objects and functions over any history of operations. *)
From Coq Require Import QArith String.
From Verif Require Import Base_List Model_Base Model_Select Proof_Names Model_PodSession Proof_PodSession.
Set Implicit Arguments.
Local Open Scope nat_scope.

Ltac look := repeat match goal with |- context[path_eq_dec ?a ?b] =>
  let E := fresh "Ep" in destruct (path_eq_dec a b) as [E|E]; [try (exfalso; clear - E; injection E as E; discriminate E)|try (exfalso; apply E; reflexivity)] end.
Section S.
Variables Arr Pr Dat : Type.
Variable mean_of : Dat -> Arr.
Variable project : Pr -> Arr -> nat -> Dat -> res Arr.
Variable size_of : Arr -> nat.
Variable axis_of : Dat -> nat.
Variable nt_of : Arr -> res nat.
Variable rebuild : nat -> Arr -> Arr -> Arr -> list nat -> res Arr.
Variable conf : nat -> config.
Notation content := (content Arr Pr).
Notation store := (store Arr Pr).
Notation fit_result := (fit_result Arr Pr).
Notation event := (event Arr Pr Dat).
Notation op := (op Arr Pr Dat).
Notation world := (world Arr Pr).
Notation outcome := (outcome Arr).
Notation coeffs_writes := (@coeffs_writes Arr Pr Dat mean_of project size_of axis_of).
Notation recon_writes := (@recon_writes Arr Pr nt_of rebuild).
Notation step := (@step Arr Pr Dat mean_of project size_of axis_of nt_of rebuild conf).
Notation run := (@run Arr Pr Dat mean_of project size_of axis_of nt_of rebuild conf).
Notation writes_of := (@writes_of Arr Pr Dat mean_of project size_of axis_of nt_of rebuild conf).
Notation start := (@start Arr Pr).

(* the folder of an object: its savedir and its number of modes, nothing else *)
Definition folder_of (o : nat) : dir := c_savedir (conf o) ++ [("modes" ++ py_str (c_nmodes (conf o)))%string].
(* the operation did not store anything in folder d *)
Definition elsewhere (d : dir) (x : event * outcome) : Prop :=
  match fst (fst x) with
  | OFit o _ => folder_of o <> d
  | _ => match snd x with Dir d' | Rec _ d' => d' <> d | Stopped => False | _ => True end
  end.
(* what the reconstruction of all or some times returns *)
Definition reconstruction (ax : nat) (modes mean c : Arr) (b : recon_args Arr) (d : dir) : outcome :=
  match (do nt <- nt_of (match b_coeffs b with Some c' => c' | None => c end); do ts <- selected_times nt (b_time b);
         rebuild ax modes mean (match b_coeffs b with Some c' => c' | None => c end) ts) with Ok r => Rec r d | Err x => Raised x end.

Lemma step_frame w e d f : elsewhere d (e, snd (step w e)) -> lookup (d, f) (w_store (fst (step w e))) = lookup (d, f) (w_store w).
Proof.
  destruct e as [x stop]. intros H. rewrite step_store. apply perform_other. intros I. apply in_map_iff in I as [[p c] [E I]]. cbn in E. subst p.
  unfold elsewhere in H. cbn [fst snd] in H. unfold Model_PodSession.step, Proof_PodSession.writes_of in *. cbn [fst snd] in H. destruct x as [o r|o i a|o dd b|d0 s a|d0 s g b].
  - unfold fit_writes, results_folder in I. fold (folder_of o) in I. cbn in I.
    repeat (destruct I as [I|I]; [injection I as Ed _ _; now rewrite Ed in H|]). easy.
  - destruct (o_sim _) as [d0|]; [|easy]. destruct (coeffs_writes _ _ _ _) as [[ws cd]|y] eqn:C; [|easy].
    apply coeffs_writes_inv in C as (wt & phir & eigs & params & c0 & _ & _ & _ & _ & _ & _ & ->). clear - H I.
    destruct (perform _ _ stop) as [st' [|]]; cbn [snd] in H; [|easy].
    cbn in I. repeat (destruct I as [I|I]; [injection I as Ed _ _; now rewrite Ed in H|]). easy.
  - destruct (o_coeffs _) as [d0|]; [|easy]. destruct (recon_writes _ _ _ _ _) as [[ws [r cd]]|y] eqn:C; [|easy].
    apply recon_writes_inv in C as (? & ? & ? & ? & ? & ? & _ & _ & _ & _ & _ & ->). clear - H I.
    destruct (perform _ _ stop) as [st' [|]]; cbn [snd] in H; [|easy].
    cbn in I. repeat (destruct I as [I|I]; [injection I as Ed _ _; now rewrite Ed in H|]). easy.
  - destruct (coeffs_writes _ _ _ _) as [[ws cd]|y] eqn:C; [|easy].
    apply coeffs_writes_inv in C as (wt & phir & eigs & params & c0 & _ & _ & _ & _ & _ & _ & ->). clear - H I.
    destruct (perform _ _ stop) as [st' [|]]; cbn [snd] in H; [|easy].
    cbn in I. repeat (destruct I as [I|I]; [injection I as Ed _ _; now rewrite Ed in H|]). easy.
  - destruct (recon_writes _ _ _ _ _) as [[ws [r cd]]|y] eqn:C; [|easy].
    apply recon_writes_inv in C as (? & ? & ? & ? & ? & ? & _ & _ & _ & _ & _ & ->). clear - H I.
    destruct (perform _ _ stop) as [st' [|]]; cbn [snd] in H; [|easy].
    cbn in I. repeat (destruct I as [I|I]; [injection I as Ed _ _; now rewrite Ed in H|]). easy.
Qed.
Lemma run_frame d f : forall h w, Forall (elsewhere d) (combine h (snd (run w h))) ->
  lookup (d, f) (w_store (fst (run w h))) = lookup (d, f) (w_store w).
Proof.
  induction h as [|e h IH]; intros w H; [reflexivity|]. cbn [Model_PodSession.run] in *.
  assert (F := @step_frame w e d f). destruct (step w e) as [w1 x]. specialize (IH w1). destruct (run w1 h) as [w2 xs]. cbn [fst snd combine] in *.
  inversion_clear H as [|? ? H1 H2]. rewrite IH by exact H2. now apply F.
Qed.

(* attributes of an object after any history *)
Definition fitted (o : nat) (h : list event) : Prop := exists r s, In (OFit o r, s) h.
Lemma sim_law : forall h o, (fitted o h -> o_sim (w_obj (fst (run start h)) o) = Some (folder_of o)) /\
  (~ fitted o h -> o_sim (w_obj (fst (run start h)) o) = None).
Proof.
  induction h as [|e h IH] using rev_ind; intros o.
  - split; [intros (r & s & [])|reflexivity].
  - rewrite world_snoc. set (w := fst (run start h)) in *.
    assert (S : o_sim (w_obj (fst (step w e)) o) = match fst e with OFit o' _ => if o =? o' then Some (folder_of o) else o_sim (w_obj w o) | _ => o_sim (w_obj w o) end).
    { destruct e as [x stop]. unfold Model_PodSession.step. cbn [fst snd]. destruct x as [o' r|o' i a|o' dd b|d0 s a|d0 s g b].
      - destruct (perform _ _ stop). cbn. unfold set_obj. destruct (Nat.eqb_spec o o') as [->|]; reflexivity.
      - destruct (o_sim (w_obj w o')) as [d|] eqn:Es; [|reflexivity]. destruct (coeffs_writes _ _ _ _) as [[ws cd]|]; [|reflexivity].
        destruct (perform _ _ stop) as [st' [|]]; [|reflexivity]. cbn. unfold set_obj. destruct (Nat.eqb_spec o o') as [->|]; [exact (eq_sym Es)|reflexivity].
      - destruct (o_coeffs _); [|reflexivity]. destruct (recon_writes _ _ _ _ _) as [[ws [r cd]]|]; [|reflexivity].
        destruct (perform _ _ stop) as [st' [|]]; [|reflexivity]. cbn. unfold set_obj. destruct (Nat.eqb_spec o o') as [->|]; reflexivity.
      - destruct (coeffs_writes _ _ _ _) as [[ws cd]|]; [|reflexivity]. destruct (perform _ _ stop) as [st' [|]]; reflexivity.
      - destruct (recon_writes _ _ _ _ _) as [[ws [r cd]]|]; [|reflexivity]. destruct (perform _ _ stop) as [st' [|]]; reflexivity. }
    rewrite S. destruct (IH o) as [I1 I2]. destruct e as [x stop]. cbn [fst].
    assert (Fin : fitted o h -> fitted o (h ++ [(x, stop)])) by (intros (r & s & I); exists r, s; apply in_or_app; now left).
    assert (Finv : fitted o (h ++ [(x, stop)]) -> fitted o h \/ exists r, x = OFit o r).
    { intros (r & s & I). apply in_app_iff in I as [I|[I|[]]]; [left; now exists r, s|right; injection I as -> ->; now exists r]. }
    assert (K : (exists r, x = OFit o r) \/ ~ (exists r, x = OFit o r)).
    { destruct x as [o' r| | | |]; [destruct (Nat.eq_dec o' o) as [->|N]; [left; eauto|right; intros [? E]; congruence]|..]; right; intros [? E]; discriminate. }
    destruct K as [[r ->]|K].
    + rewrite Nat.eqb_refl. split; [reflexivity|]. intros H. exfalso. apply H. exists r, stop. apply in_or_app. right. now left.
    + replace (match x with OFit o' _ => if o =? o' then Some (folder_of o) else o_sim (w_obj w o) | _ => o_sim (w_obj w o) end) with (o_sim (w_obj w o)).
      * split; [intros H; apply I1; now destruct (Finv H)|intros H; apply I2; tauto].
      * destruct x as [o' r| | | |]; try reflexivity. destruct (Nat.eqb_spec o o') as [->|]; [exfalso; eauto|reflexivity].
Qed.

(* the coefficients method: the files of the fit in the object's folder and the record; then reconstruction *)
Lemma coeffs_law w o d r wt eigs i a :
  o_sim (w_obj w o) = Some d ->
  lookup (d, "weights.npy"%string) (w_store w) = Some (CArr wt) -> lookup (d, "modes.npy"%string) (w_store w) = Some (CArr (r_modes r)) ->
  lookup (d, "eigs.npz"%string) (w_store w) = Some (CNpz eigs) -> lookup (d, "params_modes.yaml"%string) (w_store w) = Some (CYaml (r_params r)) ->
  match project (r_params r) (r_modes r) (size_of wt) (a_data a) with
  | Err x => step w (OCoeffs o i a, None) = (w, Raised x)
  | Ok c => let cd := d ++ ["coeffs"%string] in
      snd (step w (OCoeffs o i a, None)) = Dir cd /\
      lookup (cd, "coeffs.npy"%string) (w_store (fst (step w (OCoeffs o i a, None)))) = Some (CArr c) /\
      forall dd b, snd (step (fst (step w (OCoeffs o i a, None))) (ORecon o dd b, None)) = reconstruction (axis_of (a_data a)) (r_modes r) (mean_of (a_data a)) c b cd
  end.
Proof.
  intros Es L1 L2 L3 L4. set (cd := d ++ ["coeffs"%string]).
  assert (St : step w (OCoeffs o i a, None) = match project (r_params r) (r_modes r) (size_of wt) (a_data a) with
    | Err x => (w, Raised x)
    | Ok c => (World (rev [((cd, "coeffs.npy"%string), CArr c); ((cd, "modes_r.npy"%string), CArr (r_modes r)); ((cd, "ltm.npy"%string), CArr (mean_of (a_data a)));
          ((cd, "params_coeffs.yaml"%string), CCoeffsYaml (r_params r) cd (a_modes_idx a) (axis_of (a_data a)))] ++ w_store w)
          (set_obj (w_obj w) o (Obj (Some d) (Some cd))), Dir cd) end).
  { unfold Model_PodSession.step. cbn [fst snd]. rewrite Es.
    unfold Model_PodSession.coeffs_writes, read_arr, read_npz, read_yaml. rewrite L1, L2, L3, L4. cbn [bind].
    destruct (project _ _ _ _) as [c|x]; cbn [bind]; [|reflexivity]. reflexivity. }
  rewrite St. clear St. destruct (project _ _ _ _) as [c|x]; [|reflexivity]. cbv zeta. cbn [fst snd w_store].
  split; [reflexivity|]. split.
  { rewrite lookup_app. cbn [rev app lookup].
    repeat (destruct (path_eq_dec _ _) as [E|?]; [try reflexivity; exfalso; clear - E; injection E as E; discriminate|]). congruence. }
  intros dd b. unfold Model_PodSession.step. cbn [fst snd w_obj w_store]. unfold set_obj. rewrite Nat.eqb_refl. cbn [o_coeffs].
  set (ws := [((cd, "coeffs.npy"%string), CArr c); ((cd, "modes_r.npy"%string), CArr (r_modes r)); ((cd, "ltm.npy"%string), CArr (mean_of (a_data a)));
          ((cd, "params_coeffs.yaml"%string), CCoeffsYaml (r_params r) cd (a_modes_idx a) (axis_of (a_data a)))]).
  assert (R : forall x, In x ["ltm.npy"; "modes_r.npy"; "params_coeffs.yaml"; "coeffs.npy"]%string ->
     lookup (cd, x) (rev ws ++ w_store w) = lookup (cd, x) (rev ws)).
  { intros x Hx. unfold ws. rewrite lookup_app. cbn [rev app lookup].
    repeat (destruct (path_eq_dec _ _) as [E|?]; [reflexivity|]).
    exfalso. cbn in Hx. repeat (destruct Hx as [<-|Hx]; [congruence|]). easy. }
  unfold Model_PodSession.recon_writes, read_arr, read_max_axis. rewrite !R by (cbn; tauto). unfold ws. cbn [rev app lookup].
  look. cbn [bind]. unfold reconstruction. destruct (b_coeffs b) as [c'|]; cbn [bind].
  - destruct (nt_of c'); cbn [bind]; [|reflexivity]. destruct (selected_times _ _); cbn [bind]; [|reflexivity].
    destruct (rebuild _ _ _ _ _); cbn [bind]; [|reflexivity]. cbn. now rewrite app_nil_r.
  - destruct (nt_of c); cbn [bind]; [|reflexivity]. destruct (selected_times _ _); cbn [bind]; [|reflexivity].
    destruct (rebuild _ _ _ _ _); cbn [bind]; [|reflexivity]. cbn. now rewrite app_nil_r.
Qed.

(* ---- C115 ---- *)
(* The coefficients of any object fitted at some time with the same savedir and number of modes are those of the modes of the last fit
   stored in that folder, whichever object made it, and so is the reconstruction. *)
Theorem C115_last_fit_in_folder : forall h0 o1 r h o2 i a, folder_of o2 = folder_of o1 -> o2 = o1 \/ fitted o2 h0 ->
  let w1 := fst (run start (h0 ++ [(OFit o1 r, None)])) in
  Forall (elsewhere (folder_of o1)) (combine h (snd (run w1 h))) ->
  let w2 := fst (run w1 h) in
  match project (r_params r) (r_modes r) (size_of (r_weights r)) (a_data a) with
  | Err x => snd (step w2 (OCoeffs o2 i a, None)) = Raised x
  | Ok c => let cd := folder_of o1 ++ ["coeffs"%string] in
      snd (step w2 (OCoeffs o2 i a, None)) = Dir cd /\
      lookup (cd, "coeffs.npy"%string) (w_store (fst (step w2 (OCoeffs o2 i a, None)))) = Some (CArr c) /\
      forall dd b, snd (step (fst (step w2 (OCoeffs o2 i a, None))) (ORecon o2 dd b, None)) =
                   reconstruction (axis_of (a_data a)) (r_modes r) (mean_of (a_data a)) c b cd
  end.
Proof.
  intros h0 o1 r h o2 i a Ef Ho w1 Hh w2.
  assert (Es : o_sim (w_obj w2 o2) = Some (folder_of o1)).
  { unfold w2, w1. assert (E : run start ((h0 ++ [(OFit o1 r, None)]) ++ h) = run start ((h0 ++ [(OFit o1 r, None)]) ++ h)) by reflexivity.
    rewrite run_app in E at 1. apply (f_equal fst) in E. cbn [fst] in E. rewrite E. rewrite <- Ef. apply sim_law.
    destruct Ho as [->|(r' & s & I)]; [exists r, None|exists r', s]; rewrite !in_app_iff; cbn; auto. }
  assert (L : forall f, lookup (folder_of o1, f) (w_store w2) = lookup (folder_of o1, f) (rev (fit_writes (folder_of o1) r) ++ w_store (fst (run start h0)))).
  { intros f. unfold w2. rewrite run_frame by exact Hh. unfold w1. rewrite world_snoc, step_store. reflexivity. }
  assert (Hl := @coeffs_law w2 o2 (folder_of o1) r (r_weights r) (r_eigs r) i a Es).
  rewrite !L in Hl. cbn [rev fit_writes app lookup] in Hl.
  revert Hl. look. intros Hl.
  specialize (Hl eq_refl eq_refl eq_refl eq_refl). destruct (project _ _ _ _); [exact Hl|now rewrite Hl].
Qed.
(* Two objects with the same savedir and number of modes: after both have been fitted, the first works with the modes of the second. *)
Theorem C115_other_objects_modes_refuted : forall h o1 r1 o2 r2 i a c, folder_of o1 = folder_of o2 ->
  project (r_params r2) (r_modes r2) (size_of (r_weights r2)) (a_data a) = Ok c ->
  let w := fst (run start (h ++ [(OFit o1 r1, None); (OFit o2 r2, None)])) in
  lookup (folder_of o1 ++ ["coeffs"%string], "coeffs.npy"%string) (w_store (fst (step w (OCoeffs o1 i a, None)))) = Some (CArr c) /\
  forall dd b, snd (step (fst (step w (OCoeffs o1 i a, None))) (ORecon o1 dd b, None)) =
    reconstruction (axis_of (a_data a)) (r_modes r2) (mean_of (a_data a)) c b (folder_of o1 ++ ["coeffs"%string]).
Proof.
  intros h o1 r1 o2 r2 i a c Ef Hp w. assert (T := @C115_last_fit_in_folder (h ++ [(OFit o1 r1, None)]) o2 r2 [] o1 i a Ef).
  cbv zeta in T. rewrite Hp in T. rewrite Ef. unfold w. replace (h ++ [(OFit o1 r1, None); (OFit o2 r2, None)]) with ((h ++ [(OFit o1 r1, None)]) ++ [(OFit o2 r2, None)]) by (now rewrite <- app_assoc).
  apply T; [|constructor]. right. exists r1, None. apply in_or_app. right. now left.
Qed.
(* Objects that differ in savedir or number of modes never share a folder. *)
Theorem C115_folders_differ : forall o1 o2, folder_of o1 = folder_of o2 <-> c_savedir (conf o1) = c_savedir (conf o2) /\ c_nmodes (conf o1) = c_nmodes (conf o2).
Proof.
  intros o1 o2. unfold folder_of. split; [|now intros [-> ->]]. intros E. apply app_inj_tail in E as [E1 E2]. split; [exact E1|].
  apply app_inj_l in E2. now apply py_str_inj.
Qed.

(* ---- C116: what has no influence ---- *)
Definition same_fit (r r' : fit_result) : Prop := r_modes r = r_modes r' /\ r_params r = r_params r' /\ size_of (r_weights r) = size_of (r_weights r').
(* equal operations up to: the values of the weights and eigenvalues of a fit, results_dir, tol, svd, T_lb, T_ub and modes_idx of the
   coefficients, coeffs_dir of the reconstruction method *)
Inductive same_but : op -> op -> Prop :=
| SFit o r r' : same_fit r r' -> same_but (OFit o r) (OFit o r')
| SCoeffs o i i' d m m' : same_but (OCoeffs o i (CoeffsArgs d m)) (OCoeffs o i' (CoeffsArgs d m'))
| SRecon o d d' b : same_but (ORecon o d b) (ORecon o d' b)
| SUCoeffs d s x m m' : same_but (UCoeffs d s (CoeffsArgs x m)) (UCoeffs d s (CoeffsArgs x m'))
| SURecon d s f b : same_but (URecon d s f b) (URecon d s f b).
Definition same_content (f : string) (c c' : content) : Prop :=
  if string_dec f "weights.npy" then match c, c' with CArr a, CArr a' => size_of a = size_of a' | _, _ => c = c' end
  else if string_dec f "eigs.npz" then match c, c' with CNpz _, CNpz _ => True | _, _ => c = c' end
  else if string_dec f "params_coeffs.yaml" then match c, c' with CCoeffsYaml p d _ ax, CCoeffsYaml p' d' _ ax' => p = p' /\ d = d' /\ ax = ax' | _, _ => c = c' end
  else c = c'.
Definition same_write (x x' : path * content) : Prop := fst x = fst x' /\ same_content (snd (fst x)) (snd x) (snd x').
Definition same_store (st st' : store) : Prop := forall p, match lookup p st, lookup p st' with Some c, Some c' => same_content (snd p) c c' | None, None => True | _, _ => False end.
Lemma same_content_refl f c : same_content f c c.
Proof. unfold same_content. repeat destruct (string_dec _ _); destruct c; auto. Qed.
Lemma same_lookup ws ws' : Forall2 same_write ws ws' -> forall st st', same_store st st' -> same_store (ws ++ st) (ws' ++ st').
Proof.
  induction 1 as [|[p c] [p' c'] ws ws' [E S] _ IH]; intros st st' Hs; [exact Hs|]. cbn in E. subst p'. cbn [fst snd] in S.
  intros q. cbn [app lookup]. destruct (path_eq_dec q p) as [->|N]; [exact S|]. now apply IH.
Qed.
Lemma Forall2_rev' {A B} (R : A -> B -> Prop) l l' : Forall2 R l l' -> Forall2 R (rev l) (rev l').
Proof. induction 1; cbn; [constructor|]. apply Forall2_app; [assumption|]. constructor; [assumption|constructor]. Qed.
Lemma Forall2_firstn' {A B} (R : A -> B -> Prop) l l' k : Forall2 R l l' -> Forall2 R (firstn k l) (firstn k l').
Proof. intros H. revert k. induction H; intros [|k]; cbn; constructor; auto. Qed.
Lemma Forall2_nth {A B} (R : A -> B -> Prop) l l' k : Forall2 R l l' -> match nth_error l k, nth_error l' k with Some a, Some b => R a b | None, None => True | _, _ => False end.
Proof. intros H. revert k. induction H; intros [|k]; cbn; auto. apply IHForall2. Qed.
Lemma same_perform ws ws' st st' stop : Forall2 same_write ws ws' -> same_store st st' ->
  same_store (fst (perform st ws stop)) (fst (perform st' ws' stop)) /\ snd (perform st ws stop) = snd (perform st' ws' stop).
Proof.
  intros H Hs. unfold perform. destruct stop as [[k g]|].
  - assert (N := Forall2_nth k H). destruct (nth_error ws k) as [[p c]|], (nth_error ws' k) as [[p' c']|]; try easy.
    + destruct N as [E _]. cbn in E. subst p'. split; [|reflexivity]. cbn [fst]. rewrite !app_assoc. apply same_lookup; [|exact Hs].
      apply Forall2_app; [destruct g; repeat constructor; apply same_content_refl|]. now apply Forall2_rev', Forall2_firstn'.
    + split; [|reflexivity]. apply same_lookup; [now apply Forall2_rev'|exact Hs].
  - split; [|reflexivity]. apply same_lookup; [now apply Forall2_rev'|exact Hs].
Qed.
Lemma same_arr st st' d f : same_store st st' -> f <> "weights.npy"%string -> f <> "eigs.npz"%string -> f <> "params_coeffs.yaml"%string -> lookup (d, f) st = lookup (d, f) st'.
Proof.
  intros Hs N1 N2 N3. specialize (Hs (d, f)). unfold same_content in Hs. cbn [snd] in Hs.
  destruct (string_dec f "weights.npy"); [easy|]. destruct (string_dec f "eigs.npz"); [easy|]. destruct (string_dec f "params_coeffs.yaml"); [easy|].
  destruct (lookup (d, f) st), (lookup (d, f) st'); try easy. now rewrite Hs.
Qed.
Lemma same_coeffs st st' d s x m m' : same_store st st' ->
  match coeffs_writes st d s (CoeffsArgs x m), coeffs_writes st' d s (CoeffsArgs x m') with
  | Ok (ws, cd), Ok (ws', cd') => Forall2 same_write ws ws' /\ cd = cd'
  | Err e, Err e' => e = e' | _, _ => False end.
Proof.
  intros Hs. unfold Model_PodSession.coeffs_writes, read_arr, read_npz, read_yaml.
  rewrite <- (@same_arr _ _ d "modes.npy" Hs), <- (@same_arr _ _ d "params_modes.yaml" Hs) by discriminate.
  assert (H1 := Hs (d, "weights.npy"%string)). assert (H2 := Hs (d, "eigs.npz"%string)). unfold same_content in H1, H2. cbn in H1, H2.
  destruct (lookup (d, "weights.npy"%string) st) as [c1|], (lookup (d, "weights.npy"%string) st') as [c1'|]; try easy.
  destruct c1; try (rewrite <- H1; cbn [bind]; reflexivity); destruct c1'; try discriminate; cbn [bind]; try reflexivity. rewrite <- H1.
  destruct (lookup (d, "modes.npy"%string) st) as [[| | | |]|]; cbn [bind]; try reflexivity.
  destruct (lookup (d, "eigs.npz"%string) st) as [c2|], (lookup (d, "eigs.npz"%string) st') as [c2'|]; try easy; cbn [bind].
  destruct c2; try (rewrite <- H2; cbn [bind]; reflexivity); destruct c2'; try discriminate; cbn [bind]; try reflexivity.
  destruct (lookup (d, "params_modes.yaml"%string) st) as [[| | | |]|]; cbn [bind]; try reflexivity. cbn [a_data a_modes_idx].
  destruct (project _ _ _ _); cbn [bind]; [|reflexivity]. split; [|reflexivity].
  repeat constructor; cbn; auto; apply same_content_refl.
Qed.
Lemma same_recon st st' d s f b : same_store st st' -> recon_writes st d s f b = recon_writes st' d s f b.
Proof.
  intros Hs. unfold Model_PodSession.recon_writes, read_arr, read_max_axis.
  rewrite <- (@same_arr _ _ d "ltm.npy" Hs), <- (@same_arr _ _ d "modes_r.npy" Hs), <- (@same_arr _ _ d "coeffs.npy" Hs) by discriminate.
  assert (H1 := Hs (d, "params_coeffs.yaml"%string)). unfold same_content in H1. cbn in H1.
  assert (E : match lookup (d, "params_coeffs.yaml"%string) st with Some (CCoeffsYaml _ _ _ ax) => Ok ax | Some _ => Err ValueError | None => Err OSError end =
              match lookup (d, "params_coeffs.yaml"%string) st' with Some (CCoeffsYaml _ _ _ ax) => Ok ax | Some _ => Err ValueError | None => Err OSError end).
  { destruct (lookup (d, "params_coeffs.yaml"%string) st) as [c1|], (lookup (d, "params_coeffs.yaml"%string) st') as [c1'|]; try easy.
    destruct c1, c1'; try discriminate; try reflexivity. destruct H1 as (_ & _ & ->). reflexivity. }
  now rewrite E.
Qed.
Lemma same_step w w' x x' stop : same_but x x' -> same_store (w_store w) (w_store w') -> w_obj w = w_obj w' ->
  snd (step w (x, stop)) = snd (step w' (x', stop)) /\ same_store (w_store (fst (step w (x, stop)))) (w_store (fst (step w' (x', stop)))) /\
  w_obj (fst (step w (x, stop))) = w_obj (fst (step w' (x', stop))).
Proof.
  intros H Hs Ho. unfold Model_PodSession.step. cbn [fst snd]. rewrite Ho. destruct H as [o r r' (E1 & E2 & E3)|o i i' d m m'|o d d' b|d s x m m'|d s f b].
  - assert (F : Forall2 same_write (fit_writes (results_folder conf o) r) (fit_writes (results_folder conf o) r')).
    { unfold fit_writes. rewrite E1, E2. repeat constructor; cbn; auto. }
    destruct (@same_perform _ _ _ _ stop F Hs) as [P1 P2]. destruct (perform _ _ stop), (perform _ _ stop). cbn in *. rewrite P2. auto.
  - destruct (o_sim _) as [d0|]; [|cbn; auto]. assert (C := @same_coeffs _ _ d0 None d m m' Hs).
    destruct (coeffs_writes (w_store w) _ _ _) as [[ws cd]|e], (coeffs_writes (w_store w') _ _ _) as [[ws' cd']|e']; try easy; [|subst; auto].
    destruct C as [F <-]. destruct (@same_perform _ _ _ _ stop F Hs) as [P1 P2]. destruct (perform _ ws stop) as [? ok], (perform _ ws' stop) as [? ok'].
    cbn in P1, P2. subst ok'. destruct ok; cbn; auto.
  - destruct (o_coeffs _) as [d0|]; [|cbn; auto]. rewrite <- (@same_recon _ _ d0 None None b Hs).
    destruct (recon_writes (w_store w) _ _ _ _) as [[ws [r cd]]|e]; [|auto].
    assert (F : Forall2 same_write ws ws) by (clear; induction ws; constructor; auto; split; [reflexivity|apply same_content_refl]).
    destruct (@same_perform _ _ _ _ stop F Hs) as [P1 P2]. destruct (perform (w_store w) ws stop) as [? ok], (perform (w_store w') ws stop) as [? ok'].
    cbn in P1, P2. subst ok'. destruct ok; cbn; auto.
  - assert (C := @same_coeffs _ _ d s x m m' Hs).
    destruct (coeffs_writes (w_store w) _ _ _) as [[ws cd]|e], (coeffs_writes (w_store w') _ _ _) as [[ws' cd']|e']; try easy; [|subst; auto].
    destruct C as [F <-]. destruct (@same_perform _ _ _ _ stop F Hs) as [P1 P2]. destruct (perform _ ws stop) as [? ok], (perform _ ws' stop) as [? ok'].
    cbn in P1, P2. subst ok'. destruct ok; cbn; auto.
  - rewrite <- (@same_recon _ _ d s f b Hs).
    destruct (recon_writes (w_store w) _ _ _ _) as [[ws [r cd]]|e]; [|auto].
    assert (F : Forall2 same_write ws ws) by (clear; induction ws; constructor; auto; split; [reflexivity|apply same_content_refl]).
    destruct (@same_perform _ _ _ _ stop F Hs) as [P1 P2]. destruct (perform (w_store w) ws stop) as [? ok], (perform (w_store w') ws stop) as [? ok'].
    cbn in P1, P2. subst ok'. destruct ok; cbn; auto.
Qed.
(* Two histories that differ only in those arguments return and raise the same, and leave the same coefficients, modes, means and
   reconstructions. *)
Theorem C116_no_influence : forall h h', Forall2 (fun e e' => same_but (fst e) (fst e') /\ snd e = snd e') h h' ->
  snd (run start h) = snd (run start h') /\
  forall d f, f <> "weights.npy"%string -> f <> "eigs.npz"%string -> f <> "params_coeffs.yaml"%string ->
    lookup (d, f) (w_store (fst (run start h))) = lookup (d, f) (w_store (fst (run start h'))).
Proof.
  intros h h' H.
  assert (G : forall w w', same_store (w_store w) (w_store w') -> w_obj w = w_obj w' ->
     snd (run w h) = snd (run w' h') /\ same_store (w_store (fst (run w h))) (w_store (fst (run w' h')))).
  { induction H as [|[x s] [x' s'] h h' [S E] _ IH]; intros w w' Hs Ho; [cbn; auto|]. cbn in S, E. subst s'. cbn [Model_PodSession.run].
    destruct (@same_step w w' x x' s S Hs Ho) as (T1 & T2 & T3).
    destruct (step w (x, s)) as [w1 o1], (step w' (x', s)) as [w1' o1']. cbn in T1, T2, T3. subst o1'. destruct (IH w1 w1' T2 T3) as [I1 I2].
    destruct (run w1 h), (run w1' h'). cbn in *. subst. auto. }
  destruct (G start start) as [G1 G2]; [intros p; exact I|reflexivity|]. split; [exact G1|]. intros d f N1 N2 N3. now apply same_arr.
Qed.

(* ---- C117: a new fit does not concern the reconstructions until the coefficients are computed again ---- *)
Lemma coeffs_dir_law : forall h o cd, o_coeffs (w_obj (fst (run start h)) o) = Some cd -> exists d, cd = d ++ ["coeffs"%string].
Proof.
  induction h as [|e h IH] using rev_ind; intros o cd; [discriminate|]. rewrite world_snoc. set (w := fst (run start h)) in *.
  destruct e as [x stop]. unfold Model_PodSession.step. cbn [fst snd]. destruct x as [o' r|o' i a|o' dd b|d0 s a|d0 s g b].
  - destruct (perform _ _ stop). cbn. unfold set_obj. destruct (Nat.eqb_spec o o') as [->|]; cbn; apply IH.
  - destruct (o_sim (w_obj w o')) as [d|] eqn:Es; [|apply IH]. destruct (coeffs_writes _ _ _ _) as [[ws cd']|] eqn:C; [|apply IH].
    destruct (perform _ _ stop) as [st' [|]]; [|apply IH]. cbn. unfold set_obj. destruct (Nat.eqb_spec o o') as [->|]; [|apply IH].
    cbn. intros E. injection E as <-. apply coeffs_writes_inv in C as (? & ? & ? & ? & ? & _ & _ & _ & _ & _ & -> & _). exists d. now rewrite app_nil_r.
  - destruct (o_coeffs (w_obj w o')) as [d|] eqn:Es; [|apply IH]. destruct (recon_writes _ _ _ _ _) as [[ws [r cd']]|] eqn:C; [|apply IH].
    destruct (perform _ _ stop) as [st' [|]]; [|apply IH]. cbn. unfold set_obj. destruct (Nat.eqb_spec o o') as [->|]; [|apply IH].
    cbn. intros E. injection E as <-. apply recon_writes_inv in C as (? & ? & ? & ? & ? & ? & _ & _ & _ & _ & -> & _). rewrite app_nil_r. now apply (IH o').
  - destruct (coeffs_writes _ _ _ _) as [[ws cd']|]; [|apply IH]. destruct (perform _ _ stop) as [st' [|]]; apply IH.
  - destruct (recon_writes _ _ _ _ _) as [[ws [r cd']]|]; [|apply IH]. destruct (perform _ _ stop) as [st' [|]]; apply IH.
Qed.
Lemma has_coeffs : forall h o i a stop d, In ((OCoeffs o i a, stop), Dir d) (combine h (snd (run start h))) -> o_coeffs (w_obj (fst (run start h)) o) <> None.
Proof.
  induction h as [|e h IH] using rev_ind; intros o i a stop d; [intros []|]. rewrite world_snoc, run_app. cbn [snd].
  assert (Hc : forall (l : list event) (l' : list outcome) a b, length l = length l' -> combine (l ++ [a]) (l' ++ [b]) = combine l l' ++ [(a, b)]).
  { clear. induction l as [|x l IH]; intros [|y l'] a b L; cbn in *; try lia; [reflexivity|]. f_equal. apply IH. lia. }
  set (w := fst (run start h)) in *.
  assert (Ee : snd (run w [e]) = [snd (step w e)]) by (cbn; destruct (step w e); reflexivity). rewrite Ee.
  rewrite Hc by (symmetry; apply run_length). clear Hc Ee. intros I.
  assert (K : o_coeffs (w_obj w o) <> None \/ (e = (OCoeffs o i a, stop) /\ snd (step w e) = Dir d)).
  { apply in_app_iff in I as [I|[I|[]]]; [left; eapply IH; exact I|right; injection I as -> ->; auto]. }
  clear I IH. destruct e as [x s]. unfold Model_PodSession.step in *. cbn [fst snd] in *. destruct x as [o' r|o' i' a'|o' d' b'|d0 s' a'|d0 s' g b'].
  - destruct (perform _ _ s). cbn. unfold set_obj. destruct K as [K|[K _]]; [|discriminate]. destruct (Nat.eqb_spec o o') as [<-|]; exact K.
  - destruct K as [K|[K1 K2]].
    + destruct (o_sim (w_obj w o')) as [d'|]; [|exact K]. destruct (coeffs_writes _ _ _ _) as [[ws cd']|]; [|exact K].
      destruct (perform _ _ s) as [st' [|]]; [|exact K]. cbn in *. unfold set_obj. destruct (Nat.eqb_spec o o') as [<-|]; [discriminate|exact K].
    + injection K1 as -> -> -> ->. destruct (o_sim (w_obj w o)) as [d'|]; [|discriminate]. destruct (coeffs_writes _ _ _ _) as [[ws cd']|]; [|discriminate].
      destruct (perform _ _ stop) as [st' [|]]; [|discriminate]. cbn. unfold set_obj. rewrite Nat.eqb_refl. discriminate.
  - destruct K as [K|[K _]]; [|discriminate]. destruct (o_coeffs (w_obj w o')) as [d1|] eqn:Es; [|exact K]. destruct (recon_writes _ _ _ _ _) as [[ws [r cd']]|]; [|exact K].
    destruct (perform _ _ s) as [st' [|]]; [|exact K]. cbn. unfold set_obj. destruct (Nat.eqb_spec o o') as [<-|]; [discriminate|exact K].
  - destruct K as [K|[K _]]; [|discriminate]. destruct (coeffs_writes _ _ _ _) as [[ws cd']|]; [|exact K]. destruct (perform _ _ s) as [st' [|]]; exact K.
  - destruct K as [K|[K _]]; [|discriminate]. destruct (recon_writes _ _ _ _ _) as [[ws [r cd']]|]; [|exact K]. destruct (perform _ _ s) as [st' [|]]; exact K.
Qed.
(* After any fit by any object, completed or not, the reconstruction of an object is the one it would have returned before. *)
Theorem C117_stale_after_refit_refuted : forall h o o' r stop dd b i a s d,
  In ((OCoeffs o i a, s), Dir d) (combine h (snd (run start h))) ->
  let w := fst (run start h) in
  snd (step (fst (step w (OFit o' r, stop))) (ORecon o dd b, None)) = snd (step w (ORecon o dd b, None)).
Proof.
  intros h o o' r stop dd b i a s0 d0 Hin w. assert (Hc := @has_coeffs _ _ _ _ _ _ Hin). fold w in Hc. destruct (o_coeffs (w_obj w o)) as [cd|] eqn:Ec; [|easy]. clear Hc.
  destruct (@coeffs_dir_law h o cd Ec) as [d Ed].
  assert (L : forall f, lookup (cd, f) (w_store (fst (step w (OFit o' r, stop)))) = lookup (cd, f) (w_store w)).
  { intros f. rewrite step_store. apply perform_other. cbn [Proof_PodSession.writes_of fit_writes map fst In]. intros I.
    assert (E : cd = folder_of o') by (repeat (destruct I as [I|I]; [now injection I as <- _|]); easy).
    rewrite Ed in E. unfold folder_of in E. apply app_inj_tail in E as [_ E]. cbn in E. discriminate. }
  assert (O : o_coeffs (w_obj (fst (step w (OFit o' r, stop))) o) = Some cd).
  { unfold Model_PodSession.step. cbn [fst snd]. destruct (perform _ _ stop). cbn. unfold set_obj. destruct (Nat.eqb_spec o o') as [<-|]; [|exact Ec]. exact Ec. }
  set (w' := fst (step w (OFit o' r, stop))) in *. unfold Model_PodSession.step. cbn [fst snd]. rewrite O, Ec.
  assert (E : recon_writes (w_store w') cd None None b = recon_writes (w_store w) cd None None b).
  { unfold Model_PodSession.recon_writes, read_arr, read_max_axis. now rewrite !L. }
  rewrite E. clear E. destruct (recon_writes (w_store w) cd None None b) as [[ws [x cd']]|]; reflexivity.
Qed.
(* before any coefficients the method raises, whatever directory is given *)
Theorem C117_needs_own_coefficients : forall h o dd b, (forall i a stop d, ~ In ((OCoeffs o i a, stop), Dir d) (combine h (snd (run start h)))) ->
  snd (step (fst (run start h)) (ORecon o dd b, None)) = Raised ValueError.
Proof.
  intros h o dd b H. assert (E : o_coeffs (w_obj (fst (run start h)) o) = None).
  { revert H. induction h as [|e h IH] using rev_ind; intros H; [reflexivity|]. rewrite world_snoc.
    rewrite run_app in H. cbn [snd] in H.
    assert (Hc : forall (l : list event) (l' : list outcome) a b, length l = length l' -> combine (l ++ [a]) (l' ++ [b]) = combine l l' ++ [(a, b)]).
    { clear. induction l as [|x l IH]; intros [|y l'] a b L; cbn in *; try lia; [reflexivity|]. f_equal. apply IH. lia. }
    set (w := fst (run start h)) in *.
    assert (Ee : snd (run w [e]) = [snd (step w e)]) by (cbn; destruct (step w e); reflexivity). rewrite Ee in H.
    rewrite Hc in H by (symmetry; apply run_length).
    assert (I0 : o_coeffs (w_obj w o) = None) by (apply IH; intros i a stop d I; apply (H i a stop d); apply in_or_app; now left).
    assert (H1 : forall i a stop d, (e, snd (step w e)) <> ((OCoeffs o i a, stop), Dir d)) by (intros i a stop d E; apply (H i a stop d); apply in_or_app; right; left; exact E).
    clear H IH Hc Ee. destruct e as [x stop]. unfold Model_PodSession.step in *. cbn [fst snd] in *. destruct x as [o' r|o' i a|o' d' b'|d0 s a|d0 s g b'].
    - destruct (perform _ _ stop). cbn. unfold set_obj. destruct (Nat.eqb_spec o o') as [<-|]; exact I0.
    - destruct (o_sim (w_obj w o')) as [d|]; [|exact I0]. destruct (coeffs_writes _ _ _ _) as [[ws cd']|]; [|exact I0].
      destruct (perform _ _ stop) as [st' [|]]; [|exact I0]. cbn in *. unfold set_obj. destruct (Nat.eqb_spec o o') as [<-|]; [|exact I0].
      exfalso. now apply (H1 i a stop cd').
    - destruct (o_coeffs (w_obj w o')) as [d|] eqn:Es; [|exact I0]. destruct (recon_writes _ _ _ _ _) as [[ws [r cd']]|]; [|exact I0].
      destruct (perform _ _ stop) as [st' [|]]; [|exact I0]. cbn. unfold set_obj. destruct (Nat.eqb_spec o o') as [<-|]; [|exact I0]. now rewrite I0 in Es.
    - destruct (coeffs_writes _ _ _ _) as [[ws cd']|]; [|exact I0]. destruct (perform _ _ stop) as [st' [|]]; exact I0.
    - destruct (recon_writes _ _ _ _ _) as [[ws [r cd']]|]; [|exact I0]. destruct (perform _ _ stop) as [st' [|]]; exact I0. }
  unfold Model_PodSession.step. cbn [fst snd]. now rewrite E.
Qed.
End S.
Print Assumptions C115_last_fit_in_folder.
Print Assumptions C115_other_objects_modes_refuted.
Print Assumptions C115_folders_differ.
Print Assumptions C116_no_influence.
Print Assumptions C117_stale_after_refit_refuted.
Print Assumptions C117_needs_own_coefficients.
