(* C84: object methods for coefficients and reconstruction over any history of operations. *)
From Coq Require Import QArith String.
From Verif Require Import Base_List Model_Base Model_Select Model_Session Proof_Session.
Set Implicit Arguments.
Local Open Scope nat_scope.

Section S.
Variables Wt Md Lm Cf Rc Dat : Type.
Variable zero_mode : Md.
Variable mean_of : Dat -> Lm.
Variable nt_of_data : Dat -> nat.
Variable project : list Md -> Wt -> Dat -> Q -> bool -> res Cf.
Variable nt_of : Cf -> nat.
Variable rebuild : list Md -> Lm -> Cf -> list nat -> res Rc.
Variable conf : nat -> config.
Notation step := (@step Wt Md Lm Cf Rc Dat zero_mode mean_of nt_of_data project nt_of rebuild conf).
Notation run := (@run Wt Md Lm Cf Rc Dat zero_mode mean_of nt_of_data project nt_of rebuild conf).
Notation start := (@start Wt Md Lm Cf Rc).
Notation event := (event Wt Md Lm Dat).
Notation op := (op Wt Md Lm Dat).
Notation world := (world Wt Md Lm Cf Rc).

(* folder named by savedir, n_dft, n_overlap of the object and the number of blocks of the data it was last fitted to *)
Definition last_fit_folder (o : nat) (h : list event) : option folder :=
  fold_left (fun acc (e : event) => match fst e with
     | OFit o' r => if o' =? o then Some (Folder (c_savedir (conf o)) (result_folder (c_ndft (conf o)) (c_novlp (conf o)) (Z.of_nat (r_blocks r)))) else acc
     | _ => acc end) h None.
(* directory returned by the last successful coefficients call of the object *)
Definition last_coeffs_dir (o : nat) (h : list event) (outs : list (outcome Rc)) : option (folder * nat * nat) :=
  fold_left (fun acc (x : event * outcome Rc) => match fst (fst x), snd x with
     | OCoeffs o' _ _, Dir cd => if o' =? o then Some cd else acc
     | _, _ => acc end) (combine h outs) None.

Lemma obj_law : forall h o, let w := run start h in
  w_obj (fst w) o = Obj (last_fit_folder o h) (last_coeffs_dir o h (snd w)).
Proof.
  induction h as [|e h IH] using rev_ind; intros o; cbv zeta; [reflexivity|].
  rewrite run_app. cbn [fst snd]. specialize (IH o). cbv zeta in IH.
  assert (L : length (snd (run start h)) = length h) by apply run_length.
  set (w := fst (run start h)) in *. set (outs := snd (run start h)) in *.
  unfold last_fit_folder, last_coeffs_dir. rewrite fold_left_app.
  assert (C : combine (h ++ [e]) (outs ++ snd (run w [e])) = combine h outs ++ combine [e] (snd (run w [e]))).
  { apply combine_app. exact (eq_sym L). }
  rewrite C, fold_left_app.
  fold (last_fit_folder o h). fold (last_coeffs_dir o h outs).
  cbn [Model_Session.run]. destruct e as [x stop]. unfold Model_Session.step. cbn [fst snd].
  destruct x as [o' r|o' d a|o' cd t|d a|cd t].
  - destruct (perform _ _ stop) as [st' ok]. cbn [fst snd w_obj combine fold_left]. unfold set_obj.
    rewrite (Nat.eqb_sym o o'). destruct (Nat.eqb_spec o' o) as [->|N]; [|rewrite IH; destruct ok; reflexivity].
    rewrite IH. cbn. destruct ok; reflexivity.
  - destruct (o_sim (w_obj w o')) as [d'|] eqn:Es; [|cbn; exact IH].
    destruct (coeffs_writes _ _ _ _ _ _ _) as [[ws cd]|x]; [|cbn; exact IH].
    destruct (perform _ _ stop) as [st' ok]. destruct ok; cbn [fst snd w_obj combine fold_left]; [|exact IH].
    unfold set_obj. rewrite (Nat.eqb_sym o o'). destruct (Nat.eqb_spec o' o) as [->|N]; [|exact IH]. rewrite IH in Es. cbn in Es. now rewrite Es.
  - destruct (o_coeffs (w_obj w o')) as [cd'|]; [|cbn; exact IH].
    destruct (recon_writes _ _ _ _ _) as [[ws r]|x]; [|cbn; exact IH].
    destruct (perform _ _ stop) as [st' ok]. destruct ok; cbn; exact IH.
  - destruct (coeffs_writes _ _ _ _ _ _ _) as [[ws cd]|x]; [|cbn; exact IH].
    destruct (perform _ _ stop) as [st' ok]. destruct ok; cbn; exact IH.
  - destruct (recon_writes _ _ _ _ _) as [[ws r]|x]; [|cbn; exact IH].
    destruct (perform _ _ stop) as [st' ok]. destruct ok; cbn; exact IH.
Qed.

(* Whatever directory is passed, the coefficients method does what the function does in the folder of the object's own last
   fit (finished or not); it raises when the object was never fitted. *)
Theorem C84_coeffs : forall h o dir a stop, a_freq_idx a = None -> let w := fst (run start h) in
  match last_fit_folder o h with
  | None => step w (OCoeffs o dir a, stop) = (w, Raised AttributeError)
  | Some d => snd (step w (OCoeffs o dir a, stop)) = snd (step w (UCoeffs d a, stop)) /\
              w_store (fst (step w (OCoeffs o dir a, stop))) = w_store (fst (step w (UCoeffs d a, stop)))
  end.
Proof.
  intros h o dir a stop Ha w. assert (O := obj_law h o). cbv zeta in O. fold w in O.
  assert (Ea : no_freq_idx a = a) by (destruct a; cbn in *; now subst).
  destruct (last_fit_folder o h) as [d|]; unfold Model_Session.step; cbn [fst snd]; rewrite O; cbn [o_sim]; [|reflexivity].
  rewrite Ea. destruct (coeffs_writes _ _ _ _ _ _ _) as [[ws cd]|x]; [|auto].
  destruct (perform _ _ stop) as [st' [|]]; auto.
Qed.

(* Whatever directory is passed, the reconstruction method does what the function does with the directory returned by the
   object's last successful coefficients call - also when the object was fitted again since -, and raises ValueError when
   there is none. *)
Theorem C84_reconstruction : forall h o dir t stop, let w := fst (run start h) in
  step w (ORecon o dir t, stop) =
  match last_coeffs_dir o h (snd (run start h)) with
  | None => (w, Raised ValueError)
  | Some cd => step w (URecon cd t, stop)
  end.
Proof.
  intros h o dir t stop w. assert (O := obj_law h o). cbv zeta in O. fold w in O.
  unfold Model_Session.step. cbn [fst snd]. rewrite O. cbn [o_coeffs]. now destruct (last_coeffs_dir _ _ _).
Qed.

(* Two histories that differ only in the directories passed to methods have the same results and leave the same files. *)
Inductive same_but_dirs : op -> op -> Prop :=
| SFit o r : same_but_dirs (OFit o r) (OFit o r)
| SCoeffs o d d' a : same_but_dirs (OCoeffs o d a) (OCoeffs o d' a)
| SRecon o d d' t : same_but_dirs (ORecon o d t) (ORecon o d' t)
| SUCoeffs d a : same_but_dirs (UCoeffs d a) (UCoeffs d a)
| SURecon d t : same_but_dirs (URecon d t) (URecon d t).
Theorem C84_directories_ignored : forall h h', Forall2 (fun e e' => same_but_dirs (fst e) (fst e') /\ snd e = snd e') h h' ->
  snd (run start h) = snd (run start h') /\ w_store (fst (run start h)) = w_store (fst (run start h')).
Proof.
  intros h h' H. assert (E : forall w, run w h = run w h'); [|now rewrite E].
  induction H as [|e e' h h' [S E] _ IH]; intros w; [reflexivity|]. cbn [Model_Session.run].
  assert (Es : step w e = step w e').
  { destruct e as [x s], e' as [x' s']. cbn in S, E. subst s'. destruct S; reflexivity. }
  rewrite Es. destruct (step w e') as [w1 o]. now rewrite IH.
Qed.

(* After a new fit of the object in another folder (data with another number of blocks) the reconstruction is still that of
   the earlier coefficients. *)
Theorem C84_refit_refuted : forall h o r cd dir t stop,
  last_coeffs_dir o h (snd (run start h)) = Some cd -> last_fit_folder o (h ++ [(OFit o r, None)]) <> Some (fst (fst cd)) ->
  let w := fst (run start h) in let w' := fst (run start (h ++ [(OFit o r, None)])) in
  snd (step w' (ORecon o dir t, stop)) = snd (step w (ORecon o dir t, stop)).
Proof.
  intros h o r cd dir t stop Hl Hd. cbv zeta.
  assert (R := C84_reconstruction (h ++ [(OFit o r, None)]) o dir t stop). cbv zeta in R. rewrite R. clear R.
  assert (R0 := C84_reconstruction h o dir t stop). cbv zeta in R0. rewrite R0, Hl. clear R0.
  assert (O := obj_law (h ++ [(OFit o r, None)]) o). cbv zeta in O.
  assert (O0 := obj_law h o). cbv zeta in O0. rewrite Hl in O0.
  assert (Hc : last_coeffs_dir o (h ++ [(OFit o r, None)]) (snd (run start (h ++ [(OFit o r, None)]))) = Some cd).
  { apply (f_equal (@o_coeffs)) in O. cbn [o_coeffs] in O. rewrite <- O. rewrite run_app. cbn [fst snd Model_Session.run].
    unfold Model_Session.step. cbn [fst snd perform w_obj]. unfold set_obj. rewrite Nat.eqb_refl, O0. reflexivity. }
  rewrite Hc. clear O O0 Hc. rewrite run_app. cbn [fst snd Model_Session.run]. set (w := fst (run start h)).
  unfold Model_Session.step at 2. cbn [fst snd perform].
  set (st' := rev _ ++ w_store w).
  assert (F : forall p, In p (cd_paths cd) -> lookup p st' = lookup p (w_store w)).
  { intros p Hp. unfold st'. rewrite lookup_app.
    assert (N : lookup p (rev (@fit_writes Wt Md Lm Cf Rc zero_mode (sim_folder conf o r) r)) = None); [|now rewrite N].
    apply lookup_none. rewrite map_rev. intros I. apply in_rev in I. apply in_map_iff in I as [[p' c'] [E I]]. cbn in E. subst p'.
    apply fit_writes_paths in I. apply Hd. unfold last_fit_folder. rewrite fold_left_app. cbn. rewrite Nat.eqb_refl. f_equal.
    transitivity (folder_of p); [rewrite I; reflexivity|].
    destruct cd as [[d lb] ub]. cbn in Hp |- *. repeat (destruct Hp as [<-|Hp]; [reflexivity|]). easy. }
  assert (E : recon_writes nt_of rebuild st' cd t = recon_writes nt_of rebuild (w_store w) cd t).
  { destruct cd as [[d lb] ub]. unfold recon_writes, read. rewrite !F by (cbn; tauto). reflexivity. }
  unfold Model_Session.step. cbn [fst snd w_store]. rewrite E.
  destruct (recon_writes _ _ (w_store w) cd t) as [[ws rr]|x]; [|reflexivity].
  unfold perform. destruct stop as [[k g]|]; [|reflexivity]. destruct (nth_error ws k) as [[? ?]|]; reflexivity.
Qed.
End S.
Print Assumptions C84_coeffs.
Print Assumptions C84_reconstruction.
Print Assumptions C84_directories_ignored.
Print Assumptions C84_refit_refuted.
