(* C120: the parameter dictionary and the saved parameter file. *)
From Coq Require Import QArith Qround String Ascii.
From Verif Require Import Base_List Model_Base Model_Params.
Set Implicit Arguments.
Local Open Scope string_scope.

Section S.
Variable cwd : string.
Notation step := (step cwd).
Notation run := (run cwd).
Lemma bind_Ok {A B} (m : res A) (f : A -> res B) b : (do x <- m; f x) = Ok b -> exists a, m = Ok a /\ f a = Ok b.
Proof. destruct m; cbn; [eauto|discriminate]. Qed.
Lemma run_app w h1 h2 : run w (h1 ++ h2) = (fst (run (fst (run w h1)) h2), (snd (run w h1) ++ snd (run (fst (run w h1)) h2))%list).
Proof.
  revert w. induction h1 as [|e h IH]; intros w; cbn [app Model_Params.run].
  - cbn. now destruct (run w h2).
  - destruct (step w e) as [w1 x]. rewrite IH. destruct (run w1 h) as [w2 xs]. reflexivity.
Qed.
(* the settings a dictionary asks for *)
Definition asks (D : dict) (nd : Z) (ov : Q) (dt : val) (full : bool) (sd : string) : Prop :=
  (exists v, get "n_dft" D = Some v /\ as_int v = Ok nd) /\ get "time_step" D = Some dt /\
  match get "overlap" D with Some v => as_num v = Ok ov | None => ov = 0%Q end /\
  match get "fullspectrum" D with Some (VBool b) => full = b | Some _ => full = true | None => full = false end /\
  sd = match get "savedir" D with Some (VStr s) => join cwd s | _ => join cwd "spod_results" end.
Definition fields (o : obj) (nd : Z) (no : Z) (dt : val) (full : bool) (sd : string) : Prop :=
  o_ndft o = nd /\ o_novlp o = no /\ o_dt o = dt /\ o_full o = full /\ o_savedir o = sd.
Lemma construct_asks D o D' : construct cwd D = Ok (o, D') ->
  exists nd ov dt full sd, asks D nd ov dt full sd /\ fields o nd (n_overlap_of nd ov) dt full sd /\ (n_overlap_of nd ov <= nd - 1)%Z /\ D' = put "savedir" (VStr sd) D.
Proof.
  unfold construct. intros H. apply bind_Ok in H as (v & Hv & H). apply bind_Ok in H as (nd & Hnd & H). apply bind_Ok in H as (dt & Hdt & H).
  apply bind_Ok in H as (xd & _ & H). apply bind_Ok in H as (nv & _ & H). apply bind_Ok in H as (ov & Hov & H). apply bind_Ok in H as (nm & _ & H).
  apply bind_Ok in H as (sd & Hsd & H). apply bind_Ok in H as (no & Hno & H). injection H as <- <-.
  unfold need in *. unfold check_overlap in Hno. destruct (Z.ltb_spec (nd - 1) (n_overlap_of nd ov)) as [|Hle]; [discriminate|]. injection Hno as <-.
  exists nd, ov, dt, (match opt "fullspectrum" (VBool false) D with VBool b => b | _ => true end), sd.
  split; [|split; [unfold fields; cbn; auto|auto]].
  unfold asks. destruct (get "n_dft" D) as [v'|]; [|discriminate]. injection Hv as ->. destruct (get "time_step" D) as [dt'|]; [|discriminate]. injection Hdt as ->.
  split; [eauto|]. split; [reflexivity|]. unfold opt in *. split; [destruct (get "overlap" D); [exact Hov|cbn in Hov; now injection Hov as <-]|].
  split; [destruct (get "fullspectrum" D) as [[| | |]|]; reflexivity|]. destruct (get "savedir" D) as [[| | |]|]; try discriminate; now injection Hsd.
Qed.
Definition is_new (d i : nat) (e : op) : bool := match e with New d' i' => Nat.eqb d' d && Nat.eqb i' i | _ => false end.
Lemma fields_kept w e d i nd no dt full sd o : is_new d i e = false -> objs w d i = Some o -> fields o nd no dt full sd ->
  exists o', objs (fst (step w e)) d i = Some o' /\ fields o' nd no dt full sd.
Proof.
  intros Hn Ho F. destruct e as [d' i'|d' k v|d' i' nt rl]; cbn [Model_Params.step] in *.
  - destruct (construct cwd (dicts w d')) as [[o1 D1]|]; [|exists o; auto]. cbn. cbn in Hn. rewrite (Nat.eqb_sym d d'), (Nat.eqb_sym i i'), Hn. exists o. auto.
  - exists o. auto.
  - destruct (objs w d' i') as [o1|] eqn:E1; [|exists o; auto]. destruct (check_feasible _ _ _) as [nb|]; [|exists o; auto].
    assert (G : exists o', (if Nat.eqb d d' && Nat.eqb i i' then Some (Obj (o_ndft o1) (o_dt o1) (o_xdim o1) (o_nv o1) (o_novlp o1) (o_full o1) (clip o1 nb) (o_savedir o1)) else objs w d i) = Some o' /\ fields o' nd no dt full sd).
    { destruct (Nat.eqb_spec d d') as [->|]; [destruct (Nat.eqb_spec i i') as [->|]|]; cbn [andb]; [|exists o; auto..].
      rewrite Ho in E1. injection E1 as <-. eexists. split; [reflexivity|]. exact F. }
    cbn zeta. destruct (store_params _ _ _ _ _) as [f|]; cbn [fst objs set_obj set_dict]; exact G.
Qed.
Lemma fields_run h : forall w d i nd no dt full sd o, existsb (is_new d i) h = false -> objs w d i = Some o -> fields o nd no dt full sd ->
  exists o', objs (fst (run w h)) d i = Some o' /\ fields o' nd no dt full sd.
Proof.
  induction h as [|e h IH]; intros w d i nd no dt full sd o Hn Ho F; [exists o; auto|]. cbn [existsb] in Hn. apply orb_false_iff in Hn as [H1 H2].
  destruct (@fields_kept w e d i nd no dt full sd o H1 Ho F) as (o1 & Ho1 & F1). cbn [Model_Params.run].
  destruct (step w e) as [w1 x]. cbn in Ho1. destruct (IH w1 d i nd no dt full sd o1 H2 Ho1 F1) as (o2 & E & F2). destruct (run w1 h). cbn in *. eauto.
Qed.
Lemma fit_saved w d i nt rl f : snd (step w (Fit d i nt rl)) = Saved f ->
  exists o nb dt nmi, objs w d i = Some o /\ check_feasible nt (o_ndft o) (o_novlp o) = Ok nb /\ as_num (o_dt o) = Ok dt /\ as_int (VNum (clip o nb)) = Ok nmi /\
  f = put "n_modes_save" (VInt nmi) (put "n_overlap" (VInt (o_novlp o)) (put "n_blocks" (VInt nb) (put "n_dft" (VInt (o_ndft o))
     (put "time_step" (VNum dt) (put "results_folder" (VStr (o_savedir o ++ "/" ++ result_folder (o_ndft o) (o_novlp o) nb)) (put "n_freq" (VInt (n_freq_of o rl)) (dicts w d))))))).
Proof.
  cbn [Model_Params.step]. destruct (objs w d i) as [o|]; [|discriminate]. destruct (check_feasible _ _ _) as [nb|] eqn:Ef; [|discriminate].
  destruct (store_params _ _ _ _ _) as [f'|] eqn:Es; [|discriminate]. cbn. intros E. injection E as <-. unfold store_params in Es.
  apply bind_Ok in Es as (dt & H1 & Es). apply bind_Ok in Es as (nmi & H2 & Es). injection Es as <-. cbn in *. exists o, nb, dt, nmi. auto.
Qed.
(* The file written by a fit describes that fit: transform length, overlap, blocks, frequencies, time step and folder are those of the
   dictionary as it was when the object was built, whatever has been written into the dictionary since and by whom; the number
   of modes recorded does not exceed the number of blocks. *)
Theorem C120_file_describes_the_fit : forall w h1 d i h2 nt rl f,
  let D := dicts (fst (run w h1)) d in
  nth_error (snd (run w (h1 ++ New d i :: h2 ++ [Fit d i nt rl]))) (length h1) = Some Created ->
  existsb (is_new d i) h2 = false ->
  snd (step (fst (run w (h1 ++ New d i :: h2))) (Fit d i nt rl)) = Saved f ->
  exists nd ov dt q full sd nb nmi, asks D nd ov dt full sd /\ as_num dt = Ok q /\
    (4 <= nd)%Z /\ (2 <= nb)%Z /\ nb = ((nt - n_overlap_of nd ov) / (nd - n_overlap_of nd ov))%Z /\
    get "n_dft" f = Some (VInt nd) /\ get "n_overlap" f = Some (VInt (n_overlap_of nd ov)) /\ get "n_blocks" f = Some (VInt nb) /\
    get "n_freq" f = Some (VInt (if rl && negb full then nd / 2 + 1 else nd)) /\ get "time_step" f = Some (VNum q) /\
    get "results_folder" f = Some (VStr (sd ++ "/" ++ result_folder nd (n_overlap_of nd ov) nb)) /\
    get "n_modes_save" f = Some (VInt nmi) /\ (nmi <= nb)%Z.
Proof.
  intros w h1 d i h2 nt rl f D Hc Hn Hs. rewrite run_app in Hc, Hs. cbn [fst snd] in Hc, Hs. set (w1 := fst (run w h1)) in *.
  assert (Lr : forall h w, length (snd (run w h)) = length h).
  { clear. induction h as [|e h IH]; intros w; cbn; [reflexivity|]. destruct (step w e) as [w1 x]. specialize (IH w1). destruct (run w1 h). cbn in *. lia. }
  rewrite nth_error_app2 in Hc by (rewrite Lr; lia). rewrite Lr, Nat.sub_diag in Hc.
  change (New d i :: h2) with ([New d i] ++ h2)%list in Hs. change (New d i :: h2 ++ [Fit d i nt rl])%list with ([New d i] ++ (h2 ++ [Fit d i nt rl]))%list in Hc.
  rewrite run_app in Hs, Hc. cbn [fst snd] in Hs, Hc. cbn [Model_Params.run Model_Params.step] in Hs, Hc. fold D in Hs, Hc.
  destruct (construct cwd D) as [[o D']|x] eqn:Ec; [|discriminate Hc]. clear Hc. cbn [fst] in Hs.
  destruct (construct_asks _ Ec) as (nd & ov & dt & full & sd & A & F & Hle & _).
  set (w2 := set_obj (set_dict w1 d D') d i (Some o)) in *.
  assert (O2 : objs w2 d i = Some o) by (unfold w2; cbn; now rewrite !Nat.eqb_refl).
  destruct (@fields_run h2 w2 d i _ _ _ _ _ o Hn O2 F) as (o3 & O3 & (F1 & F2 & F3 & F4 & F5)).
  apply fit_saved in Hs as (o' & nb & q & nmi & E1 & E2 & E3 & E4 & ->). rewrite O3 in E1. injection E1 as <-.
  rewrite F1, F2 in E2. rewrite F3 in E3. unfold check_feasible in E2.
  destruct (Z.ltb_spec nd 4); [discriminate|]. destruct (Z.ltb_spec (n_blocks_of nt nd (n_overlap_of nd ov)) 2); [discriminate|]. cbn in E2. injection E2 as Eb.
  exists nd, ov, dt, q, full, sd, nb, nmi. split; [exact A|]. split; [exact E3|]. split; [lia|]. split; [lia|]. split; [now rewrite <- Eb|].
  rewrite F1, F2, F5. unfold n_freq_of. rewrite F1, F4. cbn [get put string_dec]. repeat (split; [reflexivity|]).
  unfold clip, as_int in E4. revert E4. destruct (Qle_bool (o_nmodes o3) (inject_Z nb)) eqn:Eq.
  - apply Qle_bool_iff in Eq. destruct (Qle_bool 0 (o_nmodes o3)) eqn:E0.
    + intros E. injection E as <-. rewrite <- (Qfloor_Z nb). now apply Qfloor_resp_le.
    + intros E. injection E as <-. rewrite <- (Qceiling_Z nb). now apply Qceiling_resp_le.
  - rewrite Qfloor_Z, Qceiling_Z. destruct (Qle_bool 0 (inject_Z nb)); intros E; injection E as <-; lia.
Qed.
Definition recorded : list string := ["n_modes_save"; "n_overlap"; "n_blocks"; "n_dft"; "time_step"; "results_folder"; "n_freq"].
(* Every other entry of the file is whatever the caller's dictionary holds when the fit ends: changing it after the object was built (for
   instance to build the next object) changes what is recorded, and nothing else, although the object does not use it. *)
Theorem C120_other_entries_refuted : forall w d i nt rl k v f, ~ In k recorded -> snd (step w (Fit d i nt rl)) = Saved f ->
  exists f', snd (step (fst (step w (Edit d k v))) (Fit d i nt rl)) = Saved f' /\
    get k f' = Some v /\ forall k', k' <> k -> get k' f' = get k' f.
Proof.
  intros w d i nt rl k v f Hk Hs. apply fit_saved in Hs as (o & nb & q & nmi & E1 & E2 & E3 & E4 & ->).
  cbn [Model_Params.step fst objs dicts set_dict]. rewrite E1, E2. unfold store_params. cbn [o_dt o_ndft o_novlp o_savedir]. rewrite E3. cbn [bind]. rewrite E4. cbn [bind snd].
  eexists. split; [reflexivity|]. rewrite Nat.eqb_refl. split.
  - cbn [get put]. unfold recorded in Hk. cbn [In] in Hk. repeat (destruct (string_dec _ _) as [->|]; [exfalso; tauto|]). destruct (string_dec k k); [reflexivity|congruence].
  - intros k' Hn. cbn [get put]. repeat (destruct (string_dec k' _); [reflexivity|]). destruct (string_dec k' k); [congruence|reflexivity].
Qed.
(* With a dictionary of its own, an object is not influenced by what happens to other dictionaries. *)
Definition concerns (d : nat) (e : op) : bool := match e with New d' _ | Edit d' _ _ | Fit d' _ _ _ => Nat.eqb d' d end.
Theorem C120_separate_dictionaries : forall h w d,
  dicts (fst (run w h)) d = dicts (fst (run w (filter (concerns d) h))) d /\
  map snd (filter (fun x => concerns d (fst x)) (combine h (snd (run w h)))) = snd (run w (filter (concerns d) h)).
Proof.
  intros h w0 d. assert (G : forall w w', dicts w d = dicts w' d -> (forall i, objs w d i = objs w' d i) ->
    (dicts (fst (run w h)) d = dicts (fst (run w' (filter (concerns d) h))) d) /\
    map snd (filter (fun x => concerns d (fst x)) (combine h (snd (run w h)))) = snd (run w' (filter (concerns d) h))); [|now apply G].
  induction h as [|e h IH]; intros w w' Hd Ho; [cbn; auto|]. cbn [filter].
  destruct (concerns d e) eqn:Ec.
  - assert (S : snd (step w e) = snd (step w' e) /\ dicts (fst (step w e)) d = dicts (fst (step w' e)) d /\ forall i, objs (fst (step w e)) d i = objs (fst (step w' e)) d i).
    { destruct e as [d' i'|d' k v|d' i' nt rl]; cbn in Ec; apply Nat.eqb_eq in Ec; subst d'; cbn [Model_Params.step].
      - rewrite <- Hd. destruct (construct cwd (dicts w d)) as [[o D']|]; [|auto]. cbn. rewrite !Nat.eqb_refl. repeat split; auto. intros i. cbn. destruct (Nat.eqb i i'); auto.
      - cbn. rewrite !Nat.eqb_refl, Hd. auto.
      - rewrite <- Ho. destruct (objs w d i') as [o|]; [|auto]. destruct (check_feasible _ _ _); [|auto]. cbn zeta. rewrite <- Hd.
        destruct (store_params _ _ _ _ _); cbn; rewrite ?Nat.eqb_refl; repeat split; auto; intros i; cbn; destruct (Nat.eqb i i'); auto. }
    destruct S as (S1 & S2 & S3). cbn [Model_Params.run]. destruct (step w e) as [w1 x], (step w' e) as [w1' x']. cbn in S1, S2, S3. subst x'.
    destruct (IH w1 w1' S2 S3) as [I1 I2]. destruct (run w1 h), (run w1' _). cbn in *. rewrite Ec. cbn. rewrite I2. auto.
  - assert (S : dicts (fst (step w e)) d = dicts w d /\ forall i, objs (fst (step w e)) d i = objs w d i).
    { destruct e as [d' i'|d' k v|d' i' nt rl]; cbn in Ec; cbn [Model_Params.step]; assert (Ec' : Nat.eqb d d' = false) by (now rewrite Nat.eqb_sym).
      - destruct (construct cwd (dicts w d')) as [[o D']|]; [|auto]. cbn. rewrite Ec'. auto.
      - cbn. rewrite Ec'. auto.
      - destruct (objs w d' i') as [o|]; [|auto]. destruct (check_feasible _ _ _); [|auto]. cbn zeta.
        destruct (store_params _ _ _ _ _); cbn; rewrite ?Ec'; auto. }
    destruct S as [S1 S2]. cbn [Model_Params.run]. destruct (step w e) as [w1 x]. cbn in S1, S2. rewrite Hd in S1.
    assert (S2' : forall i, objs w1 d i = objs w' d i) by (intros i; now rewrite S2).
    destruct (IH w1 w' S1 S2') as [I1 I2]. destruct (run w1 h). cbn in *. rewrite Ec. auto.
Qed.
(* Building a second object from the same dictionary finds the results folder of the first: the path is not prefixed again. *)
Theorem C120_folder_prefixed_once : forall w d i j o1, (exists s, cwd = String "/" s) ->
  snd (step w (New d i)) = Created -> objs (fst (step w (New d i))) d i = Some o1 ->
  exists o2, step (fst (step w (New d i))) (New d j) = (set_obj (set_dict (fst (step w (New d i))) d (put "savedir" (VStr (o_savedir o1)) (dicts (fst (step w (New d i))) d))) d j (Some o2), Created) /\
    o_savedir o2 = o_savedir o1.
Proof.
  intros w d i j o1 [s Hs]. cbn [Model_Params.step]. destruct (construct cwd (dicts w d)) as [[o D']|] eqn:Ec; [|discriminate]. intros _. cbn [fst]. cbn [objs set_obj].
  rewrite !Nat.eqb_refl. cbn [andb]. intros E. injection E as ->. cbn [dicts set_obj set_dict]. rewrite Nat.eqb_refl.
  assert (Es : o_savedir o1 = join cwd (match get "savedir" (dicts w d) with Some (VStr s) => s | _ => "spod_results" end)).
  { apply construct_asks in Ec as (nd & ov & dt & full & sd & (_ & _ & _ & _ & ->) & (_ & _ & _ & _ & ->) & _). destruct (get "savedir" (dicts w d)) as [[| | |]|]; reflexivity. }
  assert (Ej : join cwd (o_savedir o1) = o_savedir o1).
  { rewrite Es. generalize (match get "savedir" (dicts w d) with Some (VStr s) => s | _ => "spod_results" end). intros t. unfold join.
    destruct t as [|a t]; [rewrite Hs; cbn; reflexivity|]. destruct (ascii_dec a "/") as [->|]; [reflexivity|]. rewrite Hs. cbn. reflexivity. }
  unfold construct in Ec. apply bind_Ok in Ec as (v & Hv & H). apply bind_Ok in H as (nd & Hnd & H). apply bind_Ok in H as (dt & Hdt & H).
  apply bind_Ok in H as (xd & Hxd & H). apply bind_Ok in H as (nv & Hnv & H). apply bind_Ok in H as (ov & Hov & H). apply bind_Ok in H as (nm & Hnm & H).
  apply bind_Ok in H as (sd & Hsd & H). apply bind_Ok in H as (no & Hno & H). injection H as E1 <-. 
  assert (G : forall k, k <> "savedir" -> get k (put "savedir" (VStr sd) (dicts w d)) = get k (dicts w d)).
  { intros k N. cbn. destruct (string_dec k "savedir"); [congruence|reflexivity]. }
  unfold construct, need, opt in *. rewrite !G by discriminate. rewrite Hv. cbn [bind]. rewrite Hnd. cbn [bind]. rewrite Hdt, Hxd, Hnv. cbn [bind]. rewrite Hov. cbn [bind]. rewrite Hnm. cbn [bind].
  assert (Gs : get "savedir" (put "savedir" (VStr sd) (dicts w d)) = Some (VStr sd)) by reflexivity. rewrite Gs. cbn [bind]. rewrite Hno. cbn [bind].
  assert (Hsd1 : o_savedir o1 = sd) by (rewrite <- E1; reflexivity). rewrite Hsd1 in Ej. rewrite Ej. eexists. split; [rewrite Hsd1; reflexivity|]. cbn. now rewrite Hsd1.
Qed.
(* What a fit saves is also written into the caller's dictionary.  Expectation: a second object built from the same dictionary gets the
   settings first asked for.  It does not: it never saves more modes than the first fit did, however long its record. *)
Theorem C120_later_objects_inherit_refuted : forall w d i nt rl f, snd (step w (Fit d i nt rl)) = Saved f ->
  let w1 := fst (step w (Fit d i nt rl)) in
  (forall k, get k (dicts w1 d) = get k f) /\ (forall d', d' <> d -> dicts w1 d' = dicts w d') /\
  forall j nt' rl' f', snd (step w1 (New d j)) = Created -> snd (step (fst (step w1 (New d j))) (Fit d j nt' rl')) = Saved f' ->
    exists n n', get "n_modes_save" f = Some (VInt n) /\ get "n_modes_save" f' = Some (VInt n') /\ (n' <= n)%Z.
Proof.
  intros w d i nt rl f Hs w1. assert (D : dicts w1 d = f /\ forall d', d' <> d -> dicts w1 d' = dicts w d').
  { unfold w1. revert Hs. cbn [Model_Params.step]. destruct (objs w d i) as [o|]; [|discriminate]. destruct (check_feasible _ _ _) as [nb|]; [|discriminate].
    cbv zeta. destruct (store_params _ _ _ _ _) as [f'|]; [|discriminate]. cbn. intros E. injection E as <-. rewrite Nat.eqb_refl. split; [reflexivity|].
    intros d' Hn. now apply Nat.eqb_neq in Hn as ->. }
  destruct D as [D1 D2]. split; [intros k; now rewrite D1|]. split; [exact D2|]. intros j nt' rl' f' Hc Hf.
  apply fit_saved in Hs as (o & nb & q & nmi & _ & _ & _ & _ & Ef).
  assert (Gn : get "n_modes_save" f = Some (VInt nmi)) by (rewrite Ef; reflexivity). clear Ef.
  apply fit_saved in Hf as (o' & nb' & q' & nmi' & E1 & _ & _ & E4 & ->). exists nmi, nmi'. split; [exact Gn|]. split; [reflexivity|].
  revert Hc E1. cbn [Model_Params.step]. destruct (construct cwd (dicts w1 d)) as [[o2 D']|] eqn:Ec; [|discriminate]. intros _. cbn. rewrite !Nat.eqb_refl. cbn. intros E1. injection E1 as ->.
  rewrite D1 in Ec. unfold construct in Ec. apply bind_Ok in Ec as (v & Hv & H). apply bind_Ok in H as (nd & Hnd & H). apply bind_Ok in H as (dt & Hdt & H).
  apply bind_Ok in H as (xd & Hxd & H). apply bind_Ok in H as (nv & Hnv & H). apply bind_Ok in H as (ov & Hov & H). apply bind_Ok in H as (nm & Hnm & H).
  apply bind_Ok in H as (sd & Hsd & H). apply bind_Ok in H as (no & Hno & H). injection H as <- _.
  unfold opt in Hnm. rewrite Gn in Hnm. injection Hnm as <-. unfold clip, as_int in E4. cbn [o_nmodes] in E4.
  destruct (Qle_bool (inject_Z nmi) (inject_Z nb')) eqn:Eq.
  - rewrite Qfloor_Z, Qceiling_Z in E4. destruct (Qle_bool 0 (inject_Z nmi)); injection E4 as <-; lia.
  - assert (nb' < nmi)%Z. { apply Bool.not_true_iff_false in Eq. rewrite Qle_bool_iff in Eq. apply Qnot_le_lt in Eq. now rewrite <- Zlt_Qlt in Eq. }
    rewrite Qfloor_Z, Qceiling_Z in E4. destruct (Qle_bool 0 (inject_Z nb')); injection E4 as <-; lia.
Qed.
End S.
Print Assumptions C120_file_describes_the_fit.
Print Assumptions C120_other_entries_refuted.
Print Assumptions C120_separate_dictionaries.
Print Assumptions C120_folder_prefixed_once.
Print Assumptions C120_later_objects_inherit_refuted.
(* one dictionary used for two objects and edited in between *)
Definition ex_d : dict := [("n_dft", VInt 8); ("time_step", VNum 1); ("n_space_dims", VInt 2); ("n_variables", VInt 1); ("overlap", VInt 50); ("savedir", VStr "res")].
Definition ex_w : world := World (fun _ => ex_d) (fun _ _ => None).
Example C120_nonvacuous :
  match snd (run "/home" ex_w [New 0 0; Edit 0 "n_dft" (VInt 16); Edit 0 "n_variables" (VInt 3); New 0 1; Fit 0 0 40 true]) with
  | [Created; Edited; Edited; Created; Saved f] => (get "n_dft" f, get "n_blocks" f, get "n_modes_save" f, get "n_freq" f, get "results_folder" f, get "n_variables" f)
       = (Some (VInt 8), Some (VInt 9), Some (VInt 9), Some (VInt 5), Some (VStr "/home/res/nfft8_novlp4_nblks9"), Some (VInt 3))
  | _ => False
  end.
Proof. vm_compute. reflexivity. Qed.

(* 40 snapshots, then 400 with the same dictionary: 9 modes both times *)
Example C120_inherits :
  match snd (run "/home" ex_w [New 0 0; Fit 0 0 40 true; New 0 1; Fit 0 1 400 true]) with
  | [Created; Saved f; Created; Saved g] => (get "n_modes_save" f, get "n_blocks" g, get "n_modes_save" g) = (Some (VInt 9), Some (VInt 99), Some (VInt 9))
  | _ => False
  end.
Proof. vm_compute. reflexivity. Qed.
