(* C118, C119: interrupted POD runs and names of reconstruction files. *)
From Coq Require Import QArith String.
From Verif Require Import Base_List Model_Base Model_Select Proof_Names Model_PodSession Proof_PodSession Prop_PodSession.
Set Implicit Arguments.
Local Open Scope nat_scope.

Section S.
Variables Arr Pr Dat : Type.
Variable mean_of : Dat -> Arr.
Variable project : Pr -> Arr -> nat -> Dat -> res Arr.
Variable size_of : Arr -> nat.
Variable axis_of : Dat -> nat.
Variable nt_of : Arr -> res nat.
Variable rebuild : nat -> Arr -> Arr -> Arr -> list nat -> res Arr.
Variable conf : nat -> config.
Notation content := (content Arr Pr).
Notation store := (store Arr Pr).
Notation fit_result := (fit_result Arr Pr).
Notation event := (event Arr Pr Dat).
Notation op := (op Arr Pr Dat).
Notation world := (world Arr Pr).
Notation outcome := (outcome Arr).
Notation coeffs_writes := (@coeffs_writes Arr Pr Dat mean_of project size_of axis_of).
Notation recon_writes := (@recon_writes Arr Pr nt_of rebuild).
Notation step := (@step Arr Pr Dat mean_of project size_of axis_of nt_of rebuild conf).
Notation run := (@run Arr Pr Dat mean_of project size_of axis_of nt_of rebuild conf).
Notation writes_of := (@writes_of Arr Pr Dat mean_of project size_of axis_of nt_of rebuild conf).
Notation start := (@start Arr Pr).
Notation reconstruction := (@reconstruction Arr nt_of rebuild).
Notation folder_of := (@folder_of conf).

(* a coefficient computation, by the method or the function, on the record d *)
Definition coeffs_op (x : op) (d : Dat) : Prop :=
  (exists o i m, x = OCoeffs o i (CoeffsArgs d m)) \/ (exists dd s m, x = UCoeffs dd s (CoeffsArgs d m)).

Lemma npy_not (f g : string) : (forall h, (h ++ ".npy")%string <> g) -> (f ++ ".npy")%string <> g. Proof. auto. Qed.
Ltac peel f E := repeat (destruct f as [|? f]; cbn in E; [discriminate E|injection E as _ E]); destruct f; discriminate E.
Lemma not_yaml f : (f ++ ".npy")%string <> "params_coeffs.yaml"%string.
Proof. intros E. peel f E. Qed.
Lemma not_npz f : (f ++ ".npy")%string <> "eigs.npz"%string.
Proof. intros E. peel f E. Qed.
Lemma not_pm f : (f ++ ".npy")%string <> "params_modes.yaml"%string.
Proof. intros E. peel f E. Qed.
Lemma perform_lookup p (st : store) ws k g : lookup p (fst (perform st ws (Some (k, g)))) =
  match nth_error ws k with
  | Some (q, _) => if (if path_eq_dec p q then g else false) then Some Torn else lookup p (rev (firstn k ws) ++ st)
  | None => lookup p (rev ws ++ st)
  end.
Proof.
  unfold perform. destruct (nth_error ws k) as [[q c]|]; cbn [fst]; [|reflexivity].
  destruct g; cbn [app lookup]; [destruct (path_eq_dec p q); reflexivity|destruct (path_eq_dec p q); reflexivity].
Qed.
(* the writes of a coefficient computation *)
Lemma coeffs_step w x d cd stop : coeffs_op x d -> snd (step w (x, None)) = Dir cd ->
  exists phir p wt c m, project p phir (size_of wt) d = Ok c /\
    writes_of w x = [((cd, "coeffs.npy"%string), CArr c); ((cd, "modes_r.npy"%string), CArr phir); ((cd, "ltm.npy"%string), CArr (mean_of d));
          ((cd, "params_coeffs.yaml"%string), CCoeffsYaml p cd m (axis_of d))] /\
    (snd (step w (x, stop)) = Dir cd \/ (snd (step w (x, stop)) = Stopped /\ exists k g, stop = Some (k, g) /\ k < 4)).
Proof.
  intros [(o & i & m & ->)|(dd & s & m & ->)] H; unfold Model_PodSession.step, Proof_PodSession.writes_of in *; cbn [fst snd] in *.
  - destruct (o_sim (w_obj w o)) as [d0|]; [|discriminate]. destruct (coeffs_writes _ _ _ _) as [[ws cd']|y] eqn:C; [|discriminate].
    cbn in H. injection H as ->. apply coeffs_writes_inv in C as (wt & phir & eigs & params & c & _ & _ & _ & _ & Hp & _ & ->).
    exists phir, params, wt, c, m. repeat split; auto. destruct stop as [[k g]|]; [|now left]. unfold perform.
    destruct k as [|[|[|[|k]]]]; cbn; [right; split; [reflexivity|do 2 eexists; split; [reflexivity|lia]]..|].
    destruct k; cbn; now left.
  - destruct (coeffs_writes _ _ _ _) as [[ws cd']|y] eqn:C; [|discriminate].
    cbn in H. injection H as ->. apply coeffs_writes_inv in C as (wt & phir & eigs & params & c & _ & _ & _ & _ & Hp & _ & ->).
    exists phir, params, wt, c, m. repeat split; auto. destruct stop as [[k g]|]; [|now left]. unfold perform.
    destruct k as [|[|[|[|k]]]]; cbn; [right; split; [reflexivity|do 2 eexists; split; [reflexivity|lia]]..|].
    destruct k; cbn; now left.
Qed.
(* the reconstruction function, given the files *)
Lemma recon_law w cd s f b ltm phir p d i ax c :
  lookup (cd, "ltm.npy"%string) (w_store w) = Some (CArr ltm) -> lookup (cd, "modes_r.npy"%string) (w_store w) = Some (CArr phir) ->
  lookup (cd, "params_coeffs.yaml"%string) (w_store w) = Some (CCoeffsYaml p d i ax) -> lookup (cd, "coeffs.npy"%string) (w_store w) = Some (CArr c) ->
  snd (step w (URecon cd s f b, None)) = reconstruction ax phir ltm c b (cd ++ match s with Some s => s | None => [] end).
Proof.
  intros L1 L2 L3 L4. unfold Model_PodSession.step. cbn [fst snd]. unfold Model_PodSession.recon_writes, read_arr, read_max_axis. rewrite L1, L2, L3, L4.
  cbn [bind]. unfold Prop_PodSession.reconstruction. destruct (b_coeffs b) as [c'|]; cbn [bind].
  - destruct (nt_of c'); cbn [bind]; [|reflexivity]. destruct (selected_times _ _); cbn [bind]; [|reflexivity]. destruct (rebuild _ _ _ _ _); reflexivity.
  - destruct (nt_of c); cbn [bind]; [|reflexivity]. destruct (selected_times _ _); cbn [bind]; [|reflexivity]. destruct (rebuild _ _ _ _ _); reflexivity.
Qed.
Lemma trace_snoc w h e : combine (h ++ [e]) (snd (run w (h ++ [e]))) = combine h (snd (run w h)) ++ [(e, snd (step (fst (run w h)) e))].
Proof.
  assert (Hc : forall (l : list event) (l' : list outcome) a b, length l = length l' -> combine (l ++ [a]) (l' ++ [b]) = combine l l' ++ [(a, b)]).
  { clear. induction l as [|x l IH]; intros [|y l'] a b L; cbn in *; try lia; [reflexivity|]. f_equal. apply IH. lia. }
  rewrite run_app. cbn [snd]. assert (Ee : snd (run (fst (run w h)) [e]) = [snd (step (fst (run w h)) e)]) by (cbn; destruct (step _ e); reflexivity).
  rewrite Ee. apply Hc. symmetry. apply run_length.
Qed.
(* origin of the last file of a coefficient computation and of a fit *)
Lemma yaml_origin w e cd p d i ax : lookup (cd, "params_coeffs.yaml"%string) (w_store (fst (step w e))) = Some (CCoeffsYaml p d i ax) ->
  lookup (cd, "params_coeffs.yaml"%string) (w_store w) = Some (CCoeffsYaml p d i ax) \/ (exists x, coeffs_op (fst e) x) /\ snd (step w e) = Dir cd.
Proof.
  destruct e as [x stop]. rewrite step_store. cbn [fst]. intros H.
  assert (N : forall ws, (forall q c, In (q, c) ws -> q <> (cd, "params_coeffs.yaml"%string)) ->
     lookup (cd, "params_coeffs.yaml"%string) (fst (perform (w_store w) ws stop)) = Some (CCoeffsYaml p d i ax) ->
     lookup (cd, "params_coeffs.yaml"%string) (w_store w) = Some (CCoeffsYaml p d i ax)).
  { intros ws Hq. rewrite perform_other; [auto|]. intros I. apply in_map_iff in I as [[q c] [E I]]. cbn in E. now apply (Hq q c). }
  assert (F : forall cd' c phir lt y, lookup (cd, "params_coeffs.yaml"%string) (fst (perform (w_store w) [((cd', "coeffs.npy"%string), CArr c);
       ((cd', "modes_r.npy"%string), CArr phir); ((cd', "ltm.npy"%string), CArr lt); ((cd', "params_coeffs.yaml"%string), y)] stop)) = Some (CCoeffsYaml p d i ax) ->
       lookup (cd, "params_coeffs.yaml"%string) (w_store w) = Some (CCoeffsYaml p d i ax) \/ cd' = cd /\
         snd (perform (w_store w) [((cd', "coeffs.npy"%string), CArr c);
       ((cd', "modes_r.npy"%string), CArr phir); ((cd', "ltm.npy"%string), CArr lt); ((cd', "params_coeffs.yaml"%string), y)] stop) = true).
  { intros cd' c phir lt y L. destruct (dir_eq_dec cd' cd) as [->|Nd]; [|left; revert L; apply N; intros q z I; cbn in I;
      repeat (destruct I as [I|I]; [injection I as <- _; congruence|]); easy].
    destruct stop as [[k g]|]; [|right; auto]. rewrite perform_lookup in L. unfold perform.
    destruct k as [|[|[|[|k]]]]; cbn [nth_error firstn rev app] in *; [left; revert L; cbn [lookup]; look; intros L; auto; destruct g; (discriminate L || exact L)..|].
    right. destruct k; auto. }
  unfold Proof_PodSession.writes_of in H. unfold Model_PodSession.step. cbn [fst snd]. destruct x as [o r|o i0 a|o dd b|d0 s a|d0 s g b].
  - left. revert H. apply N. intros q c I. cbn in I. repeat (destruct I as [I|I]; [injection I as <- _; intros E; injection E as _ E; discriminate E|]). easy.
  - destruct (o_sim _) as [d0|]; [|left; revert H; apply N; easy]. destruct (coeffs_writes _ _ _ _) as [[ws cd']|y] eqn:C; [|left; revert H; apply N; easy].
    apply coeffs_writes_inv in C as (wt & phir & eigs & params & c0 & _ & _ & _ & _ & _ & _ & ->). apply F in H as [H|[-> H]]; [now left|].
    right. split; [exists (a_data a); left; exists o, i0, (a_modes_idx a); destruct a; reflexivity|].
    destruct (perform _ _ stop) as [st' ok]. cbn in H. subst ok. reflexivity.
  - left. destruct (o_coeffs _) as [d0|]; [|revert H; apply N; easy]. destruct (recon_writes _ _ _ _ _) as [[ws [r cd']]|y] eqn:C; [|revert H; apply N; easy].
    apply recon_writes_inv in C as (? & ? & ? & ? & ? & ? & _ & _ & _ & _ & _ & ->). revert H. apply N. intros q c [I|[]]. injection I as <- _. intros E. injection E as _ E. discriminate E.
  - destruct (coeffs_writes _ _ _ _) as [[ws cd']|y] eqn:C; [|left; revert H; apply N; easy].
    apply coeffs_writes_inv in C as (wt & phir & eigs & params & c0 & _ & _ & _ & _ & _ & _ & ->). apply F in H as [H|[-> H]]; [now left|].
    right. split; [exists (a_data a); right; exists d0, s, (a_modes_idx a); destruct a; reflexivity|].
    destruct (perform _ _ stop) as [st' ok]. cbn in H. subst ok. reflexivity.
  - left. destruct (recon_writes _ _ _ _ _) as [[ws [r cd']]|y] eqn:C; [|revert H; apply N; easy].
    apply recon_writes_inv in C as (? & ? & ? & ? & ? & ? & _ & _ & _ & _ & _ & ->). revert H. apply N. intros q c [I|[]]. injection I as <- _. intros E. injection E as _ E.
    now apply (@not_yaml (match g with Some f => f | None => "reconstructed"%string end)).
Qed.
Lemma npz_origin w e d a : lookup (d, "eigs.npz"%string) (w_store (fst (step w e))) = Some (CNpz a) ->
  lookup (d, "eigs.npz"%string) (w_store w) = Some (CNpz a) \/ (exists o r, fst e = OFit o r /\ d = folder_of o) /\ snd (step w e) = Done.
Proof.
  destruct e as [x stop]. rewrite step_store. cbn [fst]. intros H.
  assert (N : forall ws, (forall q c, In (q, c) ws -> q <> (d, "eigs.npz"%string)) ->
     lookup (d, "eigs.npz"%string) (fst (perform (w_store w) ws stop)) = Some (CNpz a) -> lookup (d, "eigs.npz"%string) (w_store w) = Some (CNpz a)).
  { intros ws Hq. rewrite perform_other; [auto|]. intros I. apply in_map_iff in I as [[q c] [E I]]. cbn in E. now apply (Hq q c). }
  unfold Proof_PodSession.writes_of in H. unfold Model_PodSession.step. cbn [fst snd]. destruct x as [o r|o i0 a0|o dd b|d0 s a0|d0 s g b].
  - destruct (dir_eq_dec (results_folder conf o) d) as [Ed|Nd].
    + unfold fit_writes in *. destruct stop as [[k g]|]; [|right; split; [exists o, r; auto|reflexivity]].
      rewrite perform_lookup in H. unfold perform.
      destruct k as [|[|[|[|k]]]]; cbn [nth_error firstn rev app] in *; [left; rewrite Ed in H; revert H; cbn [lookup]; look; intros H; auto; destruct g; (discriminate H || exact H)..|].
      right. split; [exists o, r; auto|]. destruct k; reflexivity.
    + left. revert H. apply N. intros q c I. cbn in I. repeat (destruct I as [I|I]; [injection I as <- _; congruence|]). easy.
  - left. destruct (o_sim _) as [d0|]; [|revert H; apply N; easy]. destruct (coeffs_writes _ _ _ _) as [[ws cd']|y] eqn:C; [|revert H; apply N; easy].
    apply coeffs_writes_inv in C as (wt & phir & eigs & params & c0 & _ & _ & _ & _ & _ & _ & ->). revert H. apply N. intros q c I. cbn in I.
    repeat (destruct I as [I|I]; [injection I as <- _; intros E; injection E as _ E; discriminate E|]). easy.
  - left. destruct (o_coeffs _) as [d0|]; [|revert H; apply N; easy]. destruct (recon_writes _ _ _ _ _) as [[ws [r cd']]|y] eqn:C; [|revert H; apply N; easy].
    apply recon_writes_inv in C as (? & ? & ? & ? & ? & ? & _ & _ & _ & _ & _ & ->). revert H. apply N. intros q c [I|[]]. injection I as <- _. intros E. injection E as _ E. discriminate E.
  - left. destruct (coeffs_writes _ _ _ _) as [[ws cd']|y] eqn:C; [|revert H; apply N; easy].
    apply coeffs_writes_inv in C as (wt & phir & eigs & params & c0 & _ & _ & _ & _ & _ & _ & ->). revert H. apply N. intros q c I. cbn in I.
    repeat (destruct I as [I|I]; [injection I as <- _; intros E; injection E as _ E; discriminate E|]). easy.
  - left. destruct (recon_writes _ _ _ _ _) as [[ws [r cd']]|y] eqn:C; [|revert H; apply N; easy].
    apply recon_writes_inv in C as (? & ? & ? & ? & ? & ? & _ & _ & _ & _ & _ & ->). revert H. apply N. intros q c [I|[]]. injection I as <- _. intros E. injection E as _ E.
    now apply (@not_npz (match g with Some f => f | None => "reconstructed"%string end)).
Qed.

(* A reconstruction from a folder succeeds only after a coefficient computation into that folder has completed; coefficients are
   computed from a folder only after a fit into it has completed. *)
Theorem C118_needs_completed_runs : forall h,
  (forall cd s f b stop r cd', snd (step (fst (run start h)) (URecon cd s f b, stop)) = Rec r cd' ->
     exists e d, coeffs_op (fst e) d /\ In (e, Dir cd) (combine h (snd (run start h)))) /\
  (forall d s a stop cd, snd (step (fst (run start h)) (UCoeffs d s a, stop)) = Dir cd ->
     exists o r st, d = folder_of o /\ In ((OFit o r, st), Done) (combine h (snd (run start h)))).
Proof.
  intros h. split.
  - intros cd s f b stop r cd' H. unfold Model_PodSession.step in H. cbn [fst snd] in H.
    destruct (recon_writes _ _ _ _ _) as [[ws [x cd1]]|y] eqn:C; [|discriminate]. clear H.
    apply recon_writes_inv in C as (lt & ph & p & d0 & i & ax & _ & _ & L & _). clear lt ph ws x cd1.
    revert p d0 i ax L. induction h as [|e h IH] using rev_ind; intros p d0 i ax L; [discriminate|]. rewrite world_snoc in L. rewrite trace_snoc.
    apply yaml_origin in L as [L|[[x Hx] Ho]].
    + destruct (IH _ _ _ _ L) as (e' & d & H1 & H2). exists e', d. split; [exact H1|]. apply in_or_app. now left.
    + exists e, x. split; [exact Hx|]. apply in_or_app. right. left. now rewrite Ho.
  - intros d s a stop cd H. unfold Model_PodSession.step in H. cbn [fst snd] in H.
    destruct (coeffs_writes _ _ _ _) as [[ws x]|y] eqn:C; [|discriminate]. clear H.
    apply coeffs_writes_inv in C as (wt & ph & eigs & params & c & _ & _ & L & _). clear wt ph params c ws x.
    induction h as [|e h IH] using rev_ind; [discriminate|]. rewrite world_snoc in L. rewrite trace_snoc.
    apply npz_origin in L as [L|[(o & r & Hx & Hd) Ho]].
    + destruct (IH L) as (o & r & st & H1 & H2). exists o, r, st. split; [exact H1|]. apply in_or_app. now left.
    + destruct e as [x st]. cbn in Hx. subst x. exists o, r, st. split; [exact Hd|]. apply in_or_app. right. left. now rewrite Ho.
Qed.
(* A computation stopped while a file was being written is noticed by the reconstruction. *)
Theorem C118_torn_file_detected : forall w x d cd k b s f, coeffs_op x d -> snd (step w (x, None)) = Dir cd -> k < 4 -> b_coeffs b = None ->
  exists y, snd (step (fst (step w (x, Some (k, true)))) (URecon cd s f b, None)) = Raised y.
Proof.
  intros w x d cd k b s f Hx Hd Hk Hb. destruct (@coeffs_step w x d cd None Hx Hd) as (phir & p & wt & c & m & _ & Hw & _).
  set (w1 := fst (step w (x, Some (k, true)))).
  assert (L : forall q, lookup q (w_store w1) = lookup q (fst (perform (w_store w) (writes_of w x) (Some (k, true))))) by (intros q; unfold w1; now rewrite step_store).
  rewrite Hw in L. destruct (snd (step w1 (URecon cd s f b, None))) as [|d'|r d'|y|] eqn:E; [..|eauto|]; exfalso;
    unfold Model_PodSession.step in E; cbn [fst snd] in E; destruct (recon_writes _ _ _ _ _) as [[ws [r1 cd1]]|y] eqn:C; try discriminate.
  apply recon_writes_inv in C as (lt & ph & p0 & d0 & i & ax & L1 & L2 & L3 & (c1 & nt & ts & L4 & _) & _). rewrite Hb in L4.
  rewrite L, perform_lookup in L1, L2, L3, L4. destruct k as [|[|[|[|k]]]]; [..|lia]; cbn [nth_error firstn rev app lookup] in *.
  - revert L4. look. discriminate.
  - revert L2. look. discriminate.
  - revert L1. look. discriminate.
  - revert L3. look. discriminate.
Qed.
(* Stopped between two files over an earlier computation in the same folder: the reconstruction mixes the two.  After one file the new
   coefficients are combined with the old modes and mean, after two the old mean is left. *)
Theorem C118_mixture_refuted : forall w x1 d1 x2 d2 cd k b, coeffs_op x1 d1 -> snd (step w (x1, None)) = Dir cd ->
  let w1 := fst (step w (x1, None)) in coeffs_op x2 d2 -> snd (step w1 (x2, None)) = Dir cd -> k = 1 \/ k = 2 ->
  exists p1 phir1 n1 c1 p2 phir2 n2 c2, project p1 phir1 n1 d1 = Ok c1 /\ project p2 phir2 n2 d2 = Ok c2 /\
    snd (step (fst (step w1 (x2, Some (k, false)))) (URecon cd None None b, None)) =
    reconstruction (axis_of d1) (if k =? 1 then phir1 else phir2) (mean_of d1) c2 b cd.
Proof.
  intros w x1 d1 x2 d2 cd k b H1 D1 w1 H2 D2 Hk.
  destruct (@coeffs_step w x1 d1 cd None H1 D1) as (phir1 & p1 & wt1 & c1 & m1 & P1 & W1 & _).
  destruct (@coeffs_step w1 x2 d2 cd None H2 D2) as (phir2 & p2 & wt2 & c2 & m2 & P2 & W2 & _).
  exists p1, phir1, (size_of wt1), c1, p2, phir2, (size_of wt2), c2. split; [exact P1|]. split; [exact P2|].
  set (w2 := fst (step w1 (x2, Some (k, false)))).
  assert (L : forall q, lookup q (w_store w2) = lookup q (fst (perform (w_store w1) (writes_of w1 x2) (Some (k, false))))) by (intros q; unfold w2; now rewrite step_store).
  assert (E1 : w_store w1 = rev (writes_of w x1) ++ w_store w) by (unfold w1; now rewrite step_store).
  rewrite W1 in E1. rewrite W2, E1 in L.
  assert (R := @recon_law w2 cd None None b (mean_of d1) (if k =? 1 then phir1 else phir2) p1 cd m1 (axis_of d1) c2). rewrite app_nil_r in R.
  apply R; rewrite L, perform_lookup; destruct Hk as [-> | ->]; cbn [nth_error firstn rev app lookup Nat.eqb]; look; reflexivity.
Qed.

(* ---- C119: names of reconstruction files ---- *)
(* stores that agree except on files called n *)
Definition agree (n : string) (st st' : store) : Prop := forall d f, f <> n -> lookup (d, f) st = lookup (d, f) st'.
Lemma agree_app n ws st st' : agree n st st' -> agree n (ws ++ st) (ws ++ st').
Proof. intros H d f N. rewrite !lookup_app. destruct (lookup _ ws); [reflexivity|]. now apply H. Qed.
Lemma agree_perform n ws st st' stop : agree n st st' -> agree n (fst (perform st ws stop)) (fst (perform st' ws stop)) /\ snd (perform st ws stop) = snd (perform st' ws stop).
Proof.
  intros H. unfold perform. destruct stop as [[k g]|]; [destruct (nth_error ws k) as [[q c]|]|]; (split; [|reflexivity]); cbn [fst]; try now apply agree_app.
  apply (@agree_app n (if g then [(q, Torn)] else [])). now apply agree_app.
Qed.
Definition read_names : list string := ["weights.npy"; "modes.npy"; "eigs.npz"; "params_modes.yaml"; "ltm.npy"; "modes_r.npy"; "params_coeffs.yaml"; "coeffs.npy"]%string.
Lemma agree_coeffs n st st' d s a : ~ In n read_names -> agree n st st' -> coeffs_writes st d s a = coeffs_writes st' d s a.
Proof.
  intros Hn H. unfold Model_PodSession.coeffs_writes, read_arr, read_npz, read_yaml.
  rewrite (H d "weights.npy"%string), (H d "modes.npy"%string), (H d "eigs.npz"%string), (H d "params_modes.yaml"%string) by (intros E; apply Hn; rewrite <- E; cbn; tauto). reflexivity.
Qed.
Lemma agree_recon n st st' d s f b : ~ In n read_names -> agree n st st' -> recon_writes st d s f b = recon_writes st' d s f b.
Proof.
  intros Hn H. unfold Model_PodSession.recon_writes, read_arr, read_max_axis.
  rewrite (H d "ltm.npy"%string), (H d "modes_r.npy"%string), (H d "params_coeffs.yaml"%string), (H d "coeffs.npy"%string) by (intros E; apply Hn; rewrite <- E; cbn; tauto). reflexivity.
Qed.
Lemma agree_step n w w' e : ~ In n read_names -> agree n (w_store w) (w_store w') -> w_obj w = w_obj w' ->
  snd (step w e) = snd (step w' e) /\ agree n (w_store (fst (step w e))) (w_store (fst (step w' e))) /\ w_obj (fst (step w e)) = w_obj (fst (step w' e)).
Proof.
  intros Hn H Ho. destruct e as [x stop]. unfold Model_PodSession.step. cbn [fst snd]. rewrite Ho. destruct x as [o r|o i a|o dd b|d s a|d s f b].
  - destruct (@agree_perform n (fit_writes (results_folder conf o) r) _ _ stop H) as [P1 P2]. destruct (perform (w_store w) _ stop), (perform (w_store w') _ stop). cbn in *. rewrite P2. auto.
  - destruct (o_sim _) as [d0|]; [|cbn; auto]. rewrite <- (@agree_coeffs n (w_store w) (w_store w')) by assumption.
    destruct (coeffs_writes _ _ _ _) as [[ws cd]|]; [|auto]. destruct (@agree_perform n ws _ _ stop H) as [P1 P2].
    destruct (perform (w_store w) _ stop) as [? ok], (perform (w_store w') _ stop) as [? ok']. cbn in P1, P2. subst ok'. destruct ok; cbn; auto.
  - destruct (o_coeffs _) as [d0|]; [|cbn; auto]. rewrite <- (@agree_recon n (w_store w) (w_store w')) by assumption.
    destruct (recon_writes _ _ _ _ _) as [[ws [r cd]]|]; [|auto]. destruct (@agree_perform n ws _ _ stop H) as [P1 P2].
    destruct (perform (w_store w) _ stop) as [? ok], (perform (w_store w') _ stop) as [? ok']. cbn in P1, P2. subst ok'. destruct ok; cbn; auto.
  - rewrite <- (@agree_coeffs n (w_store w) (w_store w')) by assumption.
    destruct (coeffs_writes _ _ _ _) as [[ws cd]|]; [|auto]. destruct (@agree_perform n ws _ _ stop H) as [P1 P2].
    destruct (perform (w_store w) _ stop) as [? ok], (perform (w_store w') _ stop) as [? ok']. cbn in P1, P2. subst ok'. destruct ok; cbn; auto.
  - rewrite <- (@agree_recon n (w_store w) (w_store w')) by assumption.
    destruct (recon_writes _ _ _ _ _) as [[ws [r cd]]|]; [|auto]. destruct (@agree_perform n ws _ _ stop H) as [P1 P2].
    destruct (perform (w_store w) _ stop) as [? ok], (perform (w_store w') _ stop) as [? ok']. cbn in P1, P2. subst ok'. destruct ok; cbn; auto.
Qed.
(* A reconstruction, completed or not, stored under a name other than those of the five input arrays changes the result of nothing later. *)
Theorem C119_other_names_are_safe : forall w cd s f b stop h,
  (match f with Some f => ~ In f ["coeffs"; "modes_r"; "ltm"; "modes"; "weights"]%string | None => True end) ->
  snd (run (fst (step w (URecon cd s f b, stop))) h) = snd (run w h).
Proof.
  intros w cd s f b stop h Hf. set (n := (match f with Some f => f | None => "reconstructed" end ++ ".npy")%string).
  assert (Hn : ~ In n read_names).
  { unfold n, read_names. intros I. assert (F : ~ In (match f with Some f => f | None => "reconstructed"%string end) ["coeffs"; "modes_r"; "ltm"; "modes"; "weights"]%string).
    { destruct f; [exact Hf|]. cbn. intros J. repeat (destruct J as [J|J]; [discriminate|]). easy. }
    set (g := match f with Some f => f | None => "reconstructed"%string end) in *. clearbody g. clear - I F. cbn [In] in I.
    destruct I as [I|[I|[I|[I|[I|[I|[I|[I|[]]]]]]]]]; symmetry in I.
    - apply (@npy_inv g "weights") in I. apply F. rewrite I. cbn. tauto.
    - apply (@npy_inv g "modes") in I. apply F. rewrite I. cbn. tauto.
    - now apply not_npz in I.
    - now apply not_pm in I.
    - apply (@npy_inv g "ltm") in I. apply F. rewrite I. cbn. tauto.
    - apply (@npy_inv g "modes_r") in I. apply F. rewrite I. cbn. tauto.
    - now apply not_yaml in I.
    - apply (@npy_inv g "coeffs") in I. apply F. rewrite I. cbn. tauto. }
  assert (A : agree n (w_store (fst (step w (URecon cd s f b, stop)))) (w_store w)).
  { intros d g Hg. rewrite step_store. apply perform_other. unfold Proof_PodSession.writes_of. destruct (recon_writes _ _ _ _ _) as [[ws [r cd']]|] eqn:C; [|intros []].
    apply recon_writes_inv in C as (? & ? & ? & ? & ? & ? & _ & _ & _ & _ & _ & ->). intros [E|[]]. cbn in E. injection E as _ E. now apply Hg. }
  assert (O : w_obj (fst (step w (URecon cd s f b, stop))) = w_obj w).
  { unfold Model_PodSession.step. cbn [fst snd]. destruct (recon_writes _ _ _ _ _) as [[ws [r cd']]|]; [|reflexivity]. destruct (perform _ _ stop); reflexivity. }
  revert A O. generalize (fst (step w (URecon cd s f b, stop))). intros w'. clear - Hn. revert w w'.
  induction h as [|e h IH]; intros w w' A O; [reflexivity|]. cbn [Model_PodSession.run].
  destruct (@agree_step n w' w e Hn A O) as (E1 & E2 & E3). destruct (step w' e) as [w1' o'], (step w e) as [w1 o]. cbn in E1, E2, E3. subst o'.
  specialize (IH w1 w1' E2 E3). destruct (run w1' h), (run w1 h). cbn in *. now rewrite IH.
Qed.
(* Under the names coeffs, modes_r or ltm it replaces the array it was computed from: later reconstructions use it in that place. *)
Theorem C119_input_names_refuted : forall w x d cd b r b', coeffs_op x d -> snd (step w (x, None)) = Dir cd -> b_coeffs b' = None ->
  let w1 := fst (step w (x, None)) in
  exists p phir n c, project p phir n d = Ok c /\
  (snd (step w1 (URecon cd None (Some "coeffs"%string) b, None)) = Rec r cd ->
     snd (step (fst (step w1 (URecon cd None (Some "coeffs"%string) b, None))) (URecon cd None None b', None)) = reconstruction (axis_of d) phir (mean_of d) r b' cd) /\
  (snd (step w1 (URecon cd None (Some "modes_r"%string) b, None)) = Rec r cd ->
     snd (step (fst (step w1 (URecon cd None (Some "modes_r"%string) b, None))) (URecon cd None None b', None)) = reconstruction (axis_of d) r (mean_of d) c b' cd) /\
  (snd (step w1 (URecon cd None (Some "ltm"%string) b, None)) = Rec r cd ->
     snd (step (fst (step w1 (URecon cd None (Some "ltm"%string) b, None))) (URecon cd None None b', None)) = reconstruction (axis_of d) phir r c b' cd).
Proof.
  intros w x d cd b r b' Hx Hd Hb w1. destruct (@coeffs_step w x d cd None Hx Hd) as (phir & p & wt & c & m & Hp & Hw & _).
  exists p, phir, (size_of wt), c. split; [exact Hp|].
  assert (E1 : w_store w1 = rev (writes_of w x) ++ w_store w) by (unfold w1; now rewrite step_store). rewrite Hw in E1.
  assert (F : forall f, snd (step w1 (URecon cd None (Some f) b, None)) = Rec r cd ->
     w_store (fst (step w1 (URecon cd None (Some f) b, None))) = ((cd, (f ++ ".npy")%string), CArr r) :: w_store w1).
  { intros f H. rewrite step_store. unfold Proof_PodSession.writes_of. unfold Model_PodSession.step in H. cbn [fst snd] in H.
    destruct (recon_writes _ _ _ _ _) as [[ws [r' cd']]|] eqn:C; [|discriminate]. cbn in H. injection H as <- <-.
    apply recon_writes_inv in C as (? & ? & ? & ? & ? & ? & _ & _ & _ & _ & _ & ->). reflexivity. }
  assert (R := fun w ltm phir c => @recon_law w cd None None b' ltm phir p cd m (axis_of d) c). rewrite app_nil_r in R.
  split; [|split]; intros H; apply F in H; rewrite E1 in H; apply R; rewrite H; cbn [rev app lookup String.append]; look; reflexivity.
Qed.
End S.
Print Assumptions C118_needs_completed_runs.
Print Assumptions C118_torn_file_detected.
Print Assumptions C118_mixture_refuted.
Print Assumptions C119_other_names_are_safe.
Print Assumptions C119_input_names_refuted.

(* concrete case: two objects sharing a folder, numbers as arrays *)
Definition ex_conf (o : nat) : config := Config ["res"%string] 5.
Definition ex_project (p phi n d : nat) : res nat := if n =? 0 then Err ValueError else Ok (phi * d).
Definition ex_rebuild (ax phi m c : nat) (ts : list nat) : res nat := Ok (1000 * m + phi * c).
Definition ex_step := @step nat nat nat (fun d => d) ex_project (fun a => a) (fun _ => 0) (fun _ => Ok 3) ex_rebuild ex_conf.
Definition ex_run := @run nat nat nat (fun d => d) ex_project (fun a => a) (fun _ => 0) (fun _ => Ok 3) ex_rebuild ex_conf.
Definition ex_fit (o phi : nat) : event nat nat nat := (OFit o (FitResult phi 7 0 1), None).
Definition ex_ign := Ignored [] 0 true None None.
Definition ex_co (o d : nat) : event nat nat nat := (OCoeffs o ex_ign (CoeffsArgs d None), None).
Definition ex_re (o : nat) : event nat nat nat := (ORecon o [] (ReconArgs (TStr "all") None), None).
Definition ex_cd : dir := ["res"; "modes5"; "coeffs"]%string.
Definition ex_rec (x : nat) : outcome nat := Rec x ex_cd.
(* object 0 (modes 2) is fitted, then object 1 (modes 3): object 0 computes with 3, whatever it was fitted to *)
Example C115_nonvacuous : snd (ex_run (start nat nat) [ex_fit 0 2; ex_co 0 10; ex_re 0; ex_fit 1 3; ex_co 0 10; ex_re 0])
  = [Done; Dir ex_cd; ex_rec 10040; Done; Dir ex_cd; ex_rec 10090].
Proof. vm_compute. reflexivity. Qed.
Example C116_nonvacuous : snd (ex_run (start nat nat) [(OFit 0 (FitResult 2 7 0 1), None); ex_co 0 10; ex_re 0])
  = snd (ex_run (start nat nat) [(OFit 0 (FitResult 2 7 9 1), None); (OCoeffs 0 (Ignored ["x"%string] 1 false (Some 1%Q) None) (CoeffsArgs 10 (Some [4])), None); ex_re 0]).
Proof. vm_compute. reflexivity. Qed.
(* object 0 is fitted again to other data: the reconstruction is still the old one *)
Example C117_nonvacuous : snd (ex_run (start nat nat) [ex_re 0; ex_fit 0 2; ex_re 0; ex_co 0 10; ex_fit 0 3; ex_re 0])
  = [Raised ValueError; Done; Raised ValueError; Dir ex_cd; Done; ex_rec 10040].
Proof. vm_compute. reflexivity. Qed.
(* stopped after one file, after two files, and while writing the second file *)
Definition ex_ur : event nat nat nat := (URecon ex_cd None None (ReconArgs (TStr "all") None), None).
Definition ex_stop (k : nat) (g : bool) : event nat nat nat := (OCoeffs 1 ex_ign (CoeffsArgs 20 None), Some (k, g)).
Example C118_nonvacuous :
  snd (ex_run (start nat nat) [ex_ur; ex_fit 0 2; ex_co 0 10; ex_fit 1 3; ex_stop 1 false; ex_ur]) = [Raised OSError; Done; Dir ex_cd; Done; Stopped; ex_rec (10000 + 2 * 60)] /\
  snd (ex_run (start nat nat) [ex_fit 0 2; ex_co 0 10; ex_fit 1 3; ex_stop 2 false; ex_ur]) = [Done; Dir ex_cd; Done; Stopped; ex_rec (10000 + 3 * 60)] /\
  snd (ex_run (start nat nat) [ex_fit 0 2; ex_co 0 10; ex_fit 1 3; ex_stop 1 true; ex_ur]) = [Done; Dir ex_cd; Done; Stopped; Raised ValueError].
Proof. vm_compute. repeat split. Qed.
Definition ex_un (f : string) : event nat nat nat := (URecon ex_cd None (Some f) (ReconArgs (TStr "all") None), None).
Example C119_nonvacuous :
  snd (ex_run (start nat nat) [ex_fit 0 2; ex_co 0 10; ex_un "mine"; ex_ur]) = [Done; Dir ex_cd; ex_rec 10040; ex_rec 10040] /\
  snd (ex_run (start nat nat) [ex_fit 0 2; ex_co 0 10; ex_un "coeffs"; ex_ur]) = [Done; Dir ex_cd; ex_rec 10040; ex_rec (10000 + 2 * 10040)].
Proof. vm_compute. repeat split. Qed.
