(* Proofs about sequences of POD operations over one file system. *)
From Coq Require Import QArith String.
From Verif Require Import Base_List Model_Base Model_Select Proof_Names Model_PodSession.
Set Implicit Arguments.
Local Open Scope nat_scope.

Section S.
Variables Arr Pr Dat : Type.
Variable mean_of : Dat -> Arr.
Variable project : Pr -> Arr -> nat -> Dat -> res Arr.
Variable size_of : Arr -> nat.
Variable axis_of : Dat -> nat.
Variable nt_of : Arr -> res nat.
Variable rebuild : nat -> Arr -> Arr -> Arr -> list nat -> res Arr.
Variable conf : nat -> config.
Notation content := (content Arr Pr).
Notation store := (store Arr Pr).
Notation fit_result := (fit_result Arr Pr).
Notation event := (event Arr Pr Dat).
Notation op := (op Arr Pr Dat).
Notation world := (world Arr Pr).
Notation outcome := (outcome Arr).
Notation coeffs_writes := (@coeffs_writes Arr Pr Dat mean_of project size_of axis_of).
Notation recon_writes := (@recon_writes Arr Pr nt_of rebuild).
Notation step := (@step Arr Pr Dat mean_of project size_of axis_of nt_of rebuild conf).
Notation run := (@run Arr Pr Dat mean_of project size_of axis_of nt_of rebuild conf).
Notation results_folder := (@results_folder conf).
Notation start := (@start Arr Pr).

Lemma bind_Ok {A B} (m : res A) (f : A -> res B) b : (do x <- m; f x) = Ok b -> exists a, m = Ok a /\ f a = Ok b.
Proof. destruct m; cbn; [eauto|discriminate]. Qed.
Lemma run_app w h1 h2 : run w (h1 ++ h2) =
  (fst (run (fst (run w h1)) h2), snd (run w h1) ++ snd (run (fst (run w h1)) h2)).
Proof.
  revert w. induction h1 as [|e h IH]; intros w; cbn [app Model_PodSession.run].
  - cbn. now destruct (run w h2).
  - destruct (step w e) as [w1 x]. rewrite IH. destruct (run w1 h) as [w2 xs]. reflexivity.
Qed.
Lemma run_length w h : length (snd (run w h)) = length h.
Proof.
  revert w. induction h as [|e h IH]; intros w; cbn [Model_PodSession.run]; [reflexivity|].
  destruct (step w e) as [w1 x]. specialize (IH w1). destruct (run w1 h). cbn in *. lia.
Qed.
Lemma world_snoc w h e : fst (run w (h ++ [e])) = fst (step (fst (run w h)) e).
Proof. rewrite run_app. cbn. destruct (step _ e). reflexivity. Qed.

(* ---- lookup ---- *)
Lemma lookup_app p (a b : store) : lookup p (a ++ b) = match lookup p a with Some c => Some c | None => lookup p b end.
Proof. induction a as [|[q c] a IH]; [reflexivity|]. cbn. destruct (path_eq_dec p q); [reflexivity|exact IH]. Qed.
Lemma lookup_none p (a : store) : ~ In p (map fst a) -> lookup p a = None.
Proof.
  induction a as [|[q c] a IH]; cbn; [reflexivity|]. intros H. destruct (path_eq_dec p q) as [->|N]; [exfalso; apply H; now left|].
  apply IH. tauto.
Qed.
Lemma lookup_In p c (a : store) : lookup p a = Some c -> In (p, c) a.
Proof. induction a as [|[q d] a IH]; cbn; [discriminate|]. destruct (path_eq_dec p q) as [->|N]; [intros E; injection E as ->; now left|right; auto]. Qed.
Lemma perform_other p (st : store) ws stop : ~ In p (map fst ws) -> lookup p (fst (perform st ws stop)) = lookup p st.
Proof.
  intros H. unfold perform. destruct stop as [[k g]|].
  - destruct (nth_error ws k) as [[q c]|] eqn:E; cbn [fst].
    + assert (Hq : p <> q). { intros ->. apply H. apply nth_error_In in E. apply in_map_iff. now exists (q, c). }
      assert (Hf : ~ In p (map fst (rev (firstn k ws)))).
      { rewrite map_rev. intros I. apply in_rev in I. apply H. apply in_map_iff in I as [x [Ex I]]. apply in_map_iff. exists x. split; [exact Ex|].
        rewrite <- (firstn_skipn k ws). apply in_or_app. now left. }
      destruct g; cbn [app lookup]; [destruct (path_eq_dec p q); [easy|]|]; rewrite lookup_app, lookup_none by exact Hf; reflexivity.
    + rewrite lookup_app, lookup_none; [reflexivity|]. rewrite map_rev. intros I. apply in_rev in I. now apply H.
  - cbn [fst]. rewrite lookup_app, lookup_none; [reflexivity|]. rewrite map_rev. intros I. apply in_rev in I. now apply H.
Qed.

(* ---- the writes of an operation ---- *)
Definition writes_of (w : world) (x : op) : list (path * content) :=
  match x with
  | OFit o r => fit_writes (results_folder o) r
  | OCoeffs o _ a => match o_sim (w_obj w o) with Some d => match coeffs_writes (w_store w) d None a with Ok (ws, _) => ws | Err _ => [] end | None => [] end
  | ORecon o _ b => match o_coeffs (w_obj w o) with Some d => match recon_writes (w_store w) d None None b with Ok (ws, _) => ws | Err _ => [] end | None => [] end
  | UCoeffs d s a => match coeffs_writes (w_store w) d s a with Ok (ws, _) => ws | Err _ => [] end
  | URecon d s f b => match recon_writes (w_store w) d s f b with Ok (ws, _) => ws | Err _ => [] end
  end.
Lemma step_store w x stop : w_store (fst (step w (x, stop))) = fst (perform (w_store w) (writes_of w x) stop).
Proof.
  assert (E0 : w_store w = fst (perform (w_store w) [] stop)) by (destruct stop as [[[|k] g]|]; reflexivity).
  unfold Model_PodSession.step, writes_of. cbn [fst snd]. destruct x as [o r|o i a|o dd b|d s a|d s f b].
  - destruct (perform _ (fit_writes _ _) stop) as [st' ok]. reflexivity.
  - destruct (o_sim _) as [d|]; [|exact E0]. destruct (coeffs_writes _ _ _ _) as [[ws cd]|x]; [|exact E0].
    destruct (perform _ ws stop) as [st' [|]]; reflexivity.
  - destruct (o_coeffs _) as [d|]; [|exact E0]. destruct (recon_writes _ _ _ _ _) as [[ws [r cd]]|x]; [|exact E0].
    destruct (perform _ ws stop) as [st' [|]]; reflexivity.
  - destruct (coeffs_writes _ _ _ _) as [[ws cd]|x]; [|exact E0]. destruct (perform _ ws stop) as [st' [|]]; reflexivity.
  - destruct (recon_writes _ _ _ _ _) as [[ws [r cd]]|x]; [|exact E0]. destruct (perform _ ws stop) as [st' [|]]; reflexivity.
Qed.
Lemma perform_none (st : store) ws : perform st ws None = (rev ws ++ st, true). Proof. reflexivity. Qed.

Lemma coeffs_writes_inv st d s a ws cd : coeffs_writes st d s a = Ok (ws, cd) ->
  exists wt phir eigs params c, lookup (d, "weights.npy"%string) st = Some (CArr wt) /\ lookup (d, "modes.npy"%string) st = Some (CArr phir) /\
    lookup (d, "eigs.npz"%string) st = Some (CNpz eigs) /\ lookup (d, "params_modes.yaml"%string) st = Some (CYaml params) /\
    project params phir (size_of wt) (a_data a) = Ok c /\ cd = d ++ ["coeffs"%string] ++ match s with Some s => s | None => [] end /\
    ws = [((cd, "coeffs.npy"%string), CArr c); ((cd, "modes_r.npy"%string), CArr phir); ((cd, "ltm.npy"%string), CArr (mean_of (a_data a)));
          ((cd, "params_coeffs.yaml"%string), CCoeffsYaml params cd (a_modes_idx a) (axis_of (a_data a)))].
Proof.
  unfold Model_PodSession.coeffs_writes, read_arr, read_npz, read_yaml. intros H.
  apply bind_Ok in H as (wt & H1 & H). apply bind_Ok in H as (phir & H2 & H). apply bind_Ok in H as (eigs & H3 & H).
  apply bind_Ok in H as (params & H4 & H). apply bind_Ok in H as (c & H5 & H). injection H as <- <-.
  exists wt, phir, eigs, params, c.
  destruct (lookup (d, "weights.npy"%string) st) as [[| | | |]|]; try discriminate. injection H1 as <-.
  destruct (lookup (d, "modes.npy"%string) st) as [[| | | |]|]; try discriminate. injection H2 as <-.
  destruct (lookup (d, "eigs.npz"%string) st) as [[| | | |]|]; try discriminate. injection H3 as <-.
  destruct (lookup (d, "params_modes.yaml"%string) st) as [[| | | |]|]; try discriminate. injection H4 as <-.
  auto 10.
Qed.
Lemma recon_writes_inv st d s f b ws r cd : recon_writes st d s f b = Ok (ws, (r, cd)) ->
  exists ltm phir p cd0 i ax, lookup (d, "ltm.npy"%string) st = Some (CArr ltm) /\ lookup (d, "modes_r.npy"%string) st = Some (CArr phir) /\
    lookup (d, "params_coeffs.yaml"%string) st = Some (CCoeffsYaml p cd0 i ax) /\
    (exists c nt ts, match b_coeffs b with Some c' => c' = c | None => lookup (d, "coeffs.npy"%string) st = Some (CArr c) end /\
       nt_of c = Ok nt /\ selected_times nt (b_time b) = Ok ts /\ rebuild ax phir ltm c ts = Ok r) /\
    cd = d ++ match s with Some s => s | None => [] end /\
    ws = [((cd, (match f with Some f => f | None => "reconstructed" end ++ ".npy")%string), CArr r)].
Proof.
  unfold Model_PodSession.recon_writes, read_arr, read_max_axis. intros H.
  apply bind_Ok in H as (ltm & H1 & H). apply bind_Ok in H as (phir & H2 & H). apply bind_Ok in H as (ax & H3 & H).
  apply bind_Ok in H as (c & H4 & H). apply bind_Ok in H as (nt & H5 & H). apply bind_Ok in H as (ts & H6 & H).
  apply bind_Ok in H as (r' & H7 & H). injection H as <- <- <-.
  destruct (lookup (d, "ltm.npy"%string) st) as [[| | | |]|]; try discriminate. injection H1 as <-.
  destruct (lookup (d, "modes_r.npy"%string) st) as [[| | | |]|]; try discriminate. injection H2 as <-.
  destruct (lookup (d, "params_coeffs.yaml"%string) st) as [[| | |p cd0 i ax'|]|]; try discriminate. injection H3 as <-.
  exists a, a0, p, cd0, i, ax'. repeat split; auto. exists c, nt, ts. repeat split; auto.
  destruct (b_coeffs b) as [c'|]; [now injection H4|].
  destruct (lookup (d, "coeffs.npy"%string) st) as [[| | | |]|]; try discriminate. now injection H4 as <-.
Qed.
Lemma npy_inv f g : (f ++ ".npy" = g ++ ".npy")%string -> f = g.
Proof.
  revert g. induction f as [|a f IH]; intros [|b g] E; cbn in E; [reflexivity| | |].
  - apply (f_equal String.length) in E. cbn in E. rewrite string_length_app in E. cbn in E. lia.
  - apply (f_equal String.length) in E. cbn in E. rewrite string_length_app in E. cbn in E. lia.
  - injection E as -> E. now rewrite (IH g E).
Qed.
End S.
