(* Proofs about sequences of operations over one file system. *)
From Coq Require Import QArith String.
From Verif Require Import Base_List Model_Base Model_Select Model_Session.
Set Implicit Arguments.
Local Open Scope nat_scope.

Lemma combine_app {A B} (a a' : list A) (b b' : list B) : length a = length b -> combine (a ++ a') (b ++ b') = combine a b ++ combine a' b'.
Proof. revert b. induction a as [|x a IH]; intros [|y b] L; cbn in *; try lia; [reflexivity|]. f_equal. apply IH. lia. Qed.
Section S.
Variables Wt Md Lm Cf Rc Dat : Type.
Variable zero_mode : Md.
Variable mean_of : Dat -> Lm.
Variable nt_of_data : Dat -> nat.
Variable project : list Md -> Wt -> Dat -> Q -> bool -> res Cf.
Variable nt_of : Cf -> nat.
Variable rebuild : list Md -> Lm -> Cf -> list nat -> res Rc.
Variable conf : nat -> config.
Notation content := (content Wt Md Lm Cf Rc).
Notation store := (store Wt Md Lm Cf Rc).
Notation fit_result := (fit_result Wt Md Lm).
Notation event := (event Wt Md Lm Dat).
Notation op := (op Wt Md Lm Dat).
Notation world := (world Wt Md Lm Cf Rc).
Notation outcome := (outcome Rc).
Notation coeffs_args := (coeffs_args Dat).
Notation fit_writes := (@fit_writes Wt Md Lm Cf Rc zero_mode).
Notation coeffs_writes := (@coeffs_writes Wt Md Lm Cf Rc Dat zero_mode mean_of nt_of_data project).
Notation recon_writes := (@recon_writes Wt Md Lm Cf Rc nt_of rebuild).
Notation step := (@step Wt Md Lm Cf Rc Dat zero_mode mean_of nt_of_data project nt_of rebuild conf).
Notation run := (@run Wt Md Lm Cf Rc Dat zero_mode mean_of nt_of_data project nt_of rebuild conf).
Notation sim_folder := (@sim_folder Wt Md Lm conf).
Notation start := (@start Wt Md Lm Cf Rc).

Lemma bind_Ok {A B} (m : res A) (f : A -> res B) b : (do x <- m; f x) = Ok b -> exists a, m = Ok a /\ f a = Ok b.
Proof. destruct m; cbn; [eauto|discriminate]. Qed.

Lemma run_app w h1 h2 : run w (h1 ++ h2) =
  (fst (run (fst (run w h1)) h2), snd (run w h1) ++ snd (run (fst (run w h1)) h2)).
Proof.
  revert w. induction h1 as [|e h IH]; intros w; cbn [app Model_Session.run].
  - cbn. now destruct (run w h2).
  - destruct (step w e) as [w1 x]. rewrite IH. destruct (run w1 h) as [w2 xs]. reflexivity.
Qed.
Lemma run_length w h : length (snd (run w h)) = length h.
Proof.
  revert w. induction h as [|e h IH]; intros w; cbn [Model_Session.run]; [reflexivity|].
  destruct (step w e) as [w1 x]. specialize (IH w1). destruct (run w1 h). cbn in *. lia.
Qed.

(* ---- lookup ---- *)
Lemma lookup_app p (a b : store) : lookup p (a ++ b) = match lookup p a with Some c => Some c | None => lookup p b end.
Proof. induction a as [|[q c] a IH]; [reflexivity|]. cbn. destruct (path_eq_dec p q); [reflexivity|exact IH]. Qed.
Lemma lookup_none p (a : store) : lookup p a = None <-> ~ In p (map fst a).
Proof.
  induction a as [|[q c] a IH]; cbn; [tauto|]. destruct (path_eq_dec p q) as [->|N].
  - split; [discriminate|intros H; exfalso; apply H; now left].
  - rewrite IH. split; [intros H [E|E]; [now subst|now apply H]|intros H E; apply H; now right].
Qed.
Lemma lookup_nodup p c (a : store) : NoDup (map fst a) -> In (p, c) a -> lookup p a = Some c.
Proof.
  induction a as [|[q d] a IH]; cbn; [easy|]. intros Nd [E|I].
  - injection E as -> ->. now destruct (path_eq_dec p p).
  - inversion_clear Nd as [|? ? Nq Nd']. destruct (path_eq_dec p q) as [->|N]; [|now apply IH].
    exfalso. apply Nq. apply in_map_iff. now exists (q, c).
Qed.
Lemma rev_nodup (a : store) : NoDup (map fst a) -> NoDup (map fst (rev a)).
Proof. intros H. rewrite map_rev. now apply NoDup_rev. Qed.
Lemma lookup_rev_nodup p c (a : store) : NoDup (map fst a) -> In (p, c) a -> lookup p (rev a) = Some c.
Proof. intros H I. apply lookup_nodup; [now apply rev_nodup|now apply -> in_rev]. Qed.

(* ---- which paths an operation writes ---- *)
Lemma fit_writes_paths d r p c : In (p, c) (fit_writes d r) -> folder_of p = d.
Proof.
  unfold Model_Session.fit_writes. intros H. apply in_app_iff in H as [H|H].
  - unfold mode_writes in H. destruct (r_kind r); [easy| |].
    + apply in_map_iff in H as [f [E _]]. now injection E as <- <-.
    + apply in_flat_map in H as [f [_ H]]. apply in_map_iff in H as [m [E _]]. now injection E as <- <-.
  - cbn in H. repeat (destruct H as [H|H]; [now injection H as <- <-|]). easy.
Qed.
(* the folder the coefficients of a go to *)
Definition cd_paths (cd : folder * nat * nat) : list path :=
  let '(d, lb, ub) := cd in [PPhir d lb ub; PLtm d lb ub; PCoeffs d lb ub; PCoeffsParams d lb ub].
Lemma coeffs_writes_inv st d a ws cd : coeffs_writes st d a = Ok (ws, cd) ->
  exists nf nm fr wt sel phir c,
    required st d = Ok (nf, nm, fr, wt) /\
    coeffs_modes zero_mode (modes_at st d) fr nf (a_T_lb a) (a_T_ub a) (a_freq_idx a) nm (nt_of_data (a_data a)) = Ok (sel, phir) /\
    project phir wt (a_data a) (a_tol a) (a_svd a) = Ok c /\
    cd = (d, f_idx_lb sel, f_idx_ub sel) /\
    ws = [(PPhir d (f_idx_lb sel) (f_idx_ub sel), CModes phir); (PLtm d (f_idx_lb sel) (f_idx_ub sel), CLtm (mean_of (a_data a)));
          (PCoeffs d (f_idx_lb sel) (f_idx_ub sel), CCoeffs c);
          (PCoeffsParams d (f_idx_lb sel) (f_idx_ub sel), CCoeffsParams (a_modes_idx a) (f_idx_lb sel) (f_idx_ub sel))].
Proof.
  unfold Model_Session.coeffs_writes. intros H. apply bind_Ok in H as [[[[nf nm] fr] wt] [H1 H]].
  apply bind_Ok in H as [[sel phir] [H2 H]]. apply bind_Ok in H as [c [H3 H]]. injection H as <- <-.
  exists nf, nm, fr, wt, sel, phir, c. auto.
Qed.
Lemma coeffs_writes_paths st d a ws cd : coeffs_writes st d a = Ok (ws, cd) -> map fst ws = cd_paths cd /\ fst (fst cd) = d.
Proof. intros H. apply coeffs_writes_inv in H as (?&?&?&?&?&?&?&_&_&_&->&->). split; reflexivity. Qed.
Lemma recon_writes_inv st d lb ub t ws r : recon_writes st (d, lb, ub) t = Ok (ws, r) ->
  ws = [(PRecon d lb ub, CRecon r)] /\
  exists lm phir idx l u cf ts, lookup (PLtm d lb ub) st = Some (CLtm lm) /\ lookup (PPhir d lb ub) st = Some (CModes phir) /\
    lookup (PCoeffsParams d lb ub) st = Some (CCoeffsParams idx l u) /\ lookup (PCoeffs d lb ub) st = Some (CCoeffs cf) /\
    selected_times (nt_of cf) t = Ok ts /\ rebuild phir lm cf ts = Ok r.
Proof.
  unfold Model_Session.recon_writes. intros H. apply bind_Ok in H as [m [H1 H]]. apply bind_Ok in H as [ph [H2 H]].
  apply bind_Ok in H as [p [H3 H]]. apply bind_Ok in H as [c [H4 H]].
  unfold read in *.
  destruct (lookup (PLtm d lb ub) st) as [cm|]; [|discriminate].
  destruct (lookup (PPhir d lb ub) st) as [cph|]; [|discriminate].
  destruct (lookup (PCoeffsParams d lb ub) st) as [cpp|]; [|discriminate].
  destruct (lookup (PCoeffs d lb ub) st) as [cc|]; [|discriminate].
  assert (cm = m) as -> by (destruct cm; congruence). assert (cph = ph) as -> by (destruct cph; congruence).
  assert (cpp = p) as -> by (destruct cpp; congruence). assert (cc = c) as -> by (destruct cc; congruence).
  destruct m; try discriminate. destruct ph; try discriminate. destruct p; try discriminate. destruct c; try discriminate.
  apply bind_Ok in H as [ts [H5 H]]. apply bind_Ok in H as [r' [H6 H]]. injection H as <- <-. split; [reflexivity|].
  do 7 eexists. repeat split; eauto.
Qed.
(* and the converse *)
Lemma recon_writes_ok st d lb ub t lm phir idx l u cf : lookup (PLtm d lb ub) st = Some (CLtm lm) ->
  lookup (PPhir d lb ub) st = Some (CModes phir) ->
  lookup (PCoeffsParams d lb ub) st = Some (CCoeffsParams idx l u) -> lookup (PCoeffs d lb ub) st = Some (CCoeffs cf) ->
  recon_writes st (d, lb, ub) t =
  (do ts <- selected_times (nt_of cf) t; do r <- rebuild phir lm cf ts; Ok ([(PRecon d lb ub, CRecon r)], r)).
Proof. intros H1 H2 H3 H4. unfold Model_Session.recon_writes, read. now rewrite H1, H2, H3, H4. Qed.

(* ---- perform ---- *)
Lemma perform_paths (st : store) ws stop st' b p c : perform st ws stop = (st', b) -> In (p, c) st' -> In (p, c) st \/ In p (map fst ws).
Proof.
  assert (R : forall (l : list (path * content)) k, In (p, c) (rev (firstn k l)) -> In p (map fst l)).
  { intros l k H. apply in_rev in H. apply in_map_iff. exists (p, c). split; [reflexivity|].
    rewrite <- (firstn_skipn k l). apply in_or_app. now left. }
  unfold perform. intros H I.
  destruct stop as [[k g]|].
  - destruct (nth_error ws k) as [[q cq]|] eqn:E.
    + injection H as <- <-. apply in_app_iff in I as [I|I].
      * destruct g; [|easy]. destruct I as [I|[]]. injection I as -> _. right. apply nth_error_In in E. apply in_map_iff. now exists (p, cq).
      * apply in_app_iff in I as [I|I]; [right; eauto|now left].
    + injection H as <- <-. apply in_app_iff in I as [I|I]; [right|now left]. apply (R ws (length ws)). now rewrite firstn_all.
  - injection H as <- <-. apply in_app_iff in I as [I|I]; [right|now left]. apply (R ws (length ws)). now rewrite firstn_all.
Qed.
Lemma perform_ext (st : store) (ws : list (path * content)) stop : exists new b, perform st ws stop = (new ++ st, b) /\ forall p, In p (map fst new) -> In p (map fst ws).
Proof.
  assert (R : forall (l : list (path * content)) k p, In p (map fst (rev (firstn k l))) -> In p (map fst l)).
  { intros l k p H. rewrite map_rev in H. apply in_rev in H. apply in_map_iff in H as [x [E I]]. apply in_map_iff. exists x. split; [exact E|].
    rewrite <- (firstn_skipn k l). apply in_or_app. now left. }
  unfold perform. destruct stop as [[k g]|].
  - destruct (nth_error ws k) as [[q cq]|] eqn:E.
    + exists ((if g then [(q, Torn)] else []) ++ rev (firstn k ws)), false. split; [now rewrite <- app_assoc|].
      intros p I. rewrite map_app in I. apply in_app_iff in I as [I|I]; [|now apply R in I].
      destruct g; [|easy]. destruct I as [I|[]]. cbn in I. subst q. apply nth_error_In in E. apply in_map_iff. now exists (p, cq).
    + exists (rev ws), true. split; [reflexivity|]. intros p I. apply (R ws (length ws)). now rewrite firstn_all.
  - exists (rev ws), true. split; [reflexivity|]. intros p I. apply (R ws (length ws)). now rewrite firstn_all.
Qed.
Lemma perform_frame (st : store) ws stop st' b p : perform st ws stop = (st', b) -> ~ In p (map fst ws) -> lookup p st' = lookup p st.
Proof.
  intros H N. destruct (perform_ext st ws stop) as (new & b' & E & F). rewrite E in H. injection H as <- <-.
  rewrite lookup_app. assert (L : lookup p new = None) by (apply lookup_none; auto). now rewrite L.
Qed.
Lemma perform_done (st : store) ws stop st' : perform st ws stop = (st', true) -> st' = rev ws ++ st.
Proof.
  unfold perform. destruct stop as [[k g]|]; [|now injection 1].
  destruct (nth_error ws k) as [[q cq]|]; [discriminate|now injection 1].
Qed.
(* the last write of a list is there and readable only when the list was completed *)
Lemma perform_last (st : store) ws stop st' p c : ~ In p (map fst ws) ->
  perform st (ws ++ [(p, c)]) stop = (st', false) -> lookup p st' = lookup p st \/ lookup p st' = Some Torn.
Proof.
  intros Nin H. unfold perform in H. destruct stop as [[k g]|]; [|discriminate].
  destruct (nth_error (ws ++ [(p, c)]) k) as [[q cq]|] eqn:E; [|discriminate]. injection H as <-.
  assert (Hk : k < length (ws ++ [(p, c)])) by (apply nth_error_Some; congruence). rewrite app_length in Hk. cbn in Hk.
  assert (L : lookup p (rev (firstn k (ws ++ [(p, c)])) ++ st) = lookup p st).
  { rewrite lookup_app. assert (L : lookup p (rev (firstn k (ws ++ [(p, c)]))) = None).
    { apply lookup_none. rewrite map_rev. intros I. apply in_rev in I. apply Nin.
      rewrite firstn_app in I. replace (k - length ws) with 0 in I by (clear - Hk; lia). cbn in I. rewrite app_nil_r in I.
      apply in_map_iff in I as [x [Ex I]]. apply in_map_iff. exists x. split; [exact Ex|].
      rewrite <- (firstn_skipn k ws). apply in_or_app. now left. }
    now rewrite L. }
  destruct g; cbn [app]; [|now left]. cbn [lookup]. destruct (path_eq_dec p q); [now right|now left].
Qed.
Lemma gather_ext (f g : nat -> option (list Md)) n k l p : (forall x, f x = g x) -> gather f n k l p = gather g n k l p.
Proof.
  intros H. revert k p. induction l as [|x l IH]; intros k p; [reflexivity|]. cbn. rewrite H. destruct (g x) as [c|]; [|reflexivity].
  destruct (length c =? n); [|reflexivity]. destruct (put n k 0 c p); cbn; [apply IH|reflexivity].
Qed.
Lemma coeffs_modes_ext (f g : nat -> option (list Md)) fr nf a b c n k : (forall x, f x = g x) ->
  coeffs_modes zero_mode f fr nf a b c n k = coeffs_modes zero_mode g fr nf a b c n k.
Proof.
  intros H. unfold coeffs_modes. destruct (select_freqs fr nf a b c) as [s|]; [|reflexivity]. cbn.
  destruct (alloc_coeffs s n k); [|reflexivity]. cbn. unfold get_modes. destruct (_ <? _)%Z; [reflexivity|].
  rewrite (gather_ext f g n 0 (freq_list s) _ H). reflexivity.
Qed.
End S.
