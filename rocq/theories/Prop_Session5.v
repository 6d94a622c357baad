(* C99: mode files left by earlier fits. *)
From Coq Require Import QArith String.
From Verif Require Import Base_List Model_Base Model_Select Model_Session Proof_Session Proof_Select Prop_Select Prop_Session Prop_Session3.
Set Implicit Arguments.
Local Open Scope nat_scope.

Section S.
Variables Wt Md Lm Cf Rc Dat : Type.
Variable zero_mode : Md.
Variable mean_of : Dat -> Lm.
Variable nt_of_data : Dat -> nat.
Variable project : list Md -> Wt -> Dat -> Q -> bool -> res Cf.
Variable nt_of : Cf -> nat.
Variable rebuild : list Md -> Lm -> Cf -> list nat -> res Rc.
Variable conf : nat -> config.
Notation content := (content Wt Md Lm Cf Rc).
Notation store := (store Wt Md Lm Cf Rc).
Notation step := (@step Wt Md Lm Cf Rc Dat zero_mode mean_of nt_of_data project nt_of rebuild conf).
Notation run := (@run Wt Md Lm Cf Rc Dat zero_mode mean_of nt_of_data project nt_of rebuild conf).
Notation start := (@start Wt Md Lm Cf Rc).
Notation event := (event Wt Md Lm Dat).
Notation op := (op Wt Md Lm Dat).
Notation world := (world Wt Md Lm Cf Rc).
Notation coeffs_writes := (@coeffs_writes Wt Md Lm Cf Rc Dat zero_mode mean_of nt_of_data project).
Notation recon_writes := (@recon_writes Wt Md Lm Cf Rc nt_of rebuild).



Notation fit_result := (fit_result Wt Md Lm).

(* what a fit computes is consistent: a frequency per index, n_modes modes per frequency *)
Definition consistent (r : fit_result) : Prop :=
  1 <= r_nfreq r /\ 1 <= r_nmodes r /\ length (r_freq r) = r_nfreq r /\ forall f, f < r_nfreq r -> length (r_modes r f) = r_nmodes r.
Definition folder_of_fit (o : nat) (r : fit_result) : folder :=
  Folder (c_savedir (conf o)) (result_folder (c_ndft (conf o)) (c_novlp (conf o)) (Z.of_nat (r_blocks r))).
(* arguments for all frequencies *)
Definition all_frequencies (a : coeffs_args Dat) : Prop := (a_T_lb a = None \/ a_T_ub a = None) /\ a_freq_idx a = None.
(* phir holds the modes M, frequency by frequency *)
Definition holds_modes (M : nat -> list Md) (nf nm : nat) (phir : list Md) : Prop :=
  length phir = nf * nm /\ forall f m, f < nf -> m < nm -> nth_error phir (nm * f + m) = nth_error (M f) m.
(* the coefficients computed in folder d are the projection of the data on the modes M with the weights wt *)
Definition coefficients_use (w : world) (d : folder) (M : nat -> list Md) (nf nm : nat) (wt : Wt) : Prop :=
  forall a, all_frequencies a -> exists phir, holds_modes M nf nm phir /\
    match project phir wt (a_data a) (a_tol a) (a_svd a) with
    | Err x => snd (step w (UCoeffs d a, None)) = Raised x
    | Ok c => snd (step w (UCoeffs d a, None)) = Dir (d, 0, nf - 1) /\
              let st := w_store (fst (step w (UCoeffs d a, None))) in
              lookup (PPhir d 0 (nf - 1)) st = Some (CModes phir) /\ lookup (PCoeffs d 0 (nf - 1)) st = Some (CCoeffs c)
    end.

Lemma gather_all (at_ : nat -> option (list Md)) (M : nat -> list Md) nf nm fr a nt : 1 <= nf -> 1 <= nm -> length fr = nf -> all_frequencies a ->
  (forall f, f < nf -> at_ f = Some (M f) /\ length (M f) = nm) ->
  exists sel phir, coeffs_modes zero_mode at_ fr nf (a_T_lb a) (a_T_ub a) (a_freq_idx a) nm nt = Ok (sel, phir) /\
    f_idx_lb sel = 0 /\ f_idx_ub sel = nf - 1 /\ holds_modes M nf nm phir.
Proof.
  intros Hf Hm Lf [Ha Hi] Hat. rewrite Hi. assert (Nf : fr <> []) by (intros ->; cbn in Lf; lia).
  assert (Sf : exists q0 q1, select_freqs fr nf (a_T_lb a) (a_T_ub a) None = Ok (Fsel q0 0 q1 (nf - 1) (Z.of_nat nf) (seq 0 nf))).
  { unfold select_freqs. assert (B : (is_none (a_T_lb a) || is_none (a_T_ub a)) && is_none (@None (list nat)) = true).
    { destruct Ha as [-> | ->]; cbn; [reflexivity|]. now rewrite orb_true_r. }
    rewrite B. destruct (nth_error fr 0) as [q0|] eqn:E0; [|apply nth_error_None in E0; lia].
    destruct (nth_error fr (nf - 1)) as [q1|] eqn:E1; [|apply nth_error_None in E1; lia].
    exists q0, q1. cbn [bind]. f_equal. f_equal; [lia|]. f_equal. lia. }
  destruct Sf as (q0 & q1 & Sf). unfold coeffs_modes. rewrite Sf. cbn [bind]. unfold alloc_coeffs. cbn [n_freq_r freq_list].
  destruct (Z.ltb_spec (Z.of_nat nf * Z.of_nat nm) 0); [nia|]. cbn [bind].
  assert (Ex : exists phir, get_modes zero_mode at_ (Z.of_nat nf) (seq 0 nf) nm = Ok phir).
  { apply C55_success; [exact Hm|]. split; [destruct nf; [lia|discriminate]|]. split; [now rewrite seq_length|].
    intros f I. apply in_seq in I. destruct (Hat f) as [E L]; [lia|]. eauto. }
  destruct Ex as [phir Ep]. rewrite Ep. cbn [bind]. eexists. exists phir. split; [reflexivity|]. cbn [f_idx_lb f_idx_ub]. split; [reflexivity|]. split; [reflexivity|].
  destruct (C55_gathering_order _ _ _ _ _ _ _ Hm Ep) as (L & _ & N & _). split; [exact L|]. intros f m Hf' Hm'.
  destruct (N f f m) as (cols & x & E1 & E2 & E3).
  - rewrite (nth_error_nth' _ 0) by (now rewrite seq_length). f_equal. rewrite seq_nth by exact Hf'. reflexivity.
  - exact Hm'.
  - destruct (Hat f Hf') as [E _]. rewrite E in E1. injection E1 as <-. now rewrite E2.
Qed.
Lemma use_all w d (M : nat -> list Md) nf nm wt fr : 1 <= nf -> 1 <= nm -> length fr = nf ->
  lookup (PEigs d) (w_store w) = Some (CEigs fr) -> lookup (PWeights d) (w_store w) = Some (CWeights wt) ->
  lookup (PParams d) (w_store w) = Some (CParams nf nm) ->
  (forall f, f < nf -> modes_at (w_store w) d f = Some (M f) /\ length (M f) = nm) ->
  coefficients_use w d M nf nm wt.
Proof.
  intros Hf Hm Lf L1 L2 L3 Hat a Ha.
  destruct (@gather_all (modes_at (w_store w) d) M nf nm fr a (nt_of_data (a_data a)) Hf Hm Lf Ha Hat) as (sel & phir & E & B1 & B2 & Hh).
  exists phir. split; [exact Hh|].
  assert (Rq : required (w_store w) d = Ok (nf, nm, fr, wt)) by (unfold required, read; now rewrite L1, L2, L3).
  unfold Model_Session.step. cbn [fst snd]. unfold Model_Session.coeffs_writes. rewrite Rq. cbn [bind]. rewrite E. cbn [bind]. rewrite B1, B2.
  destruct (project phir wt _ _ _) as [c|x]; [|reflexivity]. cbn [bind perform fst snd w_store]. split; [reflexivity|].
  cbn [rev app lookup]. split; repeat (match goal with |- context [path_eq_dec ?x ?y] =>
      let Ep := fresh in destruct (path_eq_dec x y) as [Ep|Ep]; [try discriminate Ep; try reflexivity|try (exfalso; apply Ep; reflexivity)] end).
Qed.

(* ---- what the store holds after a completed fit ---- *)
Lemma fit_store w o r : w_store (fst (step w (OFit o r, None))) = rev (fit_writes Cf Rc zero_mode (folder_of_fit o r) r) ++ w_store w.
Proof. reflexivity. Qed.
Lemma fit_files w o r : let st := w_store (fst (step w (OFit o r, None))) in let d := folder_of_fit o r in
  lookup (PEigs d) st = Some (CEigs (r_freq r)) /\ lookup (PWeights d) st = Some (CWeights (r_weights r)) /\
  lookup (PParams d) st = Some (CParams (r_nfreq r) (r_nmodes r)).
Proof.
  cbv zeta. rewrite fit_store. unfold fit_writes. rewrite rev_app_distr. cbn [rev app]. set (d := folder_of_fit o r). cbn [lookup].
  split; [|split]; repeat (match goal with |- context [path_eq_dec ?x ?y] =>
      let Ep := fresh in destruct (path_eq_dec x y) as [Ep|Ep]; [try discriminate Ep; try reflexivity|try (exfalso; apply Ep; reflexivity)] end).
Qed.
(* files of modes: only the mode files of the fit matter *)
Lemma fit_lookup_mode w o r p : (exists f, p = PFreq (folder_of_fit o r) f) \/ (exists f m, p = PMode (folder_of_fit o r) f m) ->
  lookup p (w_store (fst (step w (OFit o r, None)))) =
  match lookup p (rev (mode_writes Cf Rc zero_mode (folder_of_fit o r) r)) with Some c => Some c | None => lookup p (w_store w) end.
Proof.
  intros Hp. rewrite fit_store. unfold fit_writes. rewrite rev_app_distr, <- app_assoc. cbn [rev app]. set (d := folder_of_fit o r) in *. cbn [lookup].
  assert (N : forall q, q = PEigs d \/ q = PParams d \/ q = PLtmModes d \/ q = PWeights d -> p <> q).
  { intros q Hq ->. destruct Hp as [[f ->]|(f & m & ->)]; destruct Hq as [Hq|[Hq|[Hq|Hq]]]; discriminate. }
  repeat (match goal with |- context [path_eq_dec ?x ?y] => destruct (path_eq_dec x y) as [Ep|_]; [exfalso; apply (N y); tauto|] end).
  apply lookup_app.
Qed.
Lemma freq_writes_lookup d (r : fit_result) f : r_kind r = PerFrequency ->
  lookup (PFreq d f) (rev (mode_writes Cf Rc zero_mode d r)) = if f <? r_nfreq r then Some (CModes (r_modes r f)) else None.
Proof.
  intros K. unfold mode_writes. rewrite K. destruct (Nat.ltb_spec f (r_nfreq r)) as [L|L].
  - apply lookup_rev_nodup.
    + rewrite map_map. cbn. apply FinFun.Injective_map_NoDup; [|apply seq_NoDup]. intros x y E. now injection E.
    + apply in_map_iff. exists f. split; [reflexivity|]. apply in_seq. lia.
  - apply lookup_none. rewrite map_rev, map_map. intros I. apply in_rev in I. apply in_map_iff in I as [g [E I]]. cbn in E. injection E as ->. apply in_seq in I. lia.
Qed.
Lemma no_freq_writes d (r : fit_result) f : r_kind r <> PerFrequency -> lookup (PFreq d f) (rev (mode_writes Cf Rc zero_mode d r)) = None.
Proof.
  intros K. apply lookup_none. rewrite map_rev. intros I. apply in_rev in I. unfold mode_writes in I. destruct (r_kind r); [easy|congruence|].
  apply in_map_iff in I as [[q c] [E I]]. cbn in E. subst q. apply in_flat_map in I as [g [_ I]]. apply in_map_iff in I as [m [E _]]. discriminate.
Qed.
Lemma mode_writes_lookup d (r : fit_result) f m : r_kind r = PerMode ->
  lookup (PMode d f m) (rev (mode_writes Cf Rc zero_mode d r)) =
  if (f <? r_nfreq r) && (m <? r_nmodes r) then Some (CModes [nth m (r_modes r f) zero_mode]) else None.
Proof.
  intros K. unfold mode_writes. rewrite K.
  set (ws := flat_map _ _).
  assert (In_ws : forall p c, In (p, c) ws <-> exists g n, g < r_nfreq r /\ n < r_nmodes r /\ p = PMode d g n /\ c = CModes [nth n (r_modes r g) zero_mode]).
  { intros p c. unfold ws. rewrite in_flat_map. split.
    - intros (g & Ig & I). apply in_map_iff in I as [n [E In_]]. apply in_seq in Ig, In_. injection E as <- <-. exists g, n. repeat split; lia.
    - intros (g & n & Hg & Hn & -> & ->). exists g. split; [apply in_seq; lia|]. apply in_map_iff. exists n. split; [reflexivity|apply in_seq; lia]. }
  destruct (lookup (PMode d f m) (rev ws)) as [c|] eqn:E.
  - assert (I : In (PMode d f m, c) (rev ws)) by (now apply lookup_in). apply in_rev in I. apply In_ws in I as (g & n & Hg & Hn & Ep & ->).
    injection Ep as <- <-. destruct (Nat.ltb_spec f (r_nfreq r)); [|lia]. destruct (Nat.ltb_spec m (r_nmodes r)); [|lia]. reflexivity.
  - apply lookup_none in E. destruct (Nat.ltb_spec f (r_nfreq r)); [|reflexivity]. destruct (Nat.ltb_spec m (r_nmodes r)); [|reflexivity].
    exfalso. apply E. rewrite map_rev, <- in_rev. apply in_map_iff. exists (PMode d f m, CModes [nth m (r_modes r f) zero_mode]). split; [reflexivity|].
    apply In_ws. exists f, m. auto.
Qed.

(* With one file per frequency the coefficients computed after a fit use the modes and weights of this fit, whatever the
   folder held before. *)
Theorem C99_per_frequency : forall w o r, consistent r -> r_kind r = PerFrequency ->
  coefficients_use (fst (step w (OFit o r, None))) (folder_of_fit o r) (r_modes r) (r_nfreq r) (r_nmodes r) (r_weights r).
Proof.
  intros w o r (Hf & Hm & Lf & Lm') K. destruct (fit_files w o r) as (L1 & L2 & L3).
  apply (@use_all _ _ _ _ _ _ (r_freq r)); auto. intros f Hlt. split; [|auto]. unfold modes_at.
  rewrite fit_lookup_mode by (left; eauto). rewrite freq_writes_lookup by exact K. destruct (Nat.ltb_spec f (r_nfreq r)); [reflexivity|lia].
Qed.
(* A later fit into the same folder with one file per mode, or without mode files, is shadowed by those files: the coefficients
   combine the modes of the earlier fit with the weights of the later one. *)
Theorem C99_shadowed_refuted : forall w o1 r1 o2 r2, consistent r1 -> r_kind r1 = PerFrequency -> r_kind r2 <> PerFrequency ->
  folder_of_fit o1 r1 = folder_of_fit o2 r2 -> r_nfreq r2 = r_nfreq r1 -> r_nmodes r2 = r_nmodes r1 -> length (r_freq r2) = r_nfreq r2 ->
  coefficients_use (fst (step (fst (step w (OFit o1 r1, None))) (OFit o2 r2, None))) (folder_of_fit o2 r2)
    (r_modes r1) (r_nfreq r1) (r_nmodes r1) (r_weights r2).
Proof.
  intros w o1 r1 o2 r2 (Hf & Hm & Lf & Lm') K1 K2 Ed En Em Lf2. set (w1 := fst (step w (OFit o1 r1, None))).
  destruct (fit_files w1 o2 r2) as (L1 & L2 & L3). rewrite En, Em in L3.
  apply (@use_all _ _ _ _ _ _ (r_freq r2)); auto; [congruence|]. intros f Hlt. split; [|auto]. unfold modes_at.
  rewrite fit_lookup_mode by (left; eauto). rewrite no_freq_writes by exact K2. rewrite <- Ed. unfold w1.
  rewrite fit_lookup_mode by (left; eauto). rewrite freq_writes_lookup by exact K1. destruct (Nat.ltb_spec f (r_nfreq r1)); [reflexivity|lia].
Qed.
(* no mode files of a folder *)
Definition no_mode_files (st : store) (d : folder) : Prop :=
  (forall f, lookup (PFreq d f) st = None) /\ (forall f m, lookup (PMode d f m) st = None).
Lemma numbers_of (st : store) d f n : (forall m, (exists c, lookup (PMode d f m) st = Some c) <-> m < n) -> mode_numbers st d f = seq 0 n.
Proof.
  intros H. unfold mode_numbers.
  assert (Hm : forall m, (match lookup (PMode d f m) st with Some _ => true | None => false end = true) <-> m < n).
  { intros m. rewrite <- H. destruct (lookup (PMode d f m) st); split; eauto; try discriminate. intros [? E]. discriminate. }
  rewrite (@filter_seq_bound conf (fun m => match lookup (PMode d f m) st with Some _ => true | None => false end) (bound st) n).
  - assert (Fa : forall l, (forall x, In x l -> x < n) -> filter (fun m => match lookup (PMode d f m) st with Some _ => true | None => false end) l = l).
    { induction l as [|x l IH]; intros Hl; [reflexivity|]. cbn [filter]. rewrite (proj2 (Hm x)) by (apply Hl; now left). f_equal. apply IH. intros y I. apply Hl. now right. }
    apply Fa. intros x I. apply in_seq in I. lia.
  - intros m E. destruct (lookup (PMode d f m) st) as [c|] eqn:L; [|discriminate]. apply lookup_in in L. eapply bound_in; eauto.
  - intros m E. now apply Hm.
Qed.
Lemma read_modes_seq (st : store) d f (l : list Md) : (forall m, m < length l -> lookup (PMode d f m) st = Some (CModes [nth m l zero_mode])) ->
  read_modes st d f (seq 0 (length l)) = Some l.
Proof.
  intros H. assert (G : forall k s, s + k = length l -> read_modes st d f (seq s k) = Some (skipn s l)).
  { induction k as [|k IH]; intros s E; cbn [seq read_modes].
    - rewrite skipn_all2 by lia. reflexivity.
    - rewrite H by lia. rewrite IH by lia. f_equal. clear - E. revert s E. induction l as [|x l IHl]; intros [|s] E; cbn in *; try lia; [reflexivity|]. apply IHl. lia. }
  rewrite G by lia. reflexivity.
Qed.
(* With one file per mode the same holds in a folder without mode files ... *)
Theorem C99_per_mode_fresh : forall w o r, consistent r -> r_kind r = PerMode -> no_mode_files (w_store w) (folder_of_fit o r) ->
  coefficients_use (fst (step w (OFit o r, None))) (folder_of_fit o r) (r_modes r) (r_nfreq r) (r_nmodes r) (r_weights r).
Proof.
  intros w o r (Hf & Hm & Lf & Lm') K [N1 N2]. destruct (fit_files w o r) as (L1 & L2 & L3).
  apply (@use_all _ _ _ _ _ _ (r_freq r)); auto. intros f Hlt. split; [|auto]. unfold modes_at.
  rewrite fit_lookup_mode by (left; eauto). rewrite no_freq_writes by (rewrite K; discriminate). rewrite N1.
  assert (Lk : forall m, lookup (PMode (folder_of_fit o r) f m) (w_store (fst (step w (OFit o r, None)))) =
     if m <? r_nmodes r then Some (CModes [nth m (r_modes r f) zero_mode]) else None).
  { intros m. rewrite fit_lookup_mode by (right; eauto). rewrite mode_writes_lookup by exact K.
    destruct (Nat.ltb_spec f (r_nfreq r)); [|lia]. cbn [andb]. destruct (m <? r_nmodes r); [reflexivity|apply N2]. }
  rewrite (@numbers_of _ _ _ (r_nmodes r)).
  - assert (R : read_modes (w_store (fst (step w (OFit o r, None)))) (folder_of_fit o r) f (seq 0 (r_nmodes r)) = Some (r_modes r f)).
    { rewrite <- (Lm' f Hlt). apply read_modes_seq. intros m Hm'. rewrite Lk. rewrite (Lm' f Hlt) in Hm'. destruct (Nat.ltb_spec m (r_nmodes r)); [reflexivity|lia]. }
    destruct (seq 0 (r_nmodes r)) eqn:Es; [destruct (r_nmodes r); [lia|discriminate]|exact R].
  - intros m. rewrite Lk. destruct (Nat.ltb_spec m (r_nmodes r)); split; intros; [lia|eauto| |lia]. destruct H0; discriminate.
Qed.
(* ... but after an earlier fit with more modes the coefficients cannot be computed at all. *)
Theorem C99_more_modes_refuted : forall w o1 r1 o2 r2 a, consistent r1 -> consistent r2 -> r_kind r1 = PerMode -> r_kind r2 = PerMode ->
  no_mode_files (w_store w) (folder_of_fit o1 r1) -> folder_of_fit o1 r1 = folder_of_fit o2 r2 ->
  r_nfreq r2 = r_nfreq r1 -> r_nmodes r2 < r_nmodes r1 -> all_frequencies a ->
  snd (step (fst (step (fst (step w (OFit o1 r1, None))) (OFit o2 r2, None))) (UCoeffs (folder_of_fit o2 r2) a, None)) = Raised ValueError.
Proof.
  intros w o1 r1 o2 r2 a (Hf & Hm & Lf & Lm') (Hf2 & Hm2 & Lf2 & Lm2) K1 K2 [N1 N2] Ed En Em Ha.
  set (w1 := fst (step w (OFit o1 r1, None))). set (w2 := fst (step w1 (OFit o2 r2, None))). set (d := folder_of_fit o2 r2) in *.
  destruct (fit_files w1 o2 r2) as (L1 & L2 & L3). fold w2 d in L1, L2, L3.
  assert (Lk : forall m, lookup (PMode d 0 m) (w_store w2) =
     if m <? r_nmodes r2 then Some (CModes [nth m (r_modes r2 0) zero_mode]) else if m <? r_nmodes r1 then Some (CModes [nth m (r_modes r1 0) zero_mode]) else None).
  { intros m. unfold w2. rewrite fit_lookup_mode by (right; eauto). rewrite mode_writes_lookup by exact K2.
    destruct (Nat.ltb_spec 0 (r_nfreq r2)); [|lia]. cbn [andb]. destruct (m <? r_nmodes r2); [reflexivity|]. fold d. rewrite <- Ed. unfold w1.
    rewrite fit_lookup_mode by (right; eauto). rewrite mode_writes_lookup by exact K1. destruct (Nat.ltb_spec 0 (r_nfreq r1)); [|lia]. cbn [andb].
    destruct (m <? r_nmodes r1); [reflexivity|apply N2]. }
  assert (Fq : lookup (PFreq d 0) (w_store w2) = None).
  { unfold w2. rewrite fit_lookup_mode by (left; eauto). rewrite no_freq_writes by (rewrite K2; discriminate). fold d. rewrite <- Ed. unfold w1.
    rewrite fit_lookup_mode by (left; eauto). rewrite no_freq_writes by (rewrite K1; discriminate). apply N1. }
  assert (Nm : mode_numbers (w_store w2) d 0 = seq 0 (r_nmodes r1)).
  { apply numbers_of. intros m. rewrite Lk. destruct (Nat.ltb_spec m (r_nmodes r2)); [split; [lia|eauto]|].
    destruct (Nat.ltb_spec m (r_nmodes r1)); split; intros; [lia|eauto| |lia]. destruct H1; discriminate. }
  assert (Mo : exists l, modes_at (w_store w2) d 0 = Some l /\ length l = r_nmodes r1).
  { unfold modes_at. rewrite Fq, Nm.
    set (l := firstn (r_nmodes r2) (r_modes r2 0) ++ skipn (r_nmodes r2) (r_modes r1 0)).
    assert (La : length (r_modes r2 0) = r_nmodes r2) by (apply Lm2; lia). assert (Lb : length (r_modes r1 0) = r_nmodes r1) by (apply Lm'; lia).
    assert (Ll : length l = r_nmodes r1) by (unfold l; rewrite app_length, firstn_length, skipn_length; lia).
    exists l. split; [|exact Ll].
    assert (R : read_modes (w_store w2) d 0 (seq 0 (r_nmodes r1)) = Some l).
    { rewrite <- Ll. apply read_modes_seq. intros m Hm'. rewrite Ll in Hm'. rewrite Lk. destruct (Nat.ltb_spec m (r_nmodes r2)) as [H|H].
      - unfold l. rewrite app_nth1 by (rewrite firstn_length; lia). rewrite firstn_all2 by lia. reflexivity.
      - destruct (Nat.ltb_spec m (r_nmodes r1)); [|lia]. unfold l. rewrite app_nth2 by (rewrite firstn_length; lia).
        rewrite firstn_length, La, Nat.min_id. do 3 f_equal. 
        transitivity (nth (r_nmodes r2 + (m - r_nmodes r2)) (r_modes r1 0) zero_mode); [f_equal; lia|]. clear.
        generalize (m - r_nmodes r2). intros k. generalize (r_modes r1 0). induction (r_nmodes r2) as [|n IH]; intros [|x l']; cbn; auto. now destruct k. }
    destruct (seq 0 (r_nmodes r1)) eqn:Es; [destruct (r_nmodes r1); [lia|discriminate]|exact R]. }
  destruct Mo as (l & Mo & Ll). destruct Ha as [Ha Hi].
  assert (Rq : required (w_store w2) d = Ok (r_nfreq r2, r_nmodes r2, r_freq r2, r_weights r2)) by (unfold required, read; now rewrite L1, L2, L3).
  unfold Model_Session.step at 1. cbn [fst snd]. unfold Model_Session.coeffs_writes. rewrite Rq. cbn [bind]. rewrite Hi.
  assert (Sf : exists q0 q1, select_freqs (r_freq r2) (r_nfreq r2) (a_T_lb a) (a_T_ub a) None = Ok (Fsel q0 0 q1 (r_nfreq r2 - 1) (Z.of_nat (r_nfreq r2)) (seq 0 (r_nfreq r2)))).
  { unfold select_freqs. assert (B : (is_none (a_T_lb a) || is_none (a_T_ub a)) && is_none (@None (list nat)) = true).
    { destruct Ha as [-> | ->]; cbn; [reflexivity|]. now rewrite orb_true_r. }
    rewrite B. destruct (nth_error (r_freq r2) 0) as [q0|] eqn:E0; [|apply nth_error_None in E0; lia].
    destruct (nth_error (r_freq r2) (r_nfreq r2 - 1)) as [q1|] eqn:E1; [|apply nth_error_None in E1; lia].
    exists q0, q1. cbn [bind]. f_equal. f_equal; [lia|]. f_equal. lia. }
  destruct Sf as (q0 & q1 & Sf). unfold coeffs_modes. rewrite Sf. cbn [bind]. unfold alloc_coeffs. cbn [n_freq_r freq_list].
  destruct (Z.ltb_spec (Z.of_nat (r_nfreq r2) * Z.of_nat (r_nmodes r2)) 0); [nia|]. cbn [bind]. unfold get_modes.
  destruct (Z.ltb_spec (Z.of_nat (r_nfreq r2) * Z.of_nat (r_nmodes r2)) 0); [nia|].
  destruct (r_nfreq r2) as [|nf']; [lia|]. cbn [seq gather]. rewrite Mo. destruct (Nat.eqb_spec (length l) (r_nmodes r2)); [lia|]. reflexivity.
Qed.
End S.
Print Assumptions C99_per_frequency.
Print Assumptions C99_shadowed_refuted.
Print Assumptions C99_per_mode_fresh.
Print Assumptions C99_more_modes_refuted.
