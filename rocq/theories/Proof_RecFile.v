(* Proofs about the reconstruction file. *)
From Coq Require Import ZArith.
From Verif Require Import Base_List Model_Parallel Spec_Array Proof_Parallel Proof_Npy Proof_Npy2 Model_Select Model_RecFile Spec_RecFile.
Set Implicit Arguments.
Local Open Scope nat_scope.

Lemma nth_error_seq_lt n k : k < n -> nth_error (seq 0 n) k = Some k.
Proof. intros H. rewrite nth_error_seq. now replace (k <? n) with true by lia. Qed.

Lemma unravel_exists sh : forall p, p < prod sh -> exists idx, valid sh idx /\ ravel sh idx = p.
Proof.
  unfold valid. induction sh as [|d sh IH]; intros p Hp; cbn [prod fold_right] in Hp.
  - exists []. split; [constructor|]. cbn. lia.
  - fold (prod sh) in Hp. assert (prod sh <> 0) by (intros E; rewrite E in Hp; lia).
    destruct (IH (p mod prod sh)) as (idx & V & E); [apply Nat.mod_upper_bound; lia|].
    exists (p / prod sh :: idx). split.
    + constructor; [|exact V]. apply Nat.div_lt_upper_bound; lia.
    + cbn [ravel]. rewrite E. pose proof (Nat.div_mod p (prod sh)). lia.
Qed.

Lemma nd_ext {A} (a b : nd A) : wf a -> wf b -> shape a = shape b ->
  (forall idx, valid (shape a) idx -> entry a idx = entry b idx) -> a = b.
Proof.
  destruct a as [sa la], b as [sb lb]; unfold wf; cbn [shape flat]. intros Ha Hb -> H. f_equal. apply nth_error_ext. intros k.
  destruct (Nat.lt_ge_cases k (prod sb)) as [Hk|Hk].
  - destruct (@unravel_exists sb k Hk) as (idx & V & <-). exact (H idx V).
  - rewrite !(proj2 (nth_error_None _ _)) by lia. reflexivity.
Qed.

Lemma prod_snoc sh n : prod (sh ++ [n]) = prod sh * n.
Proof. rewrite prod_app. cbn. lia. Qed.
Lemma ravel_snoc sh n idx k : length idx = length sh -> ravel (sh ++ [n]) (idx ++ [k]) = ravel sh idx * n + k.
Proof. intros H. rewrite ravel_split by exact H. cbn. lia. Qed.
Lemma valid_snoc sh n idx k : valid sh idx -> k < n -> valid (sh ++ [n]) (idx ++ [k]).
Proof. intros V Hk. apply valid_split; [now apply valid_length|]. repeat split; auto. constructor. Qed.
Lemma valid_cons d sh k idx : valid (d :: sh) (k :: idx) <-> k < d /\ valid sh idx.
Proof. unfold valid. split; [intros H; inversion H; auto|intros [? ?]; now constructor]. Qed.
Lemma removelast_snoc (l : list nat) x : removelast (l ++ [x]) = l. Proof. apply removelast_last. Qed.
Lemma last_snoc (l : list nat) x d : last (l ++ [x]) d = x. Proof. apply last_last. Qed.

Lemma grid_nth {A} (f : nat -> nat -> A) G (ts : list nat) g k t :
  g < G -> nth_error ts k = Some t ->
  nth_error (concat (map (fun g => map (f g) ts) (seq 0 G))) (g * length ts + k) = Some (f g t).
Proof.
  intros Hg Hk. rewrite (@nth_error_concat_const _ _ (length ts)).
  - rewrite nth_error_map, nth_error_seq_lt by exact Hg. cbn. now rewrite nth_error_map, Hk.
  - intros l Hl. apply in_map_iff in Hl as (? & <- & _). apply map_length.
  - apply nth_error_Some. congruence.
Qed.
Lemma grid_length {A B} (f : nat -> B -> A) G (ts : list B) :
  length (concat (map (fun g => map (f g) ts) (seq 0 G))) = G * length ts.
Proof.
  rewrite (@concat_length_const _ _ (length ts)); [now rewrite map_length, seq_length|].
  intros l Hl. apply in_map_iff in Hl as (? & <- & _). apply map_length.
Qed.

Section R.
Context {A : Type}.
Variable zero : A.
Variables add mul : A -> A -> A.
Notation val := (value zero).

Lemma value_nth (a : nd A) idx : val a idx = nth (ravel (shape a) idx) (flat a) zero.
Proof.
  unfold value, entry. destruct (nth_error (flat a) (ravel (shape a) idx)) eqn:E.
  - now rewrite (nth_error_nth _ _ zero E).
  - symmetry. apply nth_overflow. now apply nth_error_None.
Qed.

Lemma window_seq p s (l : list A) : s + p <= length l -> window s p l = map (fun j => nth (s + j) l zero) (seq 0 p).
Proof.
  intros H. apply nth_error_ext. intros k. rewrite nth_error_window, nth_error_map.
  destruct (Nat.ltb_spec k p) as [Hk|Hk].
  - rewrite nth_error_seq_lt by exact Hk. cbn. now rewrite (nth_error_nth' l zero) by lia.
  - rewrite (proj2 (nth_error_None _ _)); [reflexivity|]. rewrite seq_length. exact Hk.
Qed.

Lemma dotp_sum p (f g : nat -> A) :
  dotp zero add mul (map f (seq 0 p)) (map g (seq 0 p)) = sum_to zero add p (fun j => mul (f j) (g j)).
Proof. unfold dotp, sum_to. rewrite combine_map_same, map_map. reflexivity. Qed.

Lemma sum_to_ext p f g : (forall j, j < p -> f j = g j) -> sum_to zero add p f = sum_to zero add p g.
Proof. intros H. unfold sum_to. f_equal. apply map_ext_in. intros j Hj. apply in_seq in Hj. apply H. lia. Qed.

(* what _compute_rec_op returns *)
Lemma rec_op_spec (phi a mean : nd A) t sp p nt ts :
  shape phi = sp ++ [p] -> shape a = [p; nt] -> shape mean = sp -> wf phi -> wf a -> wf mean ->
  index_times nt t = Ok ts -> Forall (fun i => i < nt) ts ->
  exists q, rec_op zero add mul phi a mean t = Ok q /\ shape q = sp ++ [length ts] /\ wf q /\
    forall idx k i, valid sp idx -> nth_error ts k = Some i ->
      entry q (idx ++ [k]) = Some (cell_op zero add mul phi a mean p idx i).
Proof.
  intros Sphi Sa Sm Wphi Wa Wm Ht Hts. unfold rec_op. rewrite Sa, Ht. cbn [bind]. rewrite Sphi, removelast_snoc, last_snoc, Nat.eqb_refl.
  destruct (list_eq_dec Nat.eq_dec sp (shape mean)) as [_|N]; [|congruence].
  eexists. split; [reflexivity|]. cbn [shape flat]. split; [reflexivity|]. split.
  - unfold wf. cbn [shape flat]. rewrite grid_length, prod_snoc. reflexivity.
  - intros idx k i V Hk. unfold entry. cbn [shape flat]. rewrite ravel_snoc by (now apply valid_length).
    pose proof (ravel_bound V) as Hg.
    rewrite (@grid_nth _ (fun g t0 => add (dotp zero add mul (window (g * p) p (flat phi)) (column zero p nt t0 (flat a)))
                                      (nth g (flat mean) zero)) (prod sp) ts (ravel sp idx) k i Hg Hk).
    f_equal. unfold cell_op. rewrite (value_nth mean), Sm. f_equal.
    unfold wf in Wphi. rewrite Sphi, prod_snoc in Wphi.
    rewrite window_seq by nia. unfold column. rewrite dotp_sum. apply sum_to_ext. intros j Hj.
    rewrite !value_nth, Sphi, Sa, ravel_snoc by (now apply valid_length). do 2 f_equal. cbn [ravel prod fold_right]. lia.
Qed.

Lemma conv_coeffs_spec F nt M (a : nd A) q t : shape a = [F; nt; M] -> q < M * F -> t < nt ->
  nth (q * nt + t) (conv_coeffs zero F nt M (flat a)) zero = val a [q / M; t; q mod M].
Proof.
  intros Sa Hq Ht. assert (M <> 0) by (intros ->; lia).
  apply nth_error_nth. unfold conv_coeffs.
  assert (HM := Nat.mod_upper_bound q M H). assert (HF : q / M < F) by (apply Nat.div_lt_upper_bound; lia).
  replace (q * nt + t) with (q / M * (M * nt) + (q mod M * nt + t)) by (pose proof (Nat.div_mod q M H); nia).
  rewrite (@nth_error_concat_const _ _ (M * nt)).
  - rewrite nth_error_map, nth_error_seq_lt by exact HF. cbn [option_map Nat.add].
    assert (E := @grid_nth _ (fun m t0 => nth ((q / M * nt + t0) * M + m) (flat a) zero) M (seq 0 nt) (q mod M) t t).
    rewrite seq_length in E. rewrite E by (auto using nth_error_seq_lt).
    rewrite value_nth, Sa. do 2 f_equal. cbn [ravel prod fold_right]. generalize (q / M) (q mod M). intros; nia.
  - intros l Hl. apply in_map_iff in Hl as (? & <- & _). rewrite grid_length, seq_length. reflexivity.
  - nia.
Qed.
Lemma conv_coeffs_length F nt M (l : list A) : length (conv_coeffs zero F nt M l) = M * F * nt.
Proof.
  unfold conv_coeffs. rewrite (@concat_length_const _ _ (M * nt)); [rewrite map_length, seq_length; nia|].
  intros x Hx. apply in_map_iff in Hx as (? & <- & _). rewrite grid_length, seq_length. reflexivity.
Qed.

Lemma index_times_lt nt t ts : index_times nt t = Ok ts -> Forall (fun i => i < nt) ts.
Proof.
  destruct t as [l|s]; [|discriminate]. cbn [index_times]. revert ts. induction l as [|i l IH]; intros ts H; cbn [norm_all] in H.
  - injection H as <-. constructor.
  - destruct (norm_index nt i) as [n|] eqn:E; [|discriminate]. cbn [bind] in H.
    destruct (norm_all nt l) as [r|]; [|discriminate]. cbn [bind] in H. injection H as <-. constructor; [|now apply IH].
    unfold norm_index in E. destruct ((0 <=? i)%Z && (i <? Z.of_nat nt)%Z) eqn:E1.
    + injection E as <-. lia.
    + destruct ((- Z.of_nat nt <=? i)%Z && (i <? 0)%Z) eqn:E2; [|discriminate]. injection E as <-. lia.
Qed.
Lemma norm_all_length nt l ts : norm_all nt l = Ok ts -> length ts = length l.
Proof.
  revert ts. induction l as [|i l IH]; intros ts H; cbn [norm_all] in H; [now injection H as <-|].
  destruct (norm_index nt i); [|discriminate]. cbn [bind] in H. destruct (norm_all nt l); [|discriminate]. cbn [bind] in H.
  injection H as <-. cbn. f_equal. now apply IH.
Qed.

Lemma rec_conv_spec (phi a mean : nd A) t sp F nt M ts : 0 < F -> 0 < M ->
  shape phi = sp ++ [F; M] -> shape a = [F; nt; M] -> shape mean = sp -> wf phi -> wf a -> wf mean ->
  index_times nt t = Ok ts ->
  exists q, rec_conv zero add mul phi a mean t = Ok q /\ shape q = sp ++ [length ts] /\ wf q /\
    forall idx k i, valid sp idx -> nth_error ts k = Some i ->
      entry q (idx ++ [k]) = Some (cell_conv zero add mul phi a mean F M idx i).
Proof.
  intros HF HM Sphi Sa Sm Wphi Wa Wm Ht. unfold rec_conv. rewrite Sa, Sphi, app_length. cbn [length].
  replace (length sp + 2 <? 2) with false by lia.
  rewrite (app_nth2 sp) by lia. rewrite (app_nth2 sp) by lia.
  replace (length sp + 2 - 2 - length sp) with 0 by lia. replace (length sp + 2 - 1 - length sp) with 1 by lia. cbn [nth].
  replace ((F =? 0) || (M =? 0)) with false by lia.
  replace (length sp + 2 - 2) with (length sp) by lia. rewrite firstn_app, Nat.sub_diag, firstn_O, app_nil_r, firstn_all.
  replace (prod (sp ++ [F; M]) =? prod (sp ++ [M * F])) with true
    by (symmetry; apply Nat.eqb_eq; rewrite !prod_app; cbn; lia).
  pose proof (index_times_lt _ _ Ht) as Hts.
  destruct (@rec_op_spec (Nd (sp ++ [M * F]) (flat phi)) (Nd [M * F; nt] (conv_coeffs zero F nt M (flat a))) mean t sp (M * F) nt ts)
    as (q & Eq & Sq & Wq & Hq); auto.
  { unfold wf in *. cbn [shape flat]. rewrite Wphi, Sphi, !prod_app. cbn. lia. }
  { unfold wf. cbn [shape flat]. rewrite conv_coeffs_length. cbn. lia. }
  exists q. repeat split; auto. intros idx k i V Hk. rewrite (Hq idx k i V Hk). f_equal. unfold cell_op, cell_conv. f_equal.
  rewrite (Nat.mul_comm F M). apply sum_to_ext. intros j Hj.
  assert (Hi : i < nt) by (rewrite Forall_forall in Hts; apply Hts; eapply nth_error_In; eauto).
  f_equal.
  - rewrite !value_nth. cbn [shape flat]. rewrite Sphi, ravel_snoc by (now apply valid_length).
    rewrite ravel_split by (now apply valid_length). cbn [ravel prod fold_right]. f_equal.
    pose proof (Nat.div_mod j M). generalize dependent (j / M). generalize (j mod M). intros; nia.
  - rewrite value_nth. cbn [shape flat]. replace (ravel [M * F; nt] [j; i]) with (j * nt + i) by (cbn; lia).
    now apply conv_coeffs_spec.
Qed.

(* ---- np.moveaxis(-1, 0) ---- *)
Lemma move_last_spec (u : nd A) sp m : shape u = sp ++ [m] -> wf u ->
  wf (move_last zero u) /\ shape (move_last zero u) = m :: sp /\
  forall idx k, valid sp idx -> k < m -> entry (move_last zero u) (k :: idx) = entry u (idx ++ [k]).
Proof.
  intros Su Wu. unfold move_last. rewrite Su, last_snoc, removelast_snoc. split; [|split; [reflexivity|]].
  - unfold wf. cbn [shape flat]. rewrite grid_length, seq_length. reflexivity.
  - intros idx k V Hk. unfold entry. cbn [shape flat ravel]. rewrite Su, ravel_snoc by (now apply valid_length).
    pose proof (ravel_bound V) as Hg.
    assert (E := @grid_nth _ (fun k g => nth (g * m + k) (flat u) zero) m (seq 0 (prod sp)) k (ravel sp idx) (ravel sp idx)).
    rewrite seq_length in E. rewrite E by (auto using nth_error_seq_lt).
    symmetry. apply nth_error_nth'. unfold wf in Wu. rewrite Wu, Su, prod_snoc. nia.
Qed.
End R.

Lemma upd_nth_app_l (l l' : list nat) ax n : ax < length l -> upd_nth ax n (l ++ l') = upd_nth ax n l ++ l'.
Proof.
  revert ax; induction l as [|x l IH]; intros ax H; cbn in H; [lia|].
  destruct ax as [|ax]; cbn [upd_nth app]; [reflexivity|]. f_equal. apply IH. lia.
Qed.
Lemma shift_app_l (l l' : list nat) ax s : ax < length l -> shift_axis ax s (l ++ l') = shift_axis ax s l ++ l'.
Proof. intros H. unfold shift_axis. rewrite app_nth1 by exact H. now apply upd_nth_app_l. Qed.

Lemma prod_upd ax n sh : ax < length sh -> prod (upd_nth ax n sh) = prod (firstn ax sh) * n * prod (skipn (S ax) sh).
Proof. intros H. rewrite upd_nth_split by exact H. rewrite prod_app. cbn. fold (prod (skipn (S ax) sh)). lia. Qed.

Lemma prod_pos l : Forall (fun d => 0 < d) l -> 0 < prod l.
Proof. induction 1; cbn; [lia|]. fold (prod l). nia. Qed.
Lemma Forall_firstn {X} (P : X -> Prop) n l : Forall P l -> Forall P (firstn n l).
Proof. intros H. revert n. induction H; intros [|n]; cbn; constructor; auto. Qed.
Lemma Forall_skipn {X} (P : X -> Prop) n l : Forall P l -> Forall P (skipn n l).
Proof. intros H. revert n. induction H; intros [|n]; cbn; auto. Qed.

Lemma set_shape_local sp m ax c n : ax < length sp -> 0 < m -> Forall (fun d => 0 < d) sp -> c <> None ->
  set_shape (sp ++ [m]) ax c (prod (upd_nth ax n sp) * m) = Ok (upd_nth ax n sp ++ [m]).
Proof.
  intros Hax Hm Hp Hc. unfold set_shape. destruct c as [c|]; [|congruence].
  replace (ax <? length (sp ++ [m])) with true by (symmetry; apply Nat.ltb_lt; rewrite app_length; cbn; lia).
  rewrite firstn_app, skipn_app. replace (ax - length sp) with 0 by lia. replace (S ax - length sp) with 0 by lia.
  rewrite firstn_O, app_nil_r, skipn_O. rewrite prod_snoc, prod_upd by exact Hax.
  pose proof (prod_pos (Forall_firstn ax Hp)) as P1. pose proof (prod_pos (Forall_skipn (S ax) Hp)) as P2.
  revert P1 P2. generalize (prod (firstn ax sp)) (prod (skipn (S ax) sp)). intros x y P1 P2.
  assert (x * (y * m) <> 0) by nia.
  replace (x * (y * m) =? 0) with false by (symmetry; now apply Nat.eqb_neq).
  replace (x * n * y * m) with (n * (x * (y * m))) by nia.
  rewrite Nat.mod_mul, Nat.div_mul by assumption. cbn [Nat.eqb]. now rewrite upd_nth_app_l by exact Hax.
Qed.

Section Main.
Context {A : Type}.
Variable zero : A.
Variables add mul : A -> A -> A.
Notation val := (value zero).

Lemma value_slice (a : nd A) ax s n idx : wf a -> ax < length (shape a) -> s + n <= nth ax (shape a) 0 ->
  valid (upd_nth ax n (shape a)) idx -> val (slice_axis ax s n a) idx = val a (shift_axis ax s idx).
Proof. intros W H1 H2 V. unfold value. destruct (slice_axis_spec s n W H1 H2) as (_ & _ & P). now rewrite (proj1 (P idx V)). Qed.

(* everything both methods share: phi has shape sp ++ tl *)
Variables (phi a mean : nd A) (sp tl : list nat) (ax nt : nat) (tsel : time_sel) (t : py_index) (ts : list nat).
Variable comp : nd A -> nd A -> res (nd A).
Variable cell : nd A -> nd A -> list nat -> nat -> A.
Hypothesis Hcomp : forall phi' mean' sp', shape phi' = sp' ++ tl -> shape mean' = sp' -> wf phi' -> wf mean' ->
  exists q, comp phi' mean' = Ok q /\ shape q = sp' ++ [length ts] /\ wf q /\
    forall idx k i, valid sp' idx -> nth_error ts k = Some i -> entry q (idx ++ [k]) = Some (cell phi' mean' idx i).
Hypothesis Hcell : forall phi' mean' sp' f idx i, length idx = length sp' -> valid sp' idx ->
  (forall rest, valid tl rest -> val phi' (idx ++ rest) = val phi (f idx ++ rest)) -> val mean' idx = val mean (f idx) ->
  In i ts -> cell phi' mean' idx i = cell phi mean (f idx) i.
Hypothesis Sphi : shape phi = sp ++ tl.
Hypothesis Smean : shape mean = sp.
Hypothesis Wphi : wf phi.
Hypothesis Wmean : wf mean.
Hypothesis Hax : ax < length sp.
Hypothesis Hpos : Forall (fun d => 0 < d) sp.
Hypothesis Hts : ts <> [].

Definition stage (c : comm) : res (nd A) :=
  do phi' <- distribute_dimension phi ax c; do mean' <- distribute_dimension mean ax c; do q <- comp phi' mean';
  do sh <- set_shape (sp ++ [length ts]) ax c (length (flat q)); Ok (move_last zero (Nd sh (flat q))).

Lemma stage_serial : exists Q, stage None = Ok Q /\ shape Q = length ts :: sp /\ wf Q /\
  forall idx k i, valid sp idx -> nth_error ts k = Some i -> entry Q (k :: idx) = Some (cell phi mean idx i).
Proof.
  destruct (@Hcomp phi mean sp Sphi Smean Wphi Wmean) as (q & Eq & Sq & Wq & Hq).
  unfold stage. cbn [distribute_dimension bind]. rewrite Eq. cbn [bind]. unfold wf in Wq. rewrite Sq in Wq. unfold set_shape.
  rewrite Wq, Nat.eqb_refl. cbn [bind]. eexists. split; [reflexivity|].
  destruct (@move_last_spec _ zero add mul (Nd (sp ++ [length ts]) (flat q)) sp (length ts) eq_refl Wq) as (W & S & P).
  split; [exact S|]. split; [exact W|]. intros idx k i V Hk.
  assert (k < length ts) by (apply nth_error_Some; congruence).
  rewrite P by assumption. rewrite <- (Hq idx k i V Hk). destruct q as [sq lq]; cbn in Sq; subst sq. reflexivity.
Qed.

Lemma stage_rank Q size r : stage None = Ok Q -> r < size ->
  stage (Some (size, r)) = distribute_dimension Q (S ax) (Some (size, r)).
Proof.
  intros EQ Hr. destruct stage_serial as (Q' & EQ' & SQ & WQ & HQ). assert (Q' = Q) as -> by congruence.
  pose proof (@bd_fits (nth ax sp 0) size r Hr) as Fit. unfold bd_s, bd_n in Fit.
  unfold stage, distribute_dimension. rewrite Sphi, Smean, SQ.
  replace (ax <? length (sp ++ tl)) with true by (symmetry; apply Nat.ltb_lt; rewrite app_length; lia).
  replace (ax <? length sp) with true by (symmetry; now apply Nat.ltb_lt).
  replace (S ax <? length (length ts :: sp)) with true by (symmetry; apply Nat.ltb_lt; cbn; lia).
  rewrite app_nth1 by exact Hax. change (nth (S ax) (length ts :: sp) 0) with (nth ax sp 0).
  destruct (blockdist (nth ax sp 0) size r) as [n s]. cbn [fst snd bind] in *.
  assert (Hax' : ax < length (shape phi)) by (rewrite Sphi, app_length; lia).
  assert (Fit' : s + n <= nth ax (shape phi) 0) by (rewrite Sphi, app_nth1 by exact Hax; exact Fit).
  assert (Hax2 : ax < length (shape mean)) by (rewrite Smean; exact Hax).
  assert (Fit2 : s + n <= nth ax (shape mean) 0) by (rewrite Smean; exact Fit).
  destruct (slice_axis_spec s n Wphi Hax' Fit') as (W1 & S1 & P1).
  destruct (slice_axis_spec s n Wmean Hax2 Fit2) as (W2 & S2 & P2).
  rewrite Sphi, upd_nth_app_l in S1 by exact Hax. rewrite Smean in S2.
  destruct (@Hcomp (slice_axis ax s n phi) (slice_axis ax s n mean) (upd_nth ax n sp) S1 S2 W1 W2) as (q & Eq & Sq & Wq & Hq).
  rewrite Eq. cbn [bind]. unfold wf in Wq. rewrite Sq, prod_snoc in Wq. rewrite Wq.
  assert (Hm : 0 < length ts) by (destruct ts; [congruence|cbn; lia]).
  rewrite set_shape_local by (auto; discriminate). cbn [bind]. f_equal.
  assert (Wu : wf (Nd (upd_nth ax n sp ++ [length ts]) (flat q))) by (unfold wf; cbn [shape flat]; now rewrite prod_snoc).
  destruct (@move_last_spec _ zero add mul (Nd (upd_nth ax n sp ++ [length ts]) (flat q)) (upd_nth ax n sp) (length ts) eq_refl Wu) as (W & Sh & P).
  assert (H3 : S ax < length (shape Q)) by (rewrite SQ; cbn; lia).
  assert (H4 : s + n <= nth (S ax) (shape Q) 0) by (rewrite SQ; exact Fit).
  destruct (slice_axis_spec s n WQ H3 H4) as (W5 & S5 & P5). rewrite SQ in S5, P5. cbn [upd_nth] in S5, P5.
  apply nd_ext; [exact W|exact W5|rewrite Sh, S5; reflexivity|]. intros idx V. rewrite Sh in V.
  destruct idx as [|k idx]; [inversion V|]. rewrite valid_cons in V. destruct V as [Hk V].
  rewrite P by assumption. rewrite (proj1 (P5 (k :: idx) (proj2 (valid_cons _ _ _ _) (conj Hk V)))).
  destruct (nth_error ts k) as [i|] eqn:Ei; [|apply nth_error_None in Ei; lia].
  assert (Vs : valid sp (shift_axis ax s idx)) by (rewrite <- Smean; apply P2; rewrite Smean; exact V).
  change (shift_axis (S ax) s (k :: idx)) with (k :: shift_axis ax s idx). rewrite (HQ _ _ _ Vs Ei).
  assert (Li : length idx = length sp) by (rewrite (valid_length V); apply upd_nth_length).
  transitivity (entry q (idx ++ [k])); [destruct q as [sq lq]; cbn in Sq; subst sq; reflexivity|].
  rewrite (Hq _ _ _ V Ei). f_equal. apply (@Hcell _ _ (upd_nth ax n sp) (shift_axis ax s)); [now rewrite upd_nth_length| exact V | | |].
  - intros rest Vr. rewrite value_slice by (auto; rewrite Sphi, upd_nth_app_l by exact Hax; apply Forall2_app; assumption).
    rewrite shift_app_l by lia. reflexivity.
  - rewrite value_slice by (auto; rewrite Smean; exact V). reflexivity.
  - eapply nth_error_In; eauto.
Qed.

Lemma stage_saved B (enc : A -> list B) (hdr : list nat -> list B) es size : (forall x, length (enc x) = es) -> 0 < size ->
  exists Q locs, stage None = Ok Q /\ Forall2 (fun r q => stage (Some (size, r)) = Ok q) (seq 0 size) locs /\
  forall order, Permutation order (npy_save_writes enc hdr es (S ax) locs) ->
  forall before pos, npy_save_file order before pos = nth_error (np_save enc hdr Q) pos.
Proof.
  intros He Hs. destruct stage_serial as (Q & EQ & SQ & WQ & HQ).
  assert (H3 : S ax < length (shape Q)) by (rewrite SQ; cbn; lia).
  destruct (npy_save_distributed enc hdr He WQ H3 Hs) as (locs & HL & HS).
  exists Q, locs. split; [exact EQ|]. split; [|exact HS].
  assert (HR : forall r, In r (seq 0 size) -> r < size) by (intros r Hr; apply in_seq in Hr; lia).
  clear HS. revert HR. induction HL; intros HR; constructor.
  - rewrite (stage_rank EQ) by (apply HR; now left). exact H.
  - apply IHHL. intros r Hr. apply HR. now right.
Qed.
End Main.
