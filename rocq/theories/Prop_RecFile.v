(* C152: the reconstruction file. *)
From Coq Require Import ZArith String.
From Verif Require Import Base_List Model_Parallel Spec_Array Proof_Parallel Proof_Npy Proof_Npy2 Model_Select Model_RecFile Spec_RecFile
  Proof_RecFile.
Set Implicit Arguments.
Local Open Scope nat_scope.

Lemma selected_split nt tsel ts : selected_times nt tsel = Ok ts ->
  exists l, resolve_time nt tsel = Ok (Ints l) /\ norm_all nt l = Ok ts /\ index_times nt (Ints l) = Ok ts /\ length l = length ts.
Proof.
  unfold selected_times. destruct (resolve_time nt tsel) as [[l|s]|]; cbn [bind]; try discriminate.
  intros H. exists l. repeat split; auto. symmetry. eapply norm_all_length; eauto.
Qed.

Lemma Forall2_impl {X Y} (P Q : X -> Y -> Prop) l l' : (forall x y, P x y -> Q x y) -> Forall2 P l l' -> Forall2 Q l l'.
Proof. intros H. induction 1; constructor; auto. Qed.

Section Common.
Context {A : Type}.
Variable zero : A.
Variables add mul : A -> A -> A.

Lemma local_op (phi a mean : nd A) sp p nt ax tsel ts l c : shape a = [p; nt] -> shape mean = sp ->
  resolve_time nt tsel = Ok (Ints l) -> length l = length ts ->
  local_rec zero add mul phi a mean ax tsel c = stage zero phi mean sp ax ts (fun phi' mean' => rec_op zero add mul phi' a mean' (Ints l)) c.
Proof.
  intros Sa Sm Hr Hl. unfold local_rec, unmoved, stage. rewrite Sa. cbn [nth_error length]. rewrite Hr. cbn [bind].
  destruct (distribute_dimension phi ax c); [|reflexivity]. cbn [bind]. destruct (distribute_dimension mean ax c); [|reflexivity]. cbn [bind].
  destruct (rec_op zero add mul a0 a a1 (Ints l)); [|reflexivity]. cbn [bind]. rewrite Sm, Hl.
  destruct (set_shape _ _ _ _); reflexivity.
Qed.
Lemma local_conv (phi a mean : nd A) sp F nt M ax tsel ts l c : shape a = [F; nt; M] -> shape mean = sp ->
  resolve_time nt tsel = Ok (Ints l) -> length l = length ts ->
  local_rec zero add mul phi a mean ax tsel c = stage zero phi mean sp ax ts (fun phi' mean' => rec_conv zero add mul phi' a mean' (Ints l)) c.
Proof.
  intros Sa Sm Hr Hl. unfold local_rec, unmoved, stage. rewrite Sa. cbn [nth_error length]. rewrite Hr. cbn [bind].
  destruct (distribute_dimension phi ax c); [|reflexivity]. cbn [bind]. destruct (distribute_dimension mean ax c); [|reflexivity]. cbn [bind].
  destruct (rec_conv zero add mul a0 a a1 (Ints l)); [|reflexivity]. cbn [bind]. rewrite Sm, Hl.
  destruct (set_shape _ _ _ _); reflexivity.
Qed.

Lemma cell_op_local (phi a mean : nd A) p ts phi' mean' (sp' : list nat) f idx i : length idx = length sp' -> valid sp' idx ->
  (forall rest, valid [p] rest -> value zero phi' (idx ++ rest) = value zero phi (f idx ++ rest)) ->
  value zero mean' idx = value zero mean (f idx) -> In i ts ->
  cell_op zero add mul phi' a mean' p idx i = cell_op zero add mul phi a mean p (f idx) i.
Proof.
  intros _ _ Hp Hm _. unfold cell_op. rewrite Hm. f_equal. apply sum_to_ext; [exact mul|]. intros j Hj. rewrite Hp; [reflexivity|].
  repeat constructor. exact Hj.
Qed.
Lemma cell_conv_local (phi a mean : nd A) F M ts phi' mean' (sp' : list nat) f idx i : length idx = length sp' -> valid sp' idx ->
  (forall rest, valid [F; M] rest -> value zero phi' (idx ++ rest) = value zero phi (f idx ++ rest)) ->
  value zero mean' idx = value zero mean (f idx) -> In i ts ->
  cell_conv zero add mul phi' a mean' F M idx i = cell_conv zero add mul phi a mean F M (f idx) i.
Proof.
  intros _ _ Hp Hm _. unfold cell_conv. rewrite Hm. f_equal. apply sum_to_ext; [exact mul|]. intros j Hj.
  assert (M <> 0) by (intros ->; lia). rewrite Hp; [reflexivity|].
  repeat constructor; [apply Nat.div_lt_upper_bound; lia|now apply Nat.mod_upper_bound].
Qed.
End Common.

(* ---- the file, for any number of processes and any order in which their writes reach it ---- *)
Theorem C152_oblique_file : forall A (zero : A) add mul B (enc : A -> list B) (hdr : list nat -> list B) es,
  (forall x, length (enc x) = es) ->
  forall (phi a mean : nd A) sp p nt ax tsel ts size,
  shape phi = sp ++ [p] -> shape a = [p; nt] -> shape mean = sp -> wf phi -> wf a -> wf mean ->
  ax < length sp -> Forall (fun d => 0 < d) sp -> selected_times nt tsel = Ok ts -> ts <> [] -> 0 < size ->
  exists Q locs,
    (* the array: one snapshot per requested time, equal to the modes times the coefficients plus the mean *)
    shape Q = length ts :: sp /\ wf Q /\
    (forall k i idx, nth_error ts k = Some i -> valid sp idx -> entry Q (k :: idx) = Some (cell_op zero add mul phi a mean p idx i)) /\
    (* what a single process without a communicator saves *)
    local_rec zero add mul phi a mean ax tsel None = Ok Q /\
    (* what the processes save together *)
    Forall2 (fun r q => local_rec zero add mul phi a mean ax tsel (Some (size, r)) = Ok q) (seq 0 size) locs /\
    forall order, Permutation order (npy_save_writes enc hdr es (S ax) locs) ->
    forall before pos, npy_save_file order before pos = nth_error (np_save enc hdr Q) pos.
Proof.
  intros A zero add mul B enc hdr es He phi a mean sp p nt ax tsel ts size Sphi Sa Sm Wphi Wa Wm Hax Hpos Hsel Hts Hs.
  destruct (selected_split _ _ Hsel) as (l & Hr & Hn & Hi & Hl).
  set (comp := fun phi' mean' => rec_op zero add mul phi' a mean' (Ints l)).
  assert (Hcomp : forall phi' mean' sp', shape phi' = sp' ++ [p] -> shape mean' = sp' -> wf phi' -> wf mean' ->
    exists q, comp phi' mean' = Ok q /\ shape q = sp' ++ [length ts] /\ wf q /\
    forall idx k i, valid sp' idx -> nth_error ts k = Some i ->
      entry q (idx ++ [k]) = Some (cell_op zero add mul phi' a mean' p idx i)).
  { intros phi' mean' sp' S1 S2 W1 W2. eapply rec_op_spec; eauto using index_times_lt. }
  destruct (@stage_serial A zero add mul phi mean sp [p] ax ts
    comp (fun phi' mean' idx i => cell_op zero add mul phi' a mean' p idx i) Hcomp Sphi Sm Wphi Wm) as (Q & EQ & SQ & WQ & HQ).
  destruct (@stage_saved A zero add mul phi mean sp [p] ax ts comp (fun phi' mean' idx i => cell_op zero add mul phi' a mean' p idx i)
    Hcomp (fun phi' mean' sp' f idx i => @cell_op_local A zero add mul phi a mean p ts phi' mean' sp' f idx i)
    Sphi Sm Wphi Wm Hax Hpos Hts B enc hdr es size He Hs) as (Q' & locs & EQ' & HL & HS).
  assert (Q' = Q) as -> by congruence. exists Q, locs. split; [exact SQ|]. split; [exact WQ|]. split; [intros; now apply HQ|].
  split; [rewrite (local_op zero add mul phi a mean ax tsel ts None Sa Sm Hr Hl); exact EQ|]. split; [|exact HS].
  eapply Forall2_impl; [|exact HL]. intros r q H. cbn beta in H.
  rewrite (local_op zero add mul phi a mean ax tsel ts (Some (size, r)) Sa Sm Hr Hl). exact H.
Qed.
Print Assumptions C152_oblique_file.
Theorem C152_convolution_file : forall A (zero : A) add mul B (enc : A -> list B) (hdr : list nat -> list B) es,
  (forall x, length (enc x) = es) ->
  forall (phi a mean : nd A) sp F nt M ax tsel ts size,
  0 < F -> 0 < M -> shape phi = sp ++ [F; M] -> shape a = [F; nt; M] -> shape mean = sp -> wf phi -> wf a -> wf mean ->
  ax < length sp -> Forall (fun d => 0 < d) sp -> selected_times nt tsel = Ok ts -> ts <> [] -> 0 < size ->
  exists Q locs,
    (* the array: one snapshot per requested time, equal to the modes times the coefficients plus the mean *)
    shape Q = length ts :: sp /\ wf Q /\
    (forall k i idx, nth_error ts k = Some i -> valid sp idx -> entry Q (k :: idx) = Some (cell_conv zero add mul phi a mean F M idx i)) /\
    (* what a single process without a communicator saves *)
    local_rec zero add mul phi a mean ax tsel None = Ok Q /\
    (* what the processes save together *)
    Forall2 (fun r q => local_rec zero add mul phi a mean ax tsel (Some (size, r)) = Ok q) (seq 0 size) locs /\
    forall order, Permutation order (npy_save_writes enc hdr es (S ax) locs) ->
    forall before pos, npy_save_file order before pos = nth_error (np_save enc hdr Q) pos.
Proof.
  intros A zero add mul B enc hdr es He phi a mean sp F nt M ax tsel ts size HF HM Sphi Sa Sm Wphi Wa Wm Hax Hpos Hsel Hts Hs.
  destruct (selected_split _ _ Hsel) as (l & Hr & Hn & Hi & Hl).
  set (comp := fun phi' mean' => rec_conv zero add mul phi' a mean' (Ints l)).
  assert (Hcomp : forall phi' mean' sp', shape phi' = sp' ++ [F; M] -> shape mean' = sp' -> wf phi' -> wf mean' ->
    exists q, comp phi' mean' = Ok q /\ shape q = sp' ++ [length ts] /\ wf q /\
    forall idx k i, valid sp' idx -> nth_error ts k = Some i ->
      entry q (idx ++ [k]) = Some (cell_conv zero add mul phi' a mean' F M idx i)).
  { intros phi' mean' sp' S1 S2 W1 W2. eapply rec_conv_spec; eauto. }
  destruct (@stage_serial A zero add mul phi mean sp [F; M] ax ts
    comp (fun phi' mean' idx i => cell_conv zero add mul phi' a mean' F M idx i) Hcomp Sphi Sm Wphi Wm) as (Q & EQ & SQ & WQ & HQ).
  destruct (@stage_saved A zero add mul phi mean sp [F; M] ax ts comp (fun phi' mean' idx i => cell_conv zero add mul phi' a mean' F M idx i)
    Hcomp (fun phi' mean' sp' f idx i => @cell_conv_local A zero add mul phi a mean F M ts phi' mean' sp' f idx i)
    Sphi Sm Wphi Wm Hax Hpos Hts B enc hdr es size He Hs) as (Q' & locs & EQ' & HL & HS).
  assert (Q' = Q) as -> by congruence. exists Q, locs. split; [exact SQ|]. split; [exact WQ|]. split; [intros; now apply HQ|].
  split; [rewrite (local_conv zero add mul phi a mean ax tsel ts None Sa Sm Hr Hl); exact EQ|]. split; [|exact HS].
  eapply Forall2_impl; [|exact HL]. intros r q H. cbn beta in H.
  rewrite (local_conv zero add mul phi a mean ax tsel ts (Some (size, r)) Sa Sm Hr Hl). exact H.
Qed.
Print Assumptions C152_convolution_file.

(* ---- an empty list of times: a single process writes an empty array, processes with a communicator all fail ---- *)
Theorem C152_no_times : forall A (zero : A) add mul (phi a mean : nd A) sp p nt ax size r,
  shape phi = sp ++ [p] -> shape a = [p; nt] -> shape mean = sp -> wf phi -> wf a -> wf mean -> ax < length sp -> r < size ->
  local_rec zero add mul phi a mean ax (TList []) None = Ok (Nd (0 :: sp) []) /\
  local_rec zero add mul phi a mean ax (TList []) (Some (size, r)) = Err ValueError.
Proof.
  intros A zero add mul phi a mean sp p nt ax size r Sphi Sa Sm Wphi Wa Wm Hax Hr.
  assert (Hr0 : resolve_time nt (TList []) = Ok (Ints [])) by reflexivity.
  assert (Sh : forall c n, set_shape (sp ++ [0]) ax (Some c) n = Err ValueError).
  { intros c n. unfold set_shape. replace (ax <? length (sp ++ [0])) with true by (symmetry; apply Nat.ltb_lt; rewrite app_length; cbn; lia).
    replace (skipn (S ax) (sp ++ [0])) with (skipn (S ax) sp ++ [0])
      by (rewrite (skipn_app (S ax) sp); replace (S ax - length sp) with 0 by lia; reflexivity).
    rewrite prod_snoc, Nat.mul_0_r, Nat.mul_0_r. reflexivity. }
  rewrite !(local_op zero add mul phi a mean ax (TList []) [] _ Sa Sm Hr0 eq_refl). unfold stage. split.
  - cbn [distribute_dimension bind].
    destruct (@rec_op_spec A zero add mul phi a mean (Ints []) sp p nt []) as (q & Eq & Sq & Wq & _); auto.
    rewrite Eq. cbn [bind length]. unfold wf in Wq. rewrite Sq in Wq. unfold set_shape. rewrite Wq, Nat.eqb_refl. cbn [bind].
    f_equal. unfold move_last. cbn [shape flat]. now rewrite last_snoc, removelast_snoc.
  - assert (Hax' : ax < length (shape phi)) by (rewrite Sphi, app_length; lia).
    assert (Hax2 : ax < length (shape mean)) by (rewrite Sm; exact Hax).
    pose proof (distribute_entries Wphi Hax' Hr) as D1. pose proof (distribute_entries Wm Hax2 Hr) as D2.
    assert (EN : nth ax (shape phi) 0 = nth ax (shape mean) 0) by (rewrite Sphi, Sm, app_nth1 by exact Hax; reflexivity).
    rewrite EN in D1. destruct (blockdist (nth ax (shape mean) 0) size r) as [n s].
    destruct D1 as (phi' & E1 & W1 & S1 & _). destruct D2 as (mean' & E2 & W2 & S2 & _).
    rewrite E1. cbn [bind]. rewrite E2. cbn [bind]. rewrite Sphi, upd_nth_app_l in S1 by exact Hax. rewrite Sm in S2.
    destruct (@rec_op_spec A zero add mul phi' a mean' (Ints []) (upd_nth ax n sp) p nt []) as (q & Eq & Sq & Wq & _); auto.
    rewrite Eq. cbn [bind length]. rewrite Sh. reflexivity.
Qed.
Print Assumptions C152_no_times.

(* ---- memory order ---- *)
Definition big (sp : list nat) : nat := length (filter (fun d => 1 <? d) sp).

Lemma prod_one sp : Forall (fun d => 0 < d) sp -> (prod sp = 1 <-> big sp = 0).
Proof.
  unfold big. induction 1 as [|d sp Hd H IH]; cbn [prod fold_right filter]; [cbn; tauto|]. fold (prod sp).
  pose proof (prod_pos H). destruct (Nat.ltb_spec 1 d); cbn [length].
  - split; intros E; nia.
  - assert (d = 1) as -> by lia. rewrite Nat.mul_1_l. exact IH.
Qed.
Lemma contig_ones e m sp : prod sp = 1 -> contig e (combine sp (map (fun s => s * m) (c_strides sp))) = true.
Proof.
  revert e. induction sp as [|d sp IH]; intros e H; [reflexivity|]. cbn [prod fold_right] in H. fold (prod sp) in H.
  cbn [c_strides map combine contig]. assert (Hd : d = 1) by (now apply Nat.eq_mul_1 in H). subst d. cbn [Nat.eqb]. apply IH. lia.
Qed.
Lemma contig_f m sp : 0 < m -> Forall (fun d => 0 < d) sp ->
  contig m (combine sp (map (fun s => s * m) (c_strides sp))) = (big sp <=? 1).
Proof.
  intros Hm. unfold big. induction 1 as [|d sp Hd H IH]; [reflexivity|]. cbn [c_strides map combine contig filter].
  pose proof (prod_one H) as P1. unfold big in P1. pose proof (prod_pos H) as Pp.
  destruct (Nat.eqb_spec d 1) as [->|Nd1]; [cbn [Nat.ltb Nat.leb]; exact IH|].
  replace (1 <? d) with true by (symmetry; apply Nat.ltb_lt; lia). cbn [length].
  destruct (Nat.eqb_spec (prod sp) 1) as [E1|N1].
  - rewrite contig_ones by exact E1. rewrite E1, Nat.mul_1_l, Nat.eqb_refl. rewrite (proj1 P1 E1). reflexivity.
  - replace (prod sp * m =? m) with false by (symmetry; apply Nat.eqb_neq; nia). cbn [andb].
    symmetry. apply Nat.leb_gt. destruct (length (filter (fun d0 => 1 <? d0) sp)); [tauto|lia].
Qed.
Lemma c_strides_length sp : length (c_strides sp) = length sp.
Proof. induction sp; cbn; congruence. Qed.
Lemma c_strides_snoc sp d : c_strides (sp ++ [d]) = map (fun s => s * d) (c_strides sp) ++ [1].
Proof. induction sp as [|x sp IH]; [reflexivity|]. cbn [app c_strides map]. rewrite IH, prod_snoc. reflexivity. Qed.
Lemma combine_snoc {X Y} (l : list X) (l' : list Y) x y : length l = length l' -> combine (l ++ [x]) (l' ++ [y]) = combine l l' ++ [(x, y)].
Proof. revert l'. induction l as [|a l IH]; intros [|b l'] H; cbn in *; try lia; [reflexivity|]. f_equal. apply IH. lia. Qed.
Lemma not_c_contig m sp e : 1 < m -> Forall (fun d => 0 < d) sp -> 1 < prod sp ->
  contig 1 (rev (combine sp (map (fun s => s * m) (c_strides sp))) ++ e) = false.
Proof.
  intros Hm. induction sp as [|d sp IH] using rev_ind; intros Hp H; [cbn in H; lia|].
  apply Forall_app in Hp as [Hp Hd]. inversion_clear Hd. rewrite prod_snoc in H.
  rewrite c_strides_snoc, map_app, map_map. cbn [map]. rewrite combine_snoc by (rewrite map_length; now rewrite c_strides_length).
  rewrite rev_app_distr. cbn [rev app contig].
  destruct (Nat.eqb_spec d 1) as [->|Nd1].
  - rewrite (map_ext _ (fun s => s * m)) by (intros; lia). apply IH; [exact Hp|lia].
  - replace (1 * m =? 1) with false by (symmetry; apply Nat.eqb_neq; lia). reflexivity.
Qed.

Lemma f_position_ravel sp idx : Forall (fun d => 0 < d) sp -> big sp <= 1 -> valid sp idx -> f_position sp idx = ravel sp idx.
Proof.
  unfold big, valid. intros Hp. revert idx. induction Hp as [|d sp Hd Hp IH]; intros idx H V; inversion V as [|i ? idx' ? Hi V']; subst; [reflexivity|].
  cbn [f_position ravel]. cbn [filter] in H. destruct (Nat.ltb_spec 1 d).
  - cbn [length] in H. assert (P1 : prod sp = 1) by (apply prod_one; [exact Hp|unfold big; lia]).
    rewrite (IH idx') by (auto; lia). pose proof (ravel_bound V'). rewrite P1 in *. nia.
  - rewrite (IH idx') by auto. nia.
Qed.

(* which order np.save chooses for a reconstruction of several snapshots of more than one point: Fortran order exactly when at
   most one dimension of a snapshot exceeds one *)
Theorem C152_order_of_the_serial_file : forall A (zero : A) B (enc : A -> list B) (hdr : bool -> list nat -> list B) (u : nd A) sp m,
  shape u = sp ++ [m] -> 1 < m -> Forall (fun d => 0 < d) sp -> 1 < prod sp ->
  np_save_moved zero enc hdr u
  = if length (filter (fun d => 1 <? d) sp) <=? 1
    then hdr true (m :: sp) ++ concat (map enc (flat u))
    else np_save enc (hdr false) (move_last zero u).
Proof.
  intros A zero B enc hdr u sp m Su Hm Hp H1. unfold np_save_moved, np_save, moved_shape, moved_strides.
  rewrite Su, last_snoc, removelast_snoc. unfold c_contiguous, f_contiguous.
  assert (P0 : prod (m :: sp) =? 0 = false) by (apply Nat.eqb_neq; cbn; fold (prod sp); nia). rewrite P0. cbn [orb combine rev].
  rewrite not_c_contig by assumption. cbn [negb andb contig]. replace (m =? 1) with false by (symmetry; apply Nat.eqb_neq; lia).
  cbn [Nat.eqb andb]. rewrite Nat.mul_1_l, contig_f by (auto; lia). fold (big sp).
  destruct (big sp <=? 1); [reflexivity|]. unfold move_last. rewrite Su, last_snoc, removelast_snoc. reflexivity.
Qed.
Print Assumptions C152_order_of_the_serial_file.

(* so the bytes of the serial file and of the file written through a communicator differ, although np.load returns the same array *)
Theorem C152_same_bytes_refuted : forall A (zero : A) add mul B (enc : A -> list B) (hdr : bool -> list nat -> list B) es,
  (forall x, length (enc x) = es) -> (forall sh, length (hdr true sh) = length (hdr false sh) /\ hdr true sh <> hdr false sh) ->
  forall (phi a mean : nd A) sp p nt ax tsel ts size,
  shape phi = sp ++ [p] -> shape a = [p; nt] -> shape mean = sp -> wf phi -> wf a -> wf mean ->
  ax < length sp -> Forall (fun d => 0 < d) sp -> length (filter (fun d => 1 <? d) sp) = 1 ->
  selected_times nt tsel = Ok ts -> 2 <= length ts -> 0 < size ->
  exists u Q locs,
    unmoved zero add mul phi a mean ax tsel None = Ok u /\ local_rec zero add mul phi a mean ax tsel None = Ok Q /\
    Forall2 (fun r q => local_rec zero add mul phi a mean ax tsel (Some (size, r)) = Ok q) (seq 0 size) locs /\
    np_save_moved zero enc hdr u = hdr true (length ts :: sp) ++ concat (map enc (flat u)) /\
    (forall order, Permutation order (npy_save_writes enc (hdr false) es (S ax) locs) -> forall before,
      ~ (forall pos, npy_save_file order before pos = nth_error (np_save_moved zero enc hdr u) pos)) /\
    (forall k idx, k < length ts -> valid sp idx ->
      nth_error (flat u) (f_position (length ts :: sp) (k :: idx)) = entry Q (k :: idx) /\ entry Q (k :: idx) <> None).
Proof.
  intros A zero add mul B enc hdr es He Hh phi a mean sp p nt ax tsel ts size Sphi Sa Sm Wphi Wa Wm Hax Hpos Hbig Hsel Hts Hs.
  assert (Hne : ts <> []) by (intros ->; cbn in Hts; lia).
  destruct (@C152_oblique_file A zero add mul B enc (hdr false) es He phi a mean sp p nt ax tsel ts size
    Sphi Sa Sm Wphi Wa Wm Hax Hpos Hsel Hne Hs) as (Q & locs & SQ & WQ & HQ & EQ & HL & HS).
  pose proof EQ as EQ'. unfold local_rec in EQ'. destruct (unmoved zero add mul phi a mean ax tsel None) as [u|] eqn:Eu; [|discriminate].
  cbn [bind] in EQ'. assert (EQm : move_last zero u = Q) by congruence. clear EQ'.
  assert (Su : shape u = sp ++ [length ts] /\ wf u).
  { destruct (selected_split _ _ Hsel) as (l & Hr & Hn & Hi & Hl).
    destruct (@rec_op_spec A zero add mul phi a mean (Ints l) sp p nt ts) as (q & Eq & Sq & Wq & _); eauto using index_times_lt.
    revert Eu. unfold unmoved. rewrite Sa. cbn [nth_error length]. rewrite Hr. cbn [bind distribute_dimension]. rewrite Eq. cbn [bind].
    unfold wf in Wq. rewrite Sm, Hl, Sq in *. unfold set_shape. rewrite Wq, Nat.eqb_refl. cbn [bind]. intros [= <-].
    split; [reflexivity|]. exact Wq. }
  destruct Su as [Su Wu].
  assert (H1 : 1 < prod sp).
  { pose proof (prod_pos Hpos). destruct (Nat.eq_dec (prod sp) 1) as [E|]; [|lia]. apply (prod_one Hpos) in E. unfold big in E. lia. }
  pose proof (C152_order_of_the_serial_file zero enc hdr u Su Hts Hpos H1) as EO. rewrite Hbig in EO. cbn [Nat.leb] in EO.
  exists u, Q, locs. split; [reflexivity|]. split; [exact EQ|]. split; [exact HL|]. split; [exact EO|]. split.
  - intros order HP before. destruct (Hh (length ts :: sp)) as [Hl Hd].
    intros E. apply Hd.
    assert (EL : np_save enc (hdr false) Q = hdr true (length ts :: sp) ++ concat (map enc (flat u)))
      by (apply nth_error_ext; intros pos; rewrite <- (HS order HP before pos), <- EO; apply E).
    unfold np_save in EL. rewrite SQ in EL. apply (f_equal (firstn (length (hdr true (length ts :: sp))))) in EL.
    rewrite Hl in EL at 1. rewrite !firstn_app, !Nat.sub_diag, !firstn_O, !app_nil_r, !firstn_all in EL. now symmetry.
  - intros k idx Hk V.
    assert (VQ : valid (shape Q) (k :: idx)) by (rewrite SQ; apply valid_cons; auto).
    split; [|now apply entry_complete]. rewrite <- EQm.
    rewrite (proj2 (proj2 (@move_last_spec A zero add mul u sp (length ts) Su Wu))) by assumption.
    unfold entry. rewrite Su, ravel_snoc by (now apply valid_length). cbn [f_position].
    rewrite f_position_ravel by (auto; unfold big; lia). f_equal. lia.
Qed.
Print Assumptions C152_same_bytes_refuted.

(* three points, one variable, two modes, three times; the last and the first snapshot are requested *)
Example C152_nonvacuous :
  let phi := Nd [3; 1; 2] [1; 2; 3; 4; 5; 6] in
  let a := Nd [2; 3] [1; 0; 2; 0; 1; 3] in
  let mean := Nd [3; 1] [10; 20; 30] in
  selected_times 3 (TList [(-1)%Z; 0%Z]) = Ok [2; 0] /\
  length (filter (fun d => 1 <? d) [3; 1]) = 1 /\
  local_rec 0 Nat.add Nat.mul phi a mean 0 (TList [(-1)%Z; 0%Z]) None = Ok (Nd [2; 3; 1] [18; 38; 58; 11; 23; 35]) /\
  local_rec 0 Nat.add Nat.mul phi a mean 0 (TList [(-1)%Z; 0%Z]) (Some (2, 0)) = Ok (Nd [2; 2; 1] [18; 38; 11; 23]) /\
  local_rec 0 Nat.add Nat.mul phi a mean 0 (TList [(-1)%Z; 0%Z]) (Some (2, 1)) = Ok (Nd [2; 1; 1] [58; 35]) /\
  np_save_moved 0 (fun x => [x]) (fun b sh => (if b then 1 else 0) :: sh) (Nd [3; 1; 2] [18; 11; 38; 23; 58; 35])
  = [1; 2; 3; 1; 18; 11; 38; 23; 58; 35].
Proof. cbv zeta. repeat split; reflexivity. Qed.
(* two frequencies, one mode each *)
Example C152_convolution_nonvacuous :
  local_rec 0 Nat.add Nat.mul (Nd [2; 2; 1] [1; 2; 3; 4]) (Nd [2; 2; 1] [1; 0; 0; 5]) (Nd [2] [10; 20]) 0 (TStr "ALL") None
  = Ok (Nd [2; 2] [11; 23; 20; 40]) /\
  cell_conv 0 Nat.add Nat.mul (Nd [2; 2; 1] [1; 2; 3; 4]) (Nd [2; 2; 1] [1; 0; 0; 5]) (Nd [2] [10; 20]) 2 1 [1] 1 = 40.
Proof. split; reflexivity. Qed.
