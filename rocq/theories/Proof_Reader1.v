From Verif Require Import Base_List Model_Parallel Spec_Array Proof_Parallel Proof_Npy Proof_Npy2
  Model_Reader1 Spec_Reader.
Set Implicit Arguments.

Lemma window_concat_block {A} (ls : list (list A)) m a b :
  (forall l, In l ls -> length l = m) -> a + b <= length ls ->
  window (a * m) (b * m) (concat ls) = concat (window a b ls).
Proof.
  intros H Hab. revert a Hab; induction b as [|b IH]; intros a Hab.
  - reflexivity.
  - change (S b * m) with (m + b * m). rewrite <- window_app.
    replace (a * m + m) with (S a * m) by lia. rewrite IH by lia.
    rewrite (@window_concat_const _ ls m a) by (auto; lia).
    change (S b) with (1 + b). rewrite <- (window_app a 1 b), concat_app.
    replace (a + 1) with (S a) by lia. f_equal.
    rewrite (window_nth_error_map a 1 ls []) by lia. simpl. now rewrite app_nil_r.
Qed.

Lemma window_map_seq {A} (F : nat -> A) a b n : a + b <= n ->
  window a b (map F (seq 0 n)) = map (fun o => F (a + o)) (seq 0 b).
Proof.
  intros H. apply nth_error_ext. intros k. rewrite nth_error_window, !nth_error_map_seq.
  destruct (Nat.ltb_spec k b); [|reflexivity].
  now replace (a + k <? n) with true by lia.
Qed.

(* slicing a spatial axis slices every snapshot *)
Lemma slice_flat_rows {A} nt o' N inner s n (l : list A) t :
  length l = nt * (o' * N * inner) -> s + n <= N -> t < nt ->
  window (t * (o' * n * inner)) (o' * n * inner) (slice_flat (nt * o') N inner s n l)
  = slice_flat o' N inner s n (window (t * (o' * N * inner)) (o' * N * inner) l).
Proof.
  intros Hl Hs Ht. unfold slice_flat at 1.
  replace (t * (o' * n * inner)) with ((t * o') * (n * inner)) by lia.
  replace (o' * n * inner) with (o' * (n * inner)) by lia.
  rewrite window_concat_block.
  - rewrite window_map_seq by nia. unfold slice_flat. f_equal. apply map_ext_in. intros o Ho.
    apply in_seq in Ho. rewrite window_window.
    + f_equal. lia.
    + apply idx_bound; lia.
  - intros w Hw. apply in_map_iff in Hw as [o [<- Ho]]. apply in_seq in Ho.
    apply (@slice_piece_len _ (nt * o')); [lia|assumption|lia].
  - rewrite map_length, seq_length. nia.
Qed.

Lemma rows_snapshots {A} (a : nd A) : shape a <> [] -> rows a = snapshots a.
Proof. unfold rows, snapshots, rowlen, nrows. destruct (shape a); [congruence|reflexivity]. Qed.

Lemma rows_length {A} (a : nd A) : length (rows a) = nrows a.
Proof. unfold rows. now rewrite map_length, seq_length. Qed.

Definition comm_ok (c : comm) : Prop :=
  match c with None => True | Some (size, rank) => rank < size end.

Lemma local_piece_length {A} sp ax c (row : list A) : comm_ok c ->
  ax < length sp -> length row = prod sp ->
  length (local_piece sp ax c row) =
  match c with None => prod sp
  | Some (size, rank) => prod (upd_nth ax (fst (blockdist (nth ax sp 0) size rank)) sp) end.
Proof.
  intros Hc Hax Hr. destruct c as [[size rank]|]; [|assumption]. simpl in *.
  pose proof (@bd_fits (nth ax sp 0) size rank Hc) as F. unfold bd_s, bd_n in F.
  destruct (blockdist (nth ax sp 0) size rank) as [n s]. cbn [fst snd] in *.
  destruct (@slice_axis_spec _ (Nd sp row) ax s n) as (W & S & _); auto.
Qed.

Lemma distribute_data_rows {A} (d : nd A) nt sp ax c :
  comm_ok c -> wf d -> shape d = nt :: sp -> 0 < nt -> argmax sp = Ok ax ->
  exists d', distribute_data d c = Ok (d', ax, sp) /\
    nrows d' = nt /\ rows d' = map (local_piece sp ax c) (rows d).
Proof.
  intros Hc Hwf Hs Hnt Hax. unfold distribute_data. rewrite Hs.
  destruct nt as [|nt']; [lia|]. set (nt := S nt') in *. rewrite Hax. cbn [bind].
  destruct (argmax_spec _ Hax) as (Hlt & _ & _).
  destruct c as [[size rank]|].
  2:{ simpl. exists d. split; [reflexivity|]. unfold nrows. rewrite Hs. split; [reflexivity|].
      rewrite <- (map_id (rows d)) at 1. apply map_ext. reflexivity. }
  simpl in Hc. rewrite distribute_dimension_piece by (rewrite Hs; simpl; lia). cbn [bind].
  eexists. split; [reflexivity|]. unfold piece. rewrite Hs. cbn [nth].
  pose proof (@bd_fits (nth ax sp 0) size rank Hc) as F.
  unfold local_piece. unfold bd_s, bd_n in *.
  destruct (blockdist (nth ax sp 0) size rank) as [n s]. cbn [fst snd] in *.
  destruct (split_at_axis _ Hlt) as (sh1 & N & sh2 & -> & <- & _ & HN & _).
  rewrite axis_nth in F. unfold wf in Hwf. rewrite Hs in Hwf. cbn [prod fold_right] in Hwf.
  change (fold_right Nat.mul 1 (sh1 ++ N :: sh2)) with (prod (sh1 ++ N :: sh2)) in Hwf.
  rewrite prod_app in Hwf. cbn [prod fold_right] in Hwf. change (fold_right Nat.mul 1 sh2) with (prod sh2) in Hwf.
  assert (E : slice_axis (S (length sh1)) s n d
     = Nd (nt :: sh1 ++ n :: sh2) (slice_flat (nt * prod sh1) N (prod sh2) s n (flat d))).
  { destruct d as [sh l]. cbn [shape flat] in *. subst sh.
    exact (slice_axis_split (nt :: sh1) N sh2 l s n). }
  rewrite E. split; [reflexivity|].
  unfold rows, nrows, rowlen. cbn [shape hd tl flat]. rewrite Hs. cbn [hd tl].
  rewrite map_map. apply map_ext_in. intros t Ht. apply in_seq in Ht.
  rewrite slice_axis_split. cbn [flat]. rewrite !prod_app. cbn [prod fold_right].
  change (fold_right Nat.mul 1 sh2) with (prod sh2).
  rewrite !Nat.mul_assoc.
  pose proof (@slice_flat_rows A nt (prod sh1) N (prod sh2) s n (flat d) t) as R.
  rewrite !Nat.mul_assoc in R. apply R; lia.
Qed.

Section R1.
Context {A B : Type}.
Variables (cast : A -> B) (zero : B).

Definition total_nt (ds : list (nd A)) : nat := sum (map nrows ds).
Definition loc sp ax c (row : list A) : list B := map cast (local_piece sp ax c row).

Lemma same_grid_tl sp d (ds : list (nd A)) : same_grid sp (d :: ds) -> same_grid sp ds.
Proof. intros H d' Hd'. apply H. now right. Qed.

Lemma same_grid_hd sp d (ds : list (nd A)) : same_grid sp (d :: ds) -> wf d /\ shape d = nrows d :: sp.
Proof.
  intros H. destruct (H d (or_introl eq_refl)) as (W & E & N). split; [assumption|].
  unfold nrows. destruct (shape d); [congruence|]. simpl in *. now subst.
Qed.

Lemma get_step sp ax c (d : nd A) ds ts te tmp cum data :
  comm_ok c -> argmax sp = Ok ax -> same_grid sp (d :: ds) ->
  get_loop cast zero (d :: ds) c ts te tmp cum data =
  let js := max ts tmp in let je := min te (tmp + nrows d) in
  if js <? je then
    do buf' <- assign_rows
      (match data with Some b => b
       | None => repeat (repeat zero (match rows d with [] => 0 | r :: _ => length (local_piece sp ax c r) end)) (te - ts) end)
      cum (je - js) (window (js - cum) (je - js) (map (loc sp ax c) (snapshots d)));
    get_loop cast zero ds c ts te (tmp + nrows d) (cum + (je - js)) (Some buf')
  else get_loop cast zero ds c ts te (tmp + nrows d) cum data.
Proof.
  intros Hc Hax Hg. destruct (same_grid_hd Hg) as [Hwf Hs]. cbn [get_loop]. cbv zeta.
  destruct (Nat.ltb_spec (max ts tmp) (min te (tmp + nrows d))) as [H|H]; [|reflexivity].
  destruct (@distribute_data_rows _ d (nrows d) sp ax c Hc Hwf Hs ltac:(lia) Hax)
    as (d' & E & En & Er). rewrite E. cbn [bind].
  replace (rowlen d') with (match rows d with [] => 0 | r :: _ => length (local_piece sp ax c r) end).
  - rewrite Er, <- map_window, map_map, <- map_window.
    rewrite rows_snapshots by (rewrite Hs; discriminate). reflexivity.
  - assert (Hlen : 0 < length (rows d)) by (rewrite rows_length; lia).
    destruct (rows d) as [|r0 rs] eqn:Erd; [simpl in Hlen; lia|].
    destruct c as [[size rank]|].
    + assert (Hr0 : length r0 = prod sp).
      { assert (In r0 (rows d)) as Hin by (rewrite Erd; now left).
        unfold rows in Hin. apply in_map_iff in Hin as [t [<- Ht]]. apply in_seq in Ht.
        unfold rowlen, nrows in *. unfold wf in Hwf. rewrite Hs in *. simpl in *.
        rewrite window_length_le; [reflexivity|]. rewrite Hwf. change (fold_right Nat.mul 1 sp) with (prod sp). nia. }
      destruct (argmax_spec _ Hax) as (Hlt & _ & _).
      rewrite local_piece_length by assumption.
      unfold distribute_data in E. rewrite Hs in E. destruct (nrows d) as [|k] eqn:Ek; [lia|].
      rewrite Hax in E. cbn [bind] in E.
      rewrite distribute_dimension_piece in E by (rewrite Hs; simpl; lia). cbn [bind] in E.
      injection E as <-. unfold piece, rowlen, slice_axis. cbn [shape]. rewrite Hs. reflexivity.
    + unfold distribute_data in E. rewrite Hs in E. destruct (nrows d) as [|k] eqn:Ek; [lia|].
      rewrite Hax in E. cbn [bind distribute_dimension] in E. injection E as <-.
      unfold rowlen. rewrite Hs. simpl.
      assert (In r0 (rows d)) as Hin by (rewrite Erd; now left).
      unfold rows in Hin. apply in_map_iff in Hin as [t [<- Ht]]. apply in_seq in Ht.
      unfold rowlen, nrows in *. unfold wf in Hwf. rewrite Hs in *. simpl in *.
      rewrite window_length_le; [reflexivity|]. rewrite Hwf. change (fold_right Nat.mul 1 sp) with (prod sp). nia.
Qed.

Lemma snapshots_length (d : nd A) : length (snapshots d) = nrows d.
Proof.
  unfold snapshots, nrows. destruct (shape d); [reflexivity|]. simpl. now rewrite map_length, seq_length.
Qed.

(* reading everything *)
Lemma get_loop_full sp ax c ds te cum b :
  comm_ok c -> argmax sp = Ok ax -> same_grid sp ds ->
  cum + total_nt ds = te -> length b = te ->
  get_loop cast zero ds c 0 te cum cum (Some b)
  = Ok (Some (firstn cum b ++ map (loc sp ax c) (record ds))).
Proof.
  intros Hc Hax. revert cum b; induction ds as [|d ds IH]; intros cum b Hg Ht Hb.
  - unfold total_nt in Ht; simpl in *. rewrite app_nil_r. rewrite firstn_all2 by lia. reflexivity.
  - rewrite (@get_step sp ax c d ds) by assumption. cbv zeta.
    unfold total_nt in Ht. cbn [map] in Ht. rewrite sum_cons in Ht. fold (total_nt ds) in Ht.
    unfold record. cbn [map concat]. fold (record ds). rewrite map_app.
    pose proof (snapshots_length d) as Hsl.
    rewrite Nat.max_r by lia. rewrite Nat.min_r by lia.
    destruct (Nat.ltb_spec cum (cum + nrows d)) as [H|H].
    + replace (cum + nrows d - cum) with (nrows d) by lia. rewrite Nat.sub_diag.
      rewrite window_all by (rewrite map_length; lia).
      unfold assign_rows. rewrite map_length, Hsl, Hb. rewrite Nat.min_l by lia.
      rewrite Nat.eqb_refl. cbn [bind]. 
      rewrite IH; [|exact (same_grid_tl Hg)|lia|].
      * f_equal. f_equal.
        rewrite (app_assoc (firstn cum b) (map (loc sp ax c) (snapshots d)) (map (loc sp ax c) (record ds))).
        f_equal.
        rewrite (app_assoc (firstn cum b) (map (loc sp ax c) (snapshots d))), firstn_app, firstn_all2
          by (rewrite app_length, firstn_length, map_length; lia).
        rewrite app_length, firstn_length, map_length, Hsl.
        replace (cum + nrows d - (min cum (length b) + nrows d)) with 0 by lia.
        simpl. now rewrite app_nil_r.
      * rewrite !app_length, firstn_length, map_length, skipn_length. lia.
    + replace (nrows d) with 0 by lia. rewrite Nat.add_0_r.
      destruct (snapshots d) as [|x xs]; [|simpl in Hsl; lia]. simpl.
      apply IH; [exact (same_grid_tl Hg)|lia|assumption].
Qed.

(* a request behind the current position *)
Lemma get_loop_after ds c ts te tmp cum data :
  te <= tmp -> get_loop cast zero ds c ts te tmp cum data = Ok data.
Proof.
  revert tmp; induction ds as [|d ds IH]; intros tmp H; [reflexivity|]. cbn [get_loop].
  replace (max ts tmp <? min te (tmp + nrows d)) with false by lia. apply IH. lia.
Qed.

Lemma get_loop_before ds ds' c ts te tmp cum data :
  tmp + total_nt ds <= ts ->
  get_loop cast zero (ds ++ ds') c ts te tmp cum data
  = get_loop cast zero ds' c ts te (tmp + total_nt ds) cum data.
Proof.
  revert tmp; induction ds as [|d ds IH]; intros tmp H; unfold total_nt in *; cbn [map] in *.
  - simpl in *. now rewrite Nat.add_0_r.
  - rewrite sum_cons in *. cbn [app get_loop].
    replace (max ts tmp <? min te (tmp + nrows d)) with false by lia.
    rewrite IH by lia. f_equal. lia.
Qed.

(* the exact law of single-snapshot requests *)
Lemma get_one sp ax c before d after t :
  comm_ok c -> argmax sp = Ok ax -> same_grid sp (before ++ d :: after) ->
  total_nt before <= t < total_nt before + nrows d ->
  get_loop cast zero (before ++ d :: after) c t (t + 1) 0 0 None
  = match nth_error (snapshots d) t with
    | Some row => Ok (Some [loc sp ax c row])
    | None => Err ValueError
    end.
Proof.
  intros Hc Hax Hg Ht. rewrite get_loop_before by lia. rewrite Nat.add_0_l.
  assert (Hg' : same_grid sp (d :: after)) by (intros d' Hd'; apply Hg, in_or_app; now right).
  rewrite (@get_step sp ax c d after) by assumption. cbv zeta.
  set (s0 := total_nt before) in *.
  replace (max t s0) with t by lia. replace (min (t + 1) (s0 + nrows d)) with (t + 1) by lia.
  replace (t <? t + 1) with true by lia. replace (t + 1 - t) with 1 by lia. rewrite Nat.sub_0_r.
  unfold assign_rows. rewrite repeat_length. rewrite Nat.min_l by lia.
  destruct (nth_error (snapshots d) t) as [row|] eqn:E.
  - assert (Hlt : t < length (snapshots d)) by (apply nth_error_Some; congruence).
    rewrite (@window_nth_error_map _ t 1 _ (loc sp ax c row)) by (rewrite map_length; lia).
    cbn [seq map length]. rewrite Nat.eqb_refl. cbn [bind].
    rewrite get_loop_after by lia. simpl. rewrite (map_nth (loc sp ax c)).
    now rewrite (nth_error_nth _ _ row E).
  - apply nth_error_None in E. unfold window. rewrite skipn_all2 by (rewrite map_length; lia).
    reflexivity.
Qed.

Lemma get_beyond c ds t : total_nt ds <= t ->
  get_loop cast zero ds c t (t + 1) 0 0 None = Ok None.
Proof.
  intros H. rewrite <- (app_nil_r ds). rewrite get_loop_before by lia. reflexivity.
Qed.
End R1.

Lemma total_nt_record {A} (ds : list (nd A)) : length (record ds) = total_nt ds.
Proof.
  unfold record, total_nt. induction ds as [|d ds IH]; [reflexivity|]. cbn [map concat].
  rewrite app_length, IH, snapshots_length. reflexivity.
Qed.

(* ---------- construction ---------- *)
Lemma list_eqb_eq l l' : list_eqb l l' = true <-> l = l'.
Proof.
  revert l'; induction l as [|x l IH]; intros [|y l']; simpl; split; intros H; try congruence.
  - apply andb_true_iff in H as [H1 H2]. apply Nat.eqb_eq in H1. apply IH in H2. congruence.
  - injection H as -> ->. rewrite Nat.eqb_refl. simpl. now apply IH.
Qed.

Lemma check_shapes_ok {A} (ds : list (nd A)) sp nt :
  (forall d, In d ds -> tl (shape d) = sp) ->
  forall prev, (prev = None \/ prev = Some sp) -> check_shapes prev ds nt = Ok (nt + total_nt ds).
Proof.
  revert nt; induction ds as [|d ds IH]; intros nt H prev Hp; simpl.
  - unfold total_nt. simpl. now rewrite Nat.add_0_r.
  - assert (Hd : tl (shape d) = sp) by (apply H; now left).
    assert (E : check_shapes (Some (tl (shape d))) ds (nt + nrows d) = Ok (nt + total_nt (d :: ds))).
    { rewrite IH; [f_equal; unfold total_nt; simpl; lia|intros; apply H; now right|right; congruence]. }
    destruct Hp as [-> | ->]; [exact E|].
    rewrite (proj2 (list_eqb_eq _ _) Hd). exact E.
Qed.

Lemma check_shapes_bad {A} (ds : list (nd A)) nt sp :
  (exists d, In d ds /\ tl (shape d) <> sp) -> check_shapes (Some sp) ds nt = Err AssertionError.
Proof.
  revert nt; induction ds as [|d ds IH]; intros nt (d' & Hin & Hne); simpl in *; [tauto|].
  destruct (list_eqb (tl (shape d)) sp) eqn:E; [|reflexivity].
  apply list_eqb_eq in E. rewrite E. apply IH. exists d'. split; [|assumption].
  destruct Hin as [->|Hin]; [congruence|assumption].
Qed.
