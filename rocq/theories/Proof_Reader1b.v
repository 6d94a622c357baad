From Verif Require Import Base_List Model_Parallel Spec_Array Proof_Parallel Proof_Npy Proof_Npy2
  Model_Reader1 Spec_Reader Proof_Reader1.
Set Implicit Arguments.

Section R1.
Context {A B : Type}.
Variables (cast : A -> B) (zero : B) (isreal : A -> bool).

Definition well_formed (ds : list (nd A)) : Prop := forall d, In d ds -> wf d /\ shape d <> [].

Lemma tl_shape_dec (d : nd A) sp : tl (shape d) = sp \/ tl (shape d) <> sp.
Proof. destruct (list_eq_dec Nat.eq_dec (tl (shape d)) sp); auto. Qed.

Lemma check_shapes_inv (ds : list (nd A)) (d0 : nd A) nt nt' :
  check_shapes (Some (tl (shape d0))) ds nt = Ok nt' ->
  forall d, In d ds -> tl (shape d) = tl (shape d0).
Proof.
  intros H d Hd. destruct (tl_shape_dec d (tl (shape d0))) as [E|N]; [exact E|exfalso].
  rewrite check_shapes_bad in H; [discriminate|]. exists d. auto.
Qed.

Lemma init_inv ds xdim nv c r : reader1_init isreal ds xdim nv c = Ok r ->
  exists d0 ds', ds = d0 :: ds' /\ 0 < nrows d0 /\ (forall d, In d ds -> tl (shape d) = tl (shape d0)) /\
    let sp := tl (shape d0) in
    let xs := if (nv =? 1) && negb (S (length sp) =? xdim + 2) then sp ++ [1] else sp in
    exists ax, argmax xs = Ok ax /\ 0 < last xs 0 /\ xs <> [] /\
    r = Reader1 ds (total_nt ds) (prod (removelast xs)) (1 :: xs) (removelast xs)
          (forallb isreal (hd [] (rows d0))) ax c.
Proof.
  unfold reader1_init. intros H. destruct (check_shapes None ds 0) as [nt|] eqn:Ec; [|discriminate].
  cbn [bind] in H. destruct ds as [|d0 ds']; [discriminate|].
  destruct (Nat.eqb_spec (nrows d0) 0) as [|Hn]; [discriminate|].
  exists d0, ds'. split; [reflexivity|]. split; [lia|].
  assert (Hall : forall d, In d (d0 :: ds') -> tl (shape d) = tl (shape d0)).
  { intros d [<-|Hd]; [reflexivity|]. cbn [check_shapes] in Ec. eapply check_shapes_inv; eauto. }
  split; [exact Hall|]. cbv zeta in *.
  rewrite (@check_shapes_ok _ _ (tl (shape d0)) 0) in Ec by auto. injection Ec as <-.
  set (xs := if (nv =? 1) && negb (S (length (tl (shape d0))) =? xdim + 2)
             then tl (shape d0) ++ [1] else tl (shape d0)) in *.
  destruct ((length xs =? 0) || (last xs 0 =? 0)) eqn:E; [discriminate|].
  apply orb_false_iff in E as [E1 E2].
  destruct (argmax xs) as [ax|] eqn:Ea; [|discriminate]. cbn [bind] in H. injection H as <-.
  exists ax. split; [reflexivity|]. split; [lia|]. split; [|reflexivity].
  intros ->. discriminate.
Qed.

Lemma init_same_grid ds (d0 : nd A) : well_formed ds ->
  (forall d, In d ds -> tl (shape d) = tl (shape d0)) -> same_grid (tl (shape d0)) ds.
Proof. intros Hw H d Hd. destruct (Hw d Hd) as [W N]. auto. Qed.

Lemma argmax_total l : l <> [] -> exists k, argmax l = Ok k.
Proof. destruct l; [congruence|]. intros _. simpl. eauto. Qed.

Lemma get_data_all ds xdim nv c r sp ax :
  well_formed ds -> comm_ok c -> reader1_init isreal ds xdim nv c = Ok r ->
  (forall d, In d ds -> tl (shape d) = sp) -> argmax sp = Ok ax ->
  rd_nt r = length (record ds) /\
  get_data cast zero r None = Ok (Some (map (fun row => map cast (local_piece sp ax c row)) (record ds))).
Proof.
  intros Hw Hc Hi Hsp Hax. destruct (init_inv _ _ _ _ Hi) as (d0 & ds' & -> & Hn & Hall & ax' & _ & _ & _ & ->).
  assert (Es : tl (shape d0) = sp) by (apply Hsp; now left).
  pose proof (init_same_grid _ Hw Hall) as Hg. rewrite Es in Hg.
  cbn [rd_nt rd_list rd_comm]. split; [symmetry; apply total_nt_record|].
  unfold get_data, get_data_for_time. cbn [rd_nt rd_list rd_comm].
  change (fun row => map cast (local_piece sp ax c row)) with (loc cast sp ax c).
  rewrite (@get_step _ _ cast zero sp ax c d0 ds') by assumption. cbv zeta.
  unfold total_nt. cbn [map]. rewrite sum_cons. fold (total_nt ds').
  rewrite Nat.max_0_l, Nat.add_0_l. rewrite Nat.min_r by lia.
  replace (0 <? nrows d0) with true by lia. rewrite !Nat.sub_0_r.
  rewrite window_all by (rewrite map_length, snapshots_length; lia).
  unfold assign_rows. rewrite map_length, snapshots_length, repeat_length.
  rewrite Nat.sub_0_r, Nat.min_l by lia. rewrite Nat.eqb_refl. cbn [bind].
  rewrite (@get_loop_full _ _ cast zero sp ax c ds').
  - unfold record. cbn [map concat]. fold (record ds'). rewrite map_app. f_equal. f_equal. f_equal.
    cbn [firstn app]. rewrite firstn_app, firstn_all2 by (rewrite map_length, snapshots_length; lia).
    rewrite map_length, snapshots_length, Nat.add_0_l, Nat.sub_diag. simpl. now rewrite app_nil_r.
  - assumption.
  - assumption.
  - exact (same_grid_tl Hg).
  - lia.
  - rewrite app_length, app_length, map_length, snapshots_length, skipn_length, repeat_length. simpl. lia.
Qed.

Lemma get_data_shape_mismatch (ds : list (nd A)) xdim nv c :
  (exists d d', In d ds /\ In d' ds /\ tl (shape d) <> tl (shape d')) ->
  reader1_init isreal ds xdim nv c = Err AssertionError.
Proof.
  intros (d & d' & Hd & Hd' & Hne). unfold reader1_init.
  assert (check_shapes None ds 0 = Err AssertionError) as ->; [|reflexivity].
  destruct ds as [|d0 ds]; [destruct Hd|]. cbn [check_shapes]. apply check_shapes_bad.
  destruct (tl_shape_dec d (tl (shape d0))) as [E|N].
  - exists d'. split; [|congruence]. destruct Hd' as [<-|]; [congruence|assumption].
  - exists d. split; [|assumption]. destruct Hd as [<-|]; [congruence|assumption].
Qed.

(* ---- streaming ---- *)
Lemma get_data_one ds before d after xdim nv c r sp ax t :
  well_formed ds -> comm_ok c -> reader1_init isreal ds xdim nv c = Ok r ->
  (forall d, In d ds -> tl (shape d) = sp) -> argmax sp = Ok ax ->
  ds = before ++ d :: after -> total_nt before <= t < total_nt before + nrows d ->
  get_data cast zero r (Some t) =
  match nth_error (snapshots d) t with
  | Some row => Ok (Some [map cast (local_piece sp ax c row)])
  | None => Err ValueError
  end.
Proof.
  intros Hw Hc Hi Hsp Hax E Ht. destruct (init_inv _ _ _ _ Hi) as (d0 & ds' & E0 & Hn & Hall & ax' & _ & _ & _ & ->).
  assert (Es : tl (shape d0) = sp) by (apply Hsp; rewrite E0; now left).
  pose proof (init_same_grid _ Hw Hall) as Hg. rewrite Es in Hg.
  unfold get_data, get_data_for_time. cbn [rd_list rd_comm].
  rewrite E in *. exact (@get_one _ _ cast zero sp ax c before d after t Hc Hax Hg Ht).
Qed.

Lemma get_data_beyond ds xdim nv c r t :
  reader1_init isreal ds xdim nv c = Ok r -> length (record ds) <= t ->
  get_data cast zero r (Some t) = Ok None.
Proof.
  intros Hi Ht. destruct (init_inv _ _ _ _ Hi) as (d0 & ds' & E0 & Hn & Hall & ax' & _ & _ & _ & ->).
  unfold get_data, get_data_for_time. cbn [rd_list rd_comm]. apply get_beyond.
  now rewrite <- total_nt_record.
Qed.

Lemma stream_run r f0 (rows : list (list B)) stop t fuel :
  (forall k, k < length rows -> get_data cast zero r (Some (t + k)) = Ok (Some [nth k rows f0])) ->
  (forall row, get_data cast zero r (Some (t + length rows)) <> Ok (Some [row])) ->
  length rows < fuel + stop -> stop = 0 ->
  stream_from cast zero r t fuel = rows.
Proof.
  intros H Hstop Hf ->. revert t fuel H Hstop Hf; induction rows as [|x rows IH]; intros t fuel H Hstop Hf.
  - destruct fuel as [|fuel]; [reflexivity|]. cbn [stream_from]. cbn [length] in Hstop. rewrite Nat.add_0_r in Hstop.
    destruct (get_data cast zero r (Some t)) as [[[|row [|]]|]|]; try reflexivity.
    exfalso. exact (Hstop row eq_refl).
  - destruct fuel as [|fuel]; [simpl in Hf; lia|]. cbn [stream_from].
    pose proof (H 0 ltac:(simpl; lia)) as H0. rewrite Nat.add_0_r in H0. rewrite H0. simpl. f_equal.
    apply IH.
    + intros k Hk. replace (S t + k) with (t + S k) by lia. apply (H (S k)). simpl. lia.
    + intros row. replace (S t + length rows) with (t + length (x :: rows)) by (simpl; lia). apply Hstop.
    + simpl in Hf. lia.
Qed.

Lemma stream_single d xdim nv c r sp ax fuel :
  well_formed [d] -> comm_ok c -> reader1_init isreal [d] xdim nv c = Ok r ->
  tl (shape d) = sp -> argmax sp = Ok ax -> nrows d < fuel ->
  stream_from cast zero r 0 fuel = map (fun row => map cast (local_piece sp ax c row)) (snapshots d).
Proof.
  intros Hw Hc Hi Hsp Hax Hf.
  apply (@stream_run r [] _ 0); rewrite ?map_length, ?snapshots_length; try lia; try reflexivity.
  - intros k Hk.
    rewrite (@get_data_one [d] [] d [] xdim nv c r sp ax (0 + k)); auto.
    + assert (Hk' : k < length (snapshots d)) by (rewrite snapshots_length; lia).
      simpl. rewrite (nth_error_nth' (snapshots d) [] Hk'). f_equal. f_equal. f_equal.
      rewrite (nth_indep _ [] ((fun row => map cast (local_piece sp ax c row)) [])) by (rewrite map_length; lia).
      now rewrite (map_nth (fun row => map cast (local_piece sp ax c row))).
    + intros d' [<-|[]]. exact Hsp.
    + unfold total_nt. simpl. lia.
  - intros row. rewrite (@get_data_beyond [d] xdim nv c r); [discriminate|assumption|].
    rewrite total_nt_record. unfold total_nt. simpl. lia.
Qed.

Lemma stream_multi d0 d1 rest xdim nv c r sp ax fuel :
  let ds := d0 :: d1 :: rest in
  well_formed ds -> comm_ok c -> reader1_init isreal ds xdim nv c = Ok r ->
  (forall d, In d ds -> tl (shape d) = sp) -> argmax sp = Ok ax ->
  0 < nrows d1 -> max (nrows d0) (nrows d1) < fuel ->
  stream_from cast zero r 0 fuel
  = map (fun row => map cast (local_piece sp ax c row))
      (snapshots d0 ++ skipn (nrows d0) (snapshots d1)).
Proof.
  intros ds Hw Hc Hi Hsp Hax Hn1 Hf.
  set (F := fun row => map cast (local_piece sp ax c row)).
  set (L := snapshots d0 ++ skipn (nrows d0) (snapshots d1)).
  assert (HL : length L = max (nrows d0) (nrows d1)).
  { unfold L. rewrite app_length, skipn_length, !snapshots_length. lia. }
  assert (Hnth : forall k, nrows d0 <= k -> nth_error L k = nth_error (snapshots d1) k).
  { intros k Hk. unfold L. rewrite nth_error_app2 by (rewrite snapshots_length; lia).
    rewrite nth_error_skipn, snapshots_length. f_equal. lia. }
  assert (H1 : forall t, nrows d0 <= t < nrows d0 + nrows d1 ->
     get_data cast zero r (Some t) =
     match nth_error (snapshots d1) t with
       | Some row => Ok (Some [F row]) | None => Err ValueError end).
  { intros t Ht. apply (@get_data_one ds [d0] d1 rest xdim nv c r sp ax t); auto.
    unfold total_nt. simpl. lia. }
  apply (@stream_run r [] _ 0); rewrite ?map_length, ?HL; try lia; try reflexivity.
  - intros k Hk. rewrite Nat.add_0_l.
    assert (Hkl : k < length L) by lia.
    rewrite (nth_indep _ [] (F [])) by (rewrite map_length; lia). rewrite (map_nth F).
    destruct (Nat.lt_ge_cases k (nrows d0)) as [Hlt|Hge].
    + rewrite (@get_data_one ds [] d0 (d1 :: rest) xdim nv c r sp ax k); auto; [|unfold total_nt; simpl; lia].
      assert (E : nth_error L k = nth_error (snapshots d0) k)
        by (unfold L; apply nth_error_app1; rewrite snapshots_length; lia).
      rewrite <- E, (nth_error_nth' L [] Hkl). reflexivity.
    + rewrite H1 by lia. rewrite <- Hnth by lia. rewrite (nth_error_nth' L [] Hkl). reflexivity.
  - intros row. rewrite Nat.add_0_l.
    rewrite H1.
    + rewrite <- Hnth by lia.
      assert (nth_error L (max (nrows d0) (nrows d1)) = None) as -> by (apply nth_error_None; lia).
      discriminate.
    + assert (0 < nrows d0).
      { destruct (init_inv _ _ _ _ Hi) as (d0' & ds' & E0 & Hn & _). unfold ds in E0. injection E0 as <- _. exact Hn. }
      lia.
Qed.

(* ---- axis ---- *)
Lemma argmax_from_app l i best bi x : x <= best ->
  argmax_from i best bi (l ++ [x]) = argmax_from i best bi l.
Proof.
  revert i best bi; induction l as [|y l IH]; intros i best bi Hx; simpl.
  - replace (best <? x) with false by lia. reflexivity.
  - destruct (Nat.ltb_spec best y); apply IH; lia.
Qed.

Lemma argmax_from_app' l i best bi x : (exists y, In y l /\ x <= y) ->
  argmax_from i best bi (l ++ [x]) = argmax_from i best bi l.
Proof.
  revert i best bi; induction l as [|y l IH]; intros i best bi (z & Hz & Hx); simpl in *; [tauto|].
  destruct Hz as [->|Hz].
  - destruct (Nat.ltb_spec best z); apply argmax_from_app; lia.
  - destruct (best <? y); apply IH; eauto.
Qed.

Lemma argmax_app l x : (exists y, In y l /\ x <= y) -> argmax (l ++ [x]) = argmax l.
Proof.
  destruct l as [|y l]; intros (z & Hz & Hx); [destruct Hz|]. simpl. f_equal.
  destruct Hz as [->|Hz]; [now apply argmax_from_app|apply argmax_from_app'; eauto].
Qed.

Lemma prod_pos_in l : 0 < prod l -> forall x, In x l -> 1 <= x.
Proof. induction l as [|y l IH]; simpl; intros H x Hx; [tauto|]. destruct Hx as [->|Hx]; [nia|]. apply IH; [nia|assumption]. Qed.

Lemma reader_axis ds xdim nv c r sp :
  reader1_init isreal ds xdim nv c = Ok r -> (forall d, In d ds -> tl (shape d) = sp) ->
  sp <> [] -> 0 < prod sp ->
  argmax sp = Ok (rd_max_axis r) /\ rd_max_axis r < length sp /\
  (tl (rd_shape r) = sp \/ tl (rd_shape r) = sp ++ [1]).
Proof.
  intros Hi Hsp Hne Hp. destruct (init_inv _ _ _ _ Hi) as (d0 & ds' & -> & Hn & Hall & ax & Hax & _ & _ & ->).
  assert (Es : tl (shape d0) = sp) by (apply Hsp; now left). rewrite Es in *.
  cbn [rd_max_axis rd_shape tl].
  destruct ((nv =? 1) && negb (S (length sp) =? xdim + 2)) eqn:Eb.
  - assert (E : argmax (sp ++ [1]) = argmax sp).
    { apply argmax_app. destruct sp as [|x sp]; [congruence|]. exists x. split; [now left|].
      apply (prod_pos_in _ Hp). now left. }
    rewrite E in Hax. rewrite Hax. split; [reflexivity|]. split; [now apply argmax_spec in Hax|auto].
  - rewrite Hax. split; [reflexivity|]. split; [now apply argmax_spec in Hax|auto].
Qed.

(* weights cut on the reader's axis pair with the local data as the global ones do *)
Lemma local_pairs {W} sp xs ax c (row : list A) (w : nd W) :
  (xs = sp \/ xs = sp ++ [1]) -> ax < length sp -> comm_ok c ->
  length row = prod sp -> wf w -> shape w = xs ->
  exists w', distribute_dimension w ax c = Ok w' /\
    combine (local_piece sp ax c row) (flat w') = local_piece sp ax c (combine row (flat w)).
Proof.
  intros Hxs Hax Hc Hr Hw Es. destruct w as [shw lw]. cbn [shape flat] in *. subst shw.
  destruct c as [[size rank]|]; [|exists (Nd xs lw); split; reflexivity].
  simpl in Hc. eexists. split.
  { apply distribute_dimension_piece. cbn [shape]. destruct Hxs as [-> | ->]; rewrite ?app_length; lia. }
  assert (Hprod : prod xs = prod sp).
  { destruct Hxs as [-> | ->]; [reflexivity|]. rewrite prod_app. simpl. lia. }
  destruct (split_at_axis _ Hax) as (sh1 & N & sh2 & E & Hl & _ & HN & _).
  assert (Hxs' : exists sh2', xs = sh1 ++ N :: sh2' /\ prod sh2' = prod sh2).
  { destruct Hxs as [-> | ->]; [exists sh2; auto|]. exists (sh2 ++ [1]). subst sp.
    rewrite <- app_assoc. split; [reflexivity|]. rewrite prod_app. simpl. lia. }
  destruct Hxs' as (sh2' & Ex & Ep). unfold piece. cbn [shape]. subst sp xs ax.
  unfold local_piece. rewrite !axis_nth.
  unfold bd_s, bd_n. pose proof (@bd_fits N size rank Hc) as F. unfold bd_s, bd_n in F.
  destruct (blockdist N size rank) as [n s]. cbn [fst snd] in *.
  rewrite !slice_axis_split. cbn [flat]. rewrite Ep.
  unfold wf in Hw. cbn [shape flat] in Hw. rewrite prod_app in Hw, Hr. cbn [prod fold_right] in Hw, Hr.
  change (fold_right Nat.mul 1 sh2') with (prod sh2') in Hw.
  change (fold_right Nat.mul 1 sh2) with (prod sh2) in Hr. rewrite Ep in Hw.
  apply slice_flat_combine; lia.
Qed.
End R1.

(* ---------- statements used by Prop_Reader1 ---------- *)
From Coq Require Import QArith.
Local Open Scope nat_scope.

Lemma same_axis A isreal (ds : list (nd A)) xdim nv c r sp :
  reader1_init isreal ds xdim nv c = Ok r -> (forall d, In d ds -> tl (shape d) = sp) ->
  sp <> [] -> 0 < prod sp ->
  let ax := rd_max_axis r in
  (forall d, In d ds -> 0 < hd 0 (shape d) -> wf d -> shape d <> [] -> comm_ok c ->
     exists d', distribute_data d c = Ok (d', ax, sp) /\
       snapshots d' = map (local_piece sp ax c) (snapshots d)) /\
  ax < length sp /\ (forall j, j < length sp -> nth j sp 0 <= nth ax sp 0) /\
  (forall j, j < ax -> nth j sp 0 < nth ax sp 0).
Proof.
  intros Hi Hsp Hne Hp ax. destruct (reader_axis _ _ _ _ _ Hi Hsp Hne Hp) as (Hax & Hlt & _).
  split; [|exact (argmax_spec _ Hax)].
  intros d Hd Hn Hw Hs Hc. pose proof (Hsp d Hd) as Et.
  assert (Es : shape d = hd 0 (shape d) :: sp).
  { destruct (shape d); [congruence|]. simpl in *. congruence. }
  destruct (@distribute_data_rows _ d (hd 0 (shape d)) sp ax c Hc Hw Es Hn Hax) as (d' & E & En & Er).
  exists d'. split; [exact E|]. rewrite <- (rows_snapshots _ Hs), <- Er. symmetry. apply rows_snapshots.
  intros E'. unfold nrows in En. rewrite E' in En. simpl in En. lia.
Qed.

Lemma weights_pair A W isreal (ds : list (nd A)) xdim nv c r sp (w : nd W) (row : list A) :
  reader1_init isreal ds xdim nv c = Ok r -> (forall d, In d ds -> tl (shape d) = sp) ->
  sp <> [] -> 0 < prod sp -> comm_ok c ->
  wf w -> shape w = tl (rd_shape r) -> length row = prod sp ->
  exists w', distribute_dimension w (rd_max_axis r) c = Ok w' /\
    combine (local_piece sp (rd_max_axis r) c row) (flat w')
    = local_piece sp (rd_max_axis r) c (combine row (flat w)).
Proof.
  intros Hi Hsp Hne Hp Hc Hw Es Hr. destruct (reader_axis _ _ _ _ _ Hi Hsp Hne Hp) as (Hax & Hlt & Hx).
  eapply local_pairs; eauto.
Qed.

Lemma split_independent A B (cast : A -> B) zero isreal (ds ds' : list (nd A)) xdim nv c r r' sp ax :
  well_formed ds -> well_formed ds' -> comm_ok c ->
  reader1_init isreal ds xdim nv c = Ok r -> reader1_init isreal ds' xdim nv c = Ok r' ->
  (forall d, In d ds -> tl (shape d) = sp) -> (forall d, In d ds' -> tl (shape d) = sp) ->
  argmax sp = Ok ax -> record ds = record ds' ->
  rd_nt r = rd_nt r' /\ get_data cast zero r None = get_data cast zero r' None.
Proof.
  intros. destruct (@get_data_all _ _ cast zero isreal ds xdim nv c r sp ax) as [E1 E2]; auto.
  destruct (@get_data_all _ _ cast zero isreal ds' xdim nv c r' sp ax) as [E3 E4]; auto.
  split; congruence.
Qed.

Lemma last_pos l : l <> [] -> 0 < prod l -> 0 < last l 0.
Proof.
  intros Hne Hp. apply (prod_pos_in _ Hp). destruct (exists_last Hne) as (l' & x & ->).
  rewrite last_last. apply in_or_app. right. now left.
Qed.

Lemma init_accepts A isreal (ds : list (nd A)) xdim nv c sp :
  (forall d, In d ds -> tl (shape d) = sp) -> ds <> [] -> 0 < hd 0 (shape (hd (Nd [] []) ds)) ->
  sp <> [] -> 0 < prod sp -> exists r, reader1_init isreal ds xdim nv c = Ok r.
Proof.
  intros Hsp Hne Hn Hs Hp. unfold reader1_init.
  rewrite (@check_shapes_ok _ ds sp 0 Hsp None) by auto. cbn [bind].
  destruct ds as [|d0 ds']; [congruence|]. simpl in Hn. unfold nrows.
  destruct (Nat.eqb_spec (hd 0 (shape d0)) 0); [lia|]. cbv zeta.
  rewrite (Hsp d0) by now left.
  set (xs := if (nv =? 1) && negb (S (length sp) =? xdim + 2) then sp ++ [1] else sp).
  assert (Hx : xs <> [] /\ 0 < prod xs).
  { unfold xs. destruct ((nv =? 1) && _); [|auto]. split; [destruct sp; discriminate|].
    rewrite prod_app. simpl. lia. }
  destruct Hx as [Hx1 Hx2]. pose proof (last_pos Hx1 Hx2).
  destruct (length xs) eqn:El; [destruct xs; [congruence|discriminate]|].
  replace ((S n0 =? 0) || (last xs 0 =? 0)) with false by lia.
  destruct (argmax_total Hx1) as [k ->]. cbn [bind]. eauto.
Qed.

Lemma single_snapshot A B (cast : A -> B) zero isreal (d : nd A) xdim nv c r sp ax t :
  well_formed [d] -> comm_ok c -> reader1_init isreal [d] xdim nv c = Ok r ->
  tl (shape d) = sp -> argmax sp = Ok ax ->
  get_data cast zero r (Some t) =
  match nth_error (snapshots d) t with
  | Some row => Ok (Some [map cast (local_piece sp ax c row)])
  | None => Ok None
  end.
Proof.
  intros Hw Hc Hi Hsp Hax. destruct (Nat.lt_ge_cases t (nrows d)) as [Ht|Ht].
  - rewrite (@get_data_one _ _ cast zero isreal [d] [] d [] xdim nv c r sp ax t); auto.
    + destruct (nth_error (snapshots d) t) eqn:E; [reflexivity|].
      apply nth_error_None in E. rewrite snapshots_length in E. lia.
    + intros d' [<-|[]]. exact Hsp.
    + unfold total_nt. simpl. lia.
  - rewrite (@get_data_beyond _ _ cast zero isreal [d] xdim nv c r t Hi).
    + destruct (nth_error (snapshots d) t) eqn:E; [|reflexivity].
      assert (t < length (snapshots d)) by (apply nth_error_Some; congruence).
      rewrite snapshots_length in *. lia.
    + rewrite total_nt_record. unfold total_nt. simpl. lia.
Qed.

Lemma later_dataset_law A B (cast : A -> B) zero isreal (ds before : list (nd A)) d after xdim nv c r sp ax t :
  well_formed ds -> comm_ok c -> reader1_init isreal ds xdim nv c = Ok r ->
  (forall d, In d ds -> tl (shape d) = sp) -> argmax sp = Ok ax ->
  ds = before ++ d :: after ->
  length (record before) <= t < length (record before) + length (snapshots d) ->
  get_data cast zero r (Some t) =
  match nth_error (snapshots d) t with
  | Some row => Ok (Some [map cast (local_piece sp ax c row)])
  | None => Err ValueError
  end.
Proof.
  rewrite total_nt_record, snapshots_length. intros. eapply get_data_one; eauto.
Qed.

Lemma stream_incomplete A B (cast : A -> B) zero isreal (d0 d1 : nd A) rest xdim nv c r sp ax fuel :
  let ds := d0 :: d1 :: rest in
  well_formed ds -> comm_ok c -> reader1_init isreal ds xdim nv c = Ok r ->
  (forall d, In d ds -> tl (shape d) = sp) -> argmax sp = Ok ax ->
  0 < nrows d1 -> max (nrows d0) (nrows d1) < fuel ->
  length (stream_from cast zero r 0 fuel) < length (record ds).
Proof.
  intros ds Hw Hc Hi Hsp Hax Hn Hf. unfold ds in *.
  rewrite (@stream_multi _ _ cast zero isreal d0 d1 rest xdim nv c r sp ax fuel) by assumption.
  rewrite map_length, app_length, skipn_length, !snapshots_length, total_nt_record.
  unfold total_nt. simpl.
  assert (0 < nrows d0).
  { destruct (init_inv _ _ _ _ _ Hi) as (d0' & ds' & E0 & Hn0 & _). injection E0 as <- _. exact Hn0. }
  lia.
Qed.

Lemma map_id_in {X} (f : X -> X) l : (map f l = l <-> forall x, In x l -> f x = x).
Proof.
  induction l as [|x l IH]; simpl; split; intros H; try tauto.
  - injection H as H1 H2. intros y [<-|Hy]; [assumption|]. now apply IH.
  - f_equal; [apply H; now left|]. apply IH. intros y Hy. apply H. now right.
Qed.

Lemma imaginary_lost isreal (ds : list (nd (Q * Q))) xdim nv c r sp ax :
  well_formed ds -> comm_ok c -> reader1_init isreal ds xdim nv c = Ok r ->
  (forall d, In d ds -> tl (shape d) = sp) -> argmax sp = Ok ax ->
  get_data fst 0%Q r None = Ok (Some (map (fun row => map fst (local_piece sp ax c row)) (record ds))) /\
  (map (map (fun x => (x, 0%Q))) (map (fun row => map fst (local_piece sp ax c row)) (record ds))
     = map (local_piece sp ax c) (record ds)
   <-> forall row z, In row (record ds) -> In z (local_piece sp ax c row) -> snd z = 0%Q).
Proof.
  intros Hw Hc Hi Hsp Hax.
  split; [apply (@get_data_all _ _ fst 0%Q isreal ds xdim nv c r sp ax); auto|].
  rewrite map_map.
  assert (E : map (fun row => map (fun x => (x, 0%Q)) (map fst (local_piece sp ax c row))) (record ds)
     = map (map (fun z : Q * Q => (fst z, 0%Q))) (map (local_piece sp ax c) (record ds))).
  { rewrite map_map. apply map_ext. intros row. now rewrite map_map. }
  rewrite E. rewrite map_id_in. split.
  - intros H row z Hr Hz. specialize (H (local_piece sp ax c row) (in_map _ _ _ Hr)).
    rewrite map_id_in in H. specialize (H z Hz). destruct z as [a b]. simpl in *. congruence.
  - intros H lp Hlp. apply in_map_iff in Hlp as [row [<- Hr]]. apply map_id_in. intros [a b] Hz.
    specialize (H row (a, b) Hr Hz). simpl in *. congruence.
Qed.

Lemma first_snapshot_decides A isreal (ds : list (nd A)) xdim nv c r :
  well_formed ds -> reader1_init isreal ds xdim nv c = Ok r ->
  exists first others, record ds = first :: others /\ (rd_is_real r = true <-> forall z, In z first -> isreal z = true).
Proof.
  intros Hw Hi. destruct (init_inv _ _ _ _ _ Hi) as (d0 & ds' & -> & Hn & Hall & ax & _ & _ & _ & ->).
  destruct (Hw d0 (or_introl eq_refl)) as [_ Hs].
  unfold record. cbn [map concat rd_is_real]. rewrite <- (rows_snapshots _ Hs).
  pose proof (rows_length d0) as Hl. destruct (rows d0) as [|f o]; [simpl in Hl; lia|].
  exists f, (o ++ concat (map snapshots ds')). split; [reflexivity|]. simpl. apply forallb_forall.
Qed.
