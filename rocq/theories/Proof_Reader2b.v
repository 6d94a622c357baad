From Coq Require Import Permutation Sorted.
From Verif Require Import Base_List Model_Parallel Proof_Parallel Proof_Npy Proof_Npy2 Proof_Reader1
  Model_Reader2 Spec_Reader2 Proof_Reader2.
Set Implicit Arguments.

Lemma all_ok_map {X Y} (f : X -> res Y) (g : X -> Y) l :
  (forall x, In x l -> f x = Ok (g x)) -> all_ok (map f l) = Ok (map g l).
Proof.
  induction l as [|x l IH]; intros H; [reflexivity|]. cbn [map all_ok].
  rewrite H by (now left). cbn [bind]. rewrite IH by (intros; apply H; now right). reflexivity.
Qed.

Lemma window_padded {A} (R : list A) z js je :
  js <= je -> skipn js (firstn je R) ++ repeat z (je - js - length (skipn js (firstn je R)))
  = window js (je - js) (R ++ repeat z je).
Proof.
  intros H. apply nth_error_ext. intros k. rewrite nth_error_window.
  set (X := skipn js (firstn je R)).
  assert (HX : length X = min je (length R) - js) by (unfold X; now rewrite skipn_length, firstn_length).
  destruct (Nat.lt_ge_cases k (length X)) as [Hk|Hk].
  - rewrite nth_error_app1 by assumption. unfold X. rewrite nth_error_skipn, nth_error_firstn_lt by lia.
    rewrite nth_error_app1 by lia. now replace (k <? je - js) with true by lia.
  - rewrite nth_error_app2 by assumption. destruct (Nat.ltb_spec k (je - js)) as [Hk2|Hk2].
    + rewrite nth_error_app2 by lia. rewrite !nth_error_repeat by lia. reflexivity.
    + apply nth_error_None. rewrite repeat_length. lia.
Qed.

Lemma nc_snapshot_length {A} (zero : A) nxyz nv f t : length (nc_vars f) = nv ->
  length (nc_snapshot zero nxyz f t) = nxyz * nv.
Proof.
  intros H. unfold nc_snapshot. rewrite flat_map_concat_map. rewrite (@concat_length_const _ _ nv).
  - now rewrite map_length, seq_length.
  - intros l Hl. apply in_map_iff in Hl as [x [<- _]]. now rewrite map_length.
Qed.

Lemma nc_record_row_length {A} (zero : A) nxyz nv fs names r :
  (forall k, In k names -> length (nc_vars (fs k)) = nv) ->
  In r (nc_record zero nxyz fs names) -> length r = nxyz * nv.
Proof.
  intros H Hr. unfold nc_record in Hr. apply in_flat_map in Hr as [k [Hk Hr]].
  apply in_map_iff in Hr as [t [<- _]]. apply nc_snapshot_length. now apply H.
Qed.

Lemma NoDup_app_single {A} (l : list A) x : NoDup l -> ~ In x l -> NoDup (l ++ [x]).
Proof.
  intros H Hx. eapply Permutation_NoDup; [apply Permutation_cons_append|]. now constructor.
Qed.

Lemma seq_shift_add a n : map (fun b => a + b) (seq 0 n) = seq a n.
Proof.
  apply nth_error_ext. intros k. rewrite nth_error_map_seq, nth_error_seq. now destruct (k <? n).
Qed.

Lemma In_window {A} s n (l : list A) x : In x (window s n l) -> In x l.
Proof.
  intros H. unfold window in H. rewrite <- (firstn_skipn s l). apply in_or_app. right.
  rewrite <- (firstn_skipn n (skipn s l)). apply in_or_app. now left.
Qed.

Section Two.
Context {A : Type}.
Variable zero : A.

Lemma read_rank_spec nxyz nv fs names js je :
  NoDup names -> (forall k, In k names -> NoDup (nc_labels (fs k))) -> js <= je ->
  read_rank zero nxyz nv fs names js je
  = Ok (window js (je - js) (nc_record zero nxyz fs names ++ repeat (repeat zero (nxyz * nv)) je)).
Proof.
  intros Hn Hl Hj. unfold read_rank. rewrite file_time_table by assumption.
  rewrite read_loop_spec by assumption. rewrite !Nat.sub_0_r. cbn [bind app]. f_equal.
  now apply window_padded.
Qed.

Lemma window_repeat_more (R : list (list A)) z s n a b : s + n <= a -> s + n <= b ->
  window s n (R ++ repeat z a) = window s n (R ++ repeat z b).
Proof.
  intros Ha Hb. apply nth_error_ext. intros k. rewrite !nth_error_window.
  destruct (Nat.ltb_spec k n); [|reflexivity].
  destruct (Nat.lt_ge_cases (s + k) (length R)).
  - now rewrite !nth_error_app1.
  - rewrite !nth_error_app2 by lia. now rewrite !nth_error_repeat by lia.
Qed.

Lemma get_data_for_time2_spec size nreaders nxyz nv ver fs names ts te dst order :
  0 < nreaders <= size -> dst < size -> NoDup names ->
  (forall k, In k names -> length (nc_vars (fs k)) = nv /\ NoDup (nc_labels (fs k))) ->
  ts <= te -> Permutation order (seq 0 size) ->
  use_padding size nreaders nxyz nv ver (te - ts) = false ->
  get_data_for_time2 zero size nreaders nxyz nv ver fs names ts te dst order
  = Ok (concat (map (own_points nxyz nv size dst)
         (window ts (te - ts) (nc_record zero nxyz fs names ++ repeat (repeat zero (nxyz * nv)) te)))).
Proof.
  intros Hr Hd Hn Hk Ht Hp Hu. unfold get_data_for_time2.
  set (R := nc_record zero nxyz fs names). set (z := repeat zero (nxyz * nv)).
  set (m := te - ts) in *.
  assert (Hbd : forall q, bd_s m nreaders q + bd_n m nreaders q <= m).
  { intros q. destruct (Nat.lt_ge_cases q nreaders); [now apply bd_fits|].
    unfold bd_s, bd_n. rewrite bd_outside by lia. cbn. lia. }
  rewrite (all_ok_map _ (fun q => window (bd_s m nreaders q) (bd_n m nreaders q) (window ts m (R ++ repeat z te)))).
  - cbn [bind]. unfold redistribute. rewrite Hu. f_equal. apply receive_all_spec; try assumption.
    + rewrite window_length, app_length, repeat_length. unfold m. lia.
    + intros r Hin. apply In_window in Hin. apply in_app_iff in Hin as [Hin|Hin].
      * eapply nc_record_row_length; [|exact Hin]. intros k Hkk. now apply Hk.
      * apply repeat_spec in Hin. subst. unfold z. apply repeat_length.
    + intros q Hq. now rewrite nth_map_seq0.
  - intros q Hq.
    specialize (Hbd q). unfold bd_s, bd_n in *. destruct (blockdist m nreaders q) as [n s]. cbn [fst snd] in *.
    rewrite read_rank_spec; [|assumption|intros k Hkk; now apply Hk|lia]. f_equal. fold R z.
    rewrite window_window by lia.
    replace (ts + s + n - (ts + s)) with n by lia. apply window_repeat_more; lia.
Qed.

(* within the record *)
Lemma get_data_for_time2_in size nreaders nxyz nv ver fs names ts te dst order :
  0 < nreaders <= size -> dst < size -> NoDup names ->
  (forall k, In k names -> length (nc_vars (fs k)) = nv /\ NoDup (nc_labels (fs k))) ->
  ts <= te -> te <= length (nc_record zero nxyz fs names) -> Permutation order (seq 0 size) ->
  use_padding size nreaders nxyz nv ver (te - ts) = false ->
  get_data_for_time2 zero size nreaders nxyz nv ver fs names ts te dst order
  = Ok (concat (map (own_points nxyz nv size dst) (window ts (te - ts) (nc_record zero nxyz fs names)))).
Proof.
  intros. rewrite get_data_for_time2_spec by assumption. now rewrite window_app_l by lia.
Qed.

(* whatever the labels are: a result is the right result *)
Lemma read_loop_safe nxyz fs names js je cum acc got : js <= je ->
  read_loop zero nxyz fs (table fs cum names) js je cum acc = Ok got ->
  got = acc ++ skipn (js - cum) (firstn (je - cum) (nc_record zero nxyz fs names)).
Proof.
  intros Hj. revert cum acc; induction names as [|k names IH]; intros cum acc.
  - cbn. rewrite firstn_nil, skipn_nil, app_nil_r. congruence.
  - cbn [table read_loop]. rewrite Nat.eqb_refl. cbn [negb].
    replace (cum + steps (fs k) - cum) with (steps (fs k)) by lia.
    set (m := steps (fs k)).
    set (R' := nc_record zero nxyz fs names) in *.
    set (F := map (nc_snapshot zero nxyz (fs k)) (seq 0 m)).
    assert (HF : length F = m) by (unfold F; now rewrite map_length, seq_length).
    change (nc_record zero nxyz fs (k :: names)) with (F ++ R').
    rewrite firstn_app, HF, skipn_app, firstn_length, HF.
    assert (E2 : skipn (js - cum - min (je - cum) m) (firstn (je - cum - m) R')
                 = skipn (js - (cum + m)) (firstn (je - (cum + m)) R')).
    { replace (je - (cum + m)) with (je - cum - m) by lia.
      destruct (Nat.lt_ge_cases m (je - cum)).
      - f_equal; lia.
      - replace (je - cum - m) with 0 by lia. cbn [firstn]. now rewrite !skipn_nil. }
    rewrite E2.
    destruct (Nat.ltb_spec (max cum js) (min (cum + m) je)) as [H|H].
    + destruct (read_file _ _ _ _ _) as [g|] eqn:E; cbn [bind]; [|discriminate].
      apply read_file_exact in E; [|lia|unfold steps in m; fold m; lia].
      intros Hg. apply IH in Hg. rewrite Hg, <- app_assoc. f_equal. f_equal.
      rewrite E. transitivity (window (js - cum) (je - cum - (js - cum)) F).
      * unfold F. rewrite <- map_window, window_clip_seq. f_equal. f_equal; lia.
      * unfold window. now rewrite skipn_firstn_comm.
    + intros Hg. apply IH in Hg. rewrite Hg. f_equal.
      rewrite (@skipn_all_ge _ (js - cum) (firstn (je - cum) F)); [reflexivity|].
      rewrite firstn_length, HF. lia.
Qed.

Lemma all_ok_inv {X Y} (f : X -> res Y) l ys d :
  all_ok (map f l) = Ok ys -> length ys = length l /\ forall i, i < length l -> forall dx, f (nth i l dx) = Ok (nth i ys d).
Proof.
  revert ys; induction l as [|x l IH]; intros ys; cbn [map all_ok].
  - intros [= <-]. split; [reflexivity|]. cbn. lia.
  - destruct (f x) as [y|] eqn:E; cbn [bind]; [|discriminate].
    destruct (all_ok (map f l)) as [ys'|] eqn:E2; cbn [bind]; [|discriminate]. intros [= <-].
    destruct (IH _ eq_refl) as [L H]. split; [cbn; lia|]. intros [|i] Hi dx; cbn in *; [assumption|].
    apply H. lia.
Qed.

Lemma get_data_for_time2_safe size nreaders nxyz nv ver fs names ts te dst order got :
  0 < nreaders <= size -> dst < size -> NoDup names ->
  (forall k, In k names -> length (nc_vars (fs k)) = nv) ->
  ts <= te -> te <= length (nc_record zero nxyz fs names) -> Permutation order (seq 0 size) ->
  get_data_for_time2 zero size nreaders nxyz nv ver fs names ts te dst order = Ok got ->
  got = concat (map (own_points nxyz nv size dst) (window ts (te - ts) (nc_record zero nxyz fs names))).
Proof.
  intros Hr Hd Hn Hk Ht Hte Hp. unfold get_data_for_time2.
  set (R := nc_record zero nxyz fs names) in *. set (m := te - ts) in *.
  destruct (all_ok _) as [ins|] eqn:E; cbn [bind]; [|discriminate].
  unfold redistribute. destruct (use_padding _ _ _ _ _ _); [discriminate|]. intros [= <-].
  apply receive_all_spec; try assumption.
  - rewrite window_length. unfold m. lia.
  - intros r Hin. apply In_window in Hin. now eapply nc_record_row_length; [|exact Hin].
  - intros q Hq.
    destruct (all_ok_inv _ _ (@nil (list A)) E) as [L H]. rewrite seq_length in *.
    specialize (H q Hq 0). rewrite seq_nth in H by assumption. cbn [plus] in H.
    assert (Hbd : bd_s m nreaders q + bd_n m nreaders q <= m).
    { destruct (Nat.lt_ge_cases q nreaders); [now apply bd_fits|].
      unfold bd_s, bd_n. rewrite bd_outside by lia. cbn. lia. }
    unfold bd_s, bd_n in *. destruct (blockdist m nreaders q) as [n s]. cbn [fst snd] in *.
    unfold read_rank in H. rewrite file_time_table in H by assumption.
    destruct (read_loop _ _ _ _ _ _ _ _) as [g|] eqn:E3; cbn [bind] in H; [|discriminate].
    apply read_loop_safe in E3; [|lia]. rewrite !Nat.sub_0_r in E3. cbn [app] in E3. fold R in E3.
    assert (Hg : g = window (ts + s) n R).
    { rewrite E3. unfold window. replace n with (ts + s + n - (ts + s)) at 2 by lia.
      now rewrite skipn_firstn_comm. }
    assert (Hlg : length g = n) by (rewrite Hg, window_length; lia).
    injection H as <-. rewrite Hlg. replace (ts + s + n - (ts + s) - n) with 0 by lia.
    cbn [repeat]. rewrite app_nil_r, Hg. now rewrite window_window by lia.
Qed.

(* a file name listed twice (both with at least one snapshot): the consistency assertion fails *)
Fixpoint table_consistent (ft : list (nat * (nat * nat))) (cum : nat) : Prop :=
  match ft with
  | [] => True
  | (_, (v0, v1)) :: ft' => cum = v0 /\ table_consistent ft' (cum + (v1 - v0))
  end.

Lemma read_loop_consistent nxyz fs ft js je cum acc got :
  read_loop zero nxyz fs ft js je cum acc = Ok got -> table_consistent ft cum.
Proof.
  revert cum acc; induction ft as [|[k [v0 v1]] ft IH]; intros cum acc; [now cbn|].
  cbn [read_loop table_consistent]. destruct (Nat.eqb_spec cum v0); [|discriminate]. cbn [negb].
  destruct (_ <? _).
  - destruct (read_file _ _ _ _ _); cbn [bind]; [|discriminate]. intros H. split; [assumption|]. eauto.
  - intros H. split; [assumption|]. eauto.
Qed.

Definition total_ft (ft : list (nat * (nat * nat))) : nat := sum (map (fun e => snd (snd e) - fst (snd e)) ft).

Lemma table_consistent_bound ft cum : table_consistent ft cum ->
  forall k v0 v1, In (k, (v0, v1)) ft -> v1 - v0 + v0 <= cum + total_ft ft /\ cum <= v0.
Proof.
  revert cum; induction ft as [|[k0 [a b]] ft IH]; intros cum H k v0 v1 Hin; [destruct Hin|].
  cbn [table_consistent] in H. destruct H as [-> H]. unfold total_ft. cbn [map]. rewrite sum_cons. cbn [fst snd].
  destruct Hin as [[= -> -> ->]|Hin]; [lia|].
  specialize (IH _ H _ _ _ Hin). unfold total_ft in IH. lia.
Qed.

Lemma dict_set_keys {V} (d : list (nat * V)) k v : NoDup (map fst d) ->
  NoDup (map fst (dict_set d k v)) /\ (forall k', In k' (map fst (dict_set d k v)) <-> k' = k \/ In k' (map fst d)).
Proof.
  induction d as [|[k0 v0] d IH]; intros Hn; cbn [dict_set map fst].
  - split; [constructor; [easy|constructor]|]. intros k'. cbn. intuition.
  - inversion Hn; subst. destruct (Nat.eqb_spec k k0).
    + subst. cbn [map fst]. split; [assumption|]. intros k'. cbn. intuition.
    + destruct (IH H2) as [N I]. cbn [map fst]. split.
      * constructor; [|assumption]. rewrite I. intros [E|E]; [now symmetry in E|contradiction].
      * intros k'. cbn. rewrite I. intuition.
Qed.

Lemma dict_set_in {V} (d : list (nat * V)) k v : In (k, v) (dict_set d k v).
Proof. induction d as [|[k0 v0] d IH]; cbn; [now left|]. destruct (k =? k0); cbn; auto. Qed.

Lemma dict_set_in_inv {V} (d : list (nat * V)) k v k' v' : In (k', v') (dict_set d k v) ->
  (k' = k /\ v' = v) \/ In (k', v') d.
Proof.
  induction d as [|[k0 v0] d IH]; cbn.
  - intros [[= <- <-]|[]]. now left.
  - destruct (k =? k0); cbn; [intros [[= <- <-]|H]; auto|]. intros [H|H]; [auto|]. destruct (IH H); auto.
Qed.

Lemma dict_set_total ft k s s' w : NoDup (map fst ft) -> In k (map fst ft) ->
  (forall a b, In (k, (a, b)) ft -> b - a = w) -> s' - s = w ->
  total_ft (dict_set ft k (s, s')) = total_ft ft.
Proof.
  intros Hn Hin. induction ft as [|[k0 [a b]] ft IH]; [destruct Hin|].
  cbn [dict_set]. intros Hw E. inversion Hn; subst. destruct (Nat.eqb_spec k k0).
  - subst k0. unfold total_ft. cbn [map]. rewrite !sum_cons. cbn [fst snd].
    rewrite (Hw a b) by (now left). reflexivity.
  - destruct Hin as [Hin|Hin]; [cbn in Hin; congruence|].
    unfold total_ft in *. cbn [map]. rewrite !sum_cons. rewrite (IH H2 Hin); [reflexivity| |reflexivity].
    intros; apply Hw; now right.
Qed.

Lemma total_ft_app a b : total_ft (a ++ b) = total_ft a + total_ft b.
Proof. unfold total_ft. now rewrite map_app, sum_app. Qed.

Definition fold_names (fs : nat -> ncfile A) names :=
  fold_left (fun '(nt, d) k => (nt + steps (fs k), dict_set d k (nt, nt + steps (fs k)))) names (0, @nil (nat * (nat * nat))).

Lemma fold_names_inv (fs : nat -> ncfile A) names : (forall k, In k names -> 0 < steps (fs k)) ->
  let '(nt, ft) := fold_names fs names in
  nt = sum (map (fun k => steps (fs k)) names) /\ NoDup (map fst ft) /\
  (forall k, In k (map fst ft) <-> In k names) /\
  (forall k a b, In (k, (a, b)) ft -> b - a = steps (fs k)) /\
  total_ft ft <= nt /\ (~ NoDup names -> total_ft ft < nt).
Proof.
  induction names as [|k names IH] using rev_ind; intros Hs.
  - cbn. repeat split; try (constructor); try tauto; try lia. intros H. exfalso. apply H. constructor.
  - unfold fold_names in *. rewrite fold_left_app. cbn [fold_left].
    destruct (fold_left _ names _) as [nt ft] eqn:E.
    destruct IH as (I1 & I2 & I3 & I4 & I5 & I6). { intros; apply Hs; apply in_or_app; now left. }
    destruct (@dict_set_keys _ ft k (nt, nt + steps (fs k)) I2) as [K1 K2].
    assert (Hk : 0 < steps (fs k)) by (apply Hs, in_or_app; right; now left).
    split; [|split; [|split; [|split]]].
    + rewrite map_app, sum_app. cbn. lia.
    + assumption.
    + intros k'. rewrite K2, I3, in_app_iff. cbn. intuition.
    + intros k' a b Hin. apply dict_set_in_inv in Hin as [[-> [= -> ->]]|Hin]; [lia|now apply I4].
    + destruct (in_dec Nat.eq_dec k names) as [Hin|Hin].
      * assert (Ht : total_ft (dict_set ft k (nt, nt + steps (fs k))) = total_ft ft).
        { apply (@dict_set_total ft k _ _ (steps (fs k))); [assumption|now apply I3|apply I4|lia]. }
        rewrite Ht. lia.
      * rewrite dict_set_new by (now rewrite I3). rewrite total_ft_app. unfold total_ft at 2 4. cbn [map fst snd sum fold_right].
        split; [lia|]. intros Hd. assert (~ NoDup names).
        { intros Hn. apply Hd. apply NoDup_app_single; assumption. }
        specialize (I6 H). lia.
Qed.

Lemma duplicate_name_rejected nxyz nv (fs : nat -> ncfile A) names js je :
  (forall k, In k names -> 0 < steps (fs k)) -> ~ NoDup names ->
  exists e, read_rank zero nxyz nv fs names js je = Err e.
Proof.
  intros Hs Hd. unfold read_rank.
  destruct (read_loop _ _ _ _ _ _ _ _) as [g|e] eqn:E; cbn [bind]; [|now exists e].
  exfalso. apply read_loop_consistent in E. unfold file_time in E. fold (fold_names fs names) in E.
  destruct names as [|k names _] using rev_ind. { apply Hd. constructor. }
  pose proof (@fold_names_inv fs _ Hs) as I.
  unfold fold_names in *. rewrite fold_left_app in *. cbn [fold_left] in *.
  destruct (fold_left _ names _) as [nt ft] eqn:E2. cbn [snd] in E.
  destruct I as (I1 & I2 & I3 & I4 & I5 & I6). specialize (I6 Hd).
  pose proof (table_consistent_bound _ _ E _ _ _ (dict_set_in ft k (nt, nt + steps (fs k)))). lia.
Qed.
End Two.

(* ---------- chunked store ---------- *)
Definition P (N size r : nat) : nat := sum (map (bd_n N size) (seq 0 r)).
Lemma P_S N size r : P N size (S r) = P N size r + bd_n N size r.
Proof. unfold P. rewrite seq_S, map_app, sum_app. cbn. lia. Qed.
Lemma P_start N size r : r < size -> bd_s N size r = P N size r.
Proof. apply bd_start_prefix. Qed.
Lemma P_all N size : 0 < size -> P N size size = N.
Proof. apply bd_sum_all. Qed.

Lemma bd_pair N size r : blockdist N size r = (bd_n N size r, bd_s N size r).
Proof. unfold bd_n, bd_s. now destruct (blockdist N size r). Qed.

Definition ranges {A} (st : list (nat * block A)) : list (nat * nat) := map (fun e => (b_s (snd e), b_e (snd e))) st.

Lemma tiling_app a l1 b l2 c : tiling a l1 b -> tiling b l2 c -> tiling a (l1 ++ l2) c.
Proof.
  revert a; induction l1 as [|[s e] l1 IH]; intros a H1 H2; cbn in *; [now subst|].
  destruct H1 as (-> & Hse & H1). auto.
Qed.

Lemma tiling_blocks d N size r : 0 < size -> r <= size ->
  tiling d (map (fun k => (d + bd_s N size k, d + (bd_s N size k + bd_n N size k))) (seq 0 r)) (d + P N size r).
Proof.
  intros Hs. induction r as [|r IH]; intros Hr; [cbn; unfold P; cbn; lia|].
  rewrite seq_S, map_app. eapply tiling_app; [apply IH; lia|]. rewrite P_S. cbn.
  rewrite P_start by lia. lia.
Qed.

Lemma chunk_store_spec {A} (rows : list A) x nt nchunks nblks :
  0 < nchunks -> 0 < nblks -> length rows = nt ->
  (forall c, c < nchunks -> x c = window (bd_s nt nchunks c) (bd_n nt nchunks c) rows) ->
  let st := chunk_store nt nchunks nblks x in
  map fst st = seq 0 (nchunks * nblks) /\
  tiling 0 (ranges st) nt /\
  (forall k b, In (k, b) st -> b_v b = window (b_s b) (b_e b - b_s b) rows /\ b_e b <= nt).
Proof.
  intros Hc Hb Hl Hx st. subst st. unfold chunk_store.
  set (F := fun chunk => _).
  assert (HF : forall c, F c = map (fun blk =>
      (c * nblks + blk, Block (bd_s nt nchunks c + bd_s (bd_n nt nchunks c) nblks blk)
         (bd_s nt nchunks c + (bd_s (bd_n nt nchunks c) nblks blk + bd_n (bd_n nt nchunks c) nblks blk))
         (window (bd_s (bd_n nt nchunks c) nblks blk) (bd_n (bd_n nt nchunks c) nblks blk)
            (x c)))) (seq 0 nblks)).
  { intros c. unfold F. rewrite bd_pair.
    replace (bd_s nt nchunks c + bd_n nt nchunks c - bd_s nt nchunks c) with (bd_n nt nchunks c) by lia.
    apply map_ext. intros blk. now rewrite bd_pair. }
  split; [|split].
  - assert (E : forall n, map fst (concat (map F (seq 0 n))) = seq 0 (n * nblks)).
    { induction n as [|n IH]; [reflexivity|]. rewrite seq_S, map_app, concat_app, map_app, IH. cbn [map concat plus].
      rewrite app_nil_r, HF, map_map. cbn [fst].
      replace (S n * nblks) with (n * nblks + nblks) by lia. rewrite seq_app. f_equal.
      now rewrite seq_shift_add. }
    apply E.
  - assert (E : forall n, n <= nchunks -> tiling 0 (ranges (concat (map F (seq 0 n)))) (P nt nchunks n)).
    { induction n as [|n IH]; intros Hn; [reflexivity|].
      rewrite seq_S, map_app, concat_app. unfold ranges. rewrite map_app. eapply tiling_app; [apply IH; lia|].
      cbn [map concat plus]. rewrite app_nil_r, HF, map_map. cbn [snd b_s b_e].
      rewrite P_S, <- P_start by lia. set (t := bd_n nt nchunks n).
      replace (bd_s nt nchunks n + t) with (bd_s nt nchunks n + P t nblks nblks) by (now rewrite P_all).
      apply tiling_blocks; lia. }
    pose proof (E nchunks ltac:(lia)) as E1. rewrite P_all in E1 by assumption. exact E1.
  - intros k b Hin. apply in_concat in Hin as [l [Hl1 Hl2]]. apply in_map_iff in Hl1 as [c [<- Hcc]].
    apply in_seq in Hcc. rewrite HF in Hl2. apply in_map_iff in Hl2 as [blk [[= <- <-] Hblk]]. apply in_seq in Hblk.
    cbn [b_v b_s b_e]. pose proof (@bd_fits nt nchunks c ltac:(lia)).
    pose proof (@bd_fits (bd_n nt nchunks c) nblks blk ltac:(lia)).
    split; [|lia]. rewrite Hx by lia. rewrite window_window by lia. f_equal. lia.
Qed.

Lemma bd_n_last N size : 0 < size -> bd_n N size (size - 1) = N / size.
Proof.
  intros H. rewrite bd_n_eq by lia. pose proof (Nat.mod_upper_bound N size ltac:(lia)).
  replace (size - 1 <? N mod size) with false by lia. lia.
Qed.

Lemma last_block_spec {A} (rows : list A) x nt nchunks nblks :
  0 < nchunks -> 0 < nblks -> length rows = nt ->
  (forall c, c < nchunks -> x c = window (bd_s nt nchunks c) (bd_n nt nchunks c) rows) ->
  let st := chunk_store nt nchunks nblks x in
  (nchunks * nblks <= nt -> exists r, last_block_row st = Ok r /\ In r rows) /\
  (nt < nchunks * nblks -> last_block_row st = Err ValueError).
Proof.
  intros Hc Hb Hl Hx st.
  assert (HL : exists pre k b, st = pre ++ [(k, b)] /\ b_e b - b_s b = nt / nchunks / nblks).
  { unfold st, chunk_store. destruct nchunks as [|c]; [lia|]. rewrite seq_S, map_app, concat_app. cbn [map concat plus].
    rewrite app_nil_r, bd_pair. destruct nblks as [|bl]; [lia|]. rewrite seq_S, map_app. cbn [map plus].
    rewrite bd_pair. rewrite app_assoc. eexists _, _, _. split; [reflexivity|]. cbn [b_s b_e].
    replace (bd_s nt (S c) c + bd_n nt (S c) c - bd_s nt (S c) c) with (bd_n nt (S c) c) by lia.
    pose proof (@bd_n_last nt (S c) ltac:(lia)) as E1. replace (S c - 1) with c in E1 by lia. rewrite E1.
    pose proof (@bd_n_last (nt / S c) (S bl) ltac:(lia)) as E2. replace (S bl - 1) with bl in E2 by lia. rewrite <- E2. lia. }
  destruct HL as (pre & k & b & Est & Hlen).
  destruct (chunk_store_spec rows x Hc Hb Hl Hx) as (_ & _ & Hv). fold st in Hv.
  destruct (Hv k b) as [Hbv Hbe]. { rewrite Est. apply in_or_app. right. now left. }
  unfold last_block_row. rewrite Est, rev_app_distr. cbn [rev app].
  rewrite Nat.div_div in Hlen by lia.
  assert (Hlv : length (b_v b) = nt / (nchunks * nblks)).
  { rewrite Hbv, window_length. rewrite Hlen.
    assert (nt / (nchunks * nblks) = 0 \/ b_s b + nt / (nchunks * nblks) <= nt) by lia.
    lia. }
  split; intros H.
  - assert (0 < nt / (nchunks * nblks)) by (apply Nat.div_str_pos; nia).
    destruct (b_v b) as [|r l] eqn:Ev; [cbn in Hlv; lia|]. exists r. split; [reflexivity|].
    apply (@In_window _ (b_s b) (b_e b - b_s b)). rewrite <- Hbv. now left.
  - rewrite Nat.div_small in Hlv by lia. destruct (b_v b); [reflexivity|discriminate].
Qed.

(* ---------- the whole record in chunks ---------- *)
Lemma total_steps_sum {A} (fs : nat -> ncfile A) names : total_steps fs names = sum (map (fun k => steps (fs k)) names).
Proof.
  unfold total_steps. enough (H : forall a, fold_left (fun nt k => nt + steps (fs k)) names a = a + sum (map (fun k => steps (fs k)) names)) by apply H.
  induction names as [|k names IH]; intros a; cbn [fold_left map]; [cbn; lia|]. rewrite IH, sum_cons. lia.
Qed.
Lemma nc_record_length {A} (zero : A) nxyz fs names : length (nc_record zero nxyz fs names) = total_steps fs names.
Proof.
  rewrite total_steps_sum. unfold nc_record. rewrite flat_map_concat_map.
  induction names as [|k names IH]; [reflexivity|]. cbn [map concat]. rewrite app_length, map_length, seq_length, IH, sum_cons.
  reflexivity.
Qed.

Lemma chop_concat {A} (ls : list (list A)) w m : (forall l, In l ls -> length l = w) -> length ls = m ->
  chop w m (concat ls) = ls.
Proof.
  intros H Hm. apply nth_error_ext. intros k. unfold chop. rewrite nth_error_map_seq.
  destruct (Nat.ltb_spec k m).
  - rewrite Nat.add_0_l, (@window_concat_const _ ls w k) by (assumption || lia).
    symmetry. apply nth_error_nth'. lia.
  - symmetry. apply nth_error_None. lia.
Qed.

Lemma own_points_length {A} nxyz nv size dst (row : list A) : dst < size -> length row = nxyz * nv ->
  length (own_points nxyz nv size dst row) = bd_n nxyz size dst * nv.
Proof.
  intros Hd Hr. unfold own_points. rewrite bd_pair. rewrite window_length, Hr.
  pose proof (@bd_fits nxyz size dst Hd). nia.
Qed.

Lemma get_data2_spec {A} (zero : A) size nreaders nxyz nv ver nchunks nblks fs names dst orders :
  0 < nreaders <= size -> dst < size -> NoDup names -> 0 < nchunks -> 0 < nblks ->
  (forall k, In k names -> length (nc_vars (fs k)) = nv /\ NoDup (nc_labels (fs k))) ->
  (forall c, c < nchunks -> Permutation (orders c) (seq 0 size)) ->
  (forall c, c < nchunks -> use_padding size nreaders nxyz nv ver (bd_n (total_steps fs names) nchunks c) = false) ->
  let rows := map (own_points nxyz nv size dst) (nc_record zero nxyz fs names) in
  let nt := length (nc_record zero nxyz fs names) in
  exists x, (forall c, c < nchunks -> x c = window (bd_s nt nchunks c) (bd_n nt nchunks c) rows) /\
  get_data2 zero size nreaders nxyz nv ver nchunks nblks fs names dst orders = Ok (chunk_store nt nchunks nblks x).
Proof.
  intros Hr Hd Hn Hc Hb Hk Ho Hu rows nt. unfold get_data2.
  rewrite <- (nc_record_length zero nxyz) in *. fold nt in Hu |- *.
  set (G := fun c => window (bd_s nt nchunks c) (bd_n nt nchunks c) rows).
  rewrite (all_ok_map _ G).
  - cbn [bind]. eexists. split; [|reflexivity]. intros c Hcc. cbv beta. now rewrite (nth_map_seq0 G) by assumption.
  - intros c Hcc. apply in_seq in Hcc. rewrite bd_pair. pose proof (@bd_fits nt nchunks c ltac:(lia)).
    rewrite get_data_for_time2_in; try assumption; try lia.
    + cbn [bind]. f_equal.
      replace (bd_s nt nchunks c + bd_n nt nchunks c - bd_s nt nchunks c) with (bd_n nt nchunks c) by lia.
      rewrite map_window. fold rows. apply chop_concat.
      * intros l Hl. apply In_window in Hl. unfold rows in Hl. apply in_map_iff in Hl as [r [<- Hr']].
        apply own_points_length; [assumption|]. eapply nc_record_row_length; [|exact Hr']. intros; now apply Hk.
      * unfold G. rewrite window_length. unfold rows. rewrite map_length. fold nt. lia.
    + apply Ho. lia.
    + replace (bd_s nt nchunks c + bd_n nt nchunks c - bd_s nt nchunks c) with (bd_n nt nchunks c) by lia.
      apply Hu. lia.
Qed.

Lemma max_time_first size nreaders m : 0 < nreaders <= size -> max_time size nreaders m = bd_n m nreaders 0.
Proof.
  intros H. unfold max_time. apply Nat.le_antisymm.
  - assert (E : forall l, fold_right Nat.max 0 (map (fun q => fst (blockdist m nreaders q)) l) <= bd_n m nreaders 0).
    { induction l as [|q l IH]; cbn [map fold_right]; [lia|]. apply Nat.max_lub; [|assumption].
      destruct (Nat.lt_ge_cases q nreaders).
      - apply (@bd_balanced m nreaders 0 q); lia.
      - rewrite bd_outside by lia. cbn. lia. }
    apply E.
  - destruct size as [|size]; [lia|]. cbn [seq map fold_right]. fold (bd_n m nreaders 0). lia.
Qed.

Definition big_message (size nreaders nxyz nv m : nat) : Prop :=
  (2147483647 <= Z.of_nat (fst (blockdist m nreaders 0) * size * fst (blockdist nxyz size 0) * nv))%Z.

Lemma use_padding_iff size nreaders nxyz nv ver m : 0 < nreaders <= size ->
  use_padding size nreaders nxyz nv ver m = true <-> ver < 4 /\ big_message size nreaders nxyz nv m.
Proof.
  intros H. unfold use_padding, big_message. rewrite max_time_first by assumption. fold (bd_n m nreaders 0).
  rewrite negb_true_iff, orb_false_iff, Nat.leb_gt, Z.ltb_ge. tauto.
Qed.

Lemma nreaders_of_ok n size : 0 < size -> 0 < nreaders_of n size <= size.
Proof. unfold nreaders_of. destruct n as [[|n]|]; lia. Qed.

Lemma all_ok_cases {X Y} (f : X -> res Y) l : (exists ys, all_ok (map f l) = Ok ys) \/ (exists e, all_ok (map f l) = Err e).
Proof. destruct (all_ok (map f l)); eauto. Qed.

Lemma padded_fails {A} (zero : A) size nreaders nxyz nv ver fs names ts te dst order :
  use_padding size nreaders nxyz nv ver (te - ts) = true ->
  exists e, get_data_for_time2 zero size nreaders nxyz nv ver fs names ts te dst order = Err e.
Proof.
  intros H. unfold get_data_for_time2. destruct (all_ok _); cbn [bind]; [|eauto].
  unfold redistribute. rewrite H. eauto.
Qed.

Lemma duplicate_name_read_fails {A} (zero : A) size nreaders nxyz nv ver (fs : nat -> ncfile A) names ts te dst order :
  0 < size -> (forall k, In k names -> 0 < steps (fs k)) -> ~ NoDup names ->
  exists e, get_data_for_time2 zero size nreaders nxyz nv ver fs names ts te dst order = Err e.
Proof.
  intros Hs Hst Hd. unfold get_data_for_time2.
  destruct (all_ok _) as [ys|e] eqn:E; cbn [bind]; [|eauto].
  exfalso. destruct (all_ok_inv _ _ (@nil (list A)) E) as [_ H]. rewrite seq_length in H. specialize (H 0 Hs 0).
  rewrite seq_nth in H by assumption. cbn [plus] in H. destruct (blockdist (te - ts) nreaders 0) as [n s].
  destruct (@duplicate_name_rejected A zero nxyz nv fs names (ts + s) (ts + s + n) Hst Hd) as [e He]. congruence.
Qed.

Lemma auto_chunks_too_many nt bytes_per_step itemsize size : (0 < size)%N -> (0 < nt)%N ->
  (1024 * 1024 * 256 * size <= bytes_per_step * itemsize)%N ->
  (nt < auto_nchunks nt bytes_per_step itemsize size * 3)%N.
Proof.
  intros Hs Hn Hb. unfold auto_nchunks.
  set (M := (1024 * 1024 * 256 * size)%N) in *.
  assert (nt <= nt * bytes_per_step * itemsize / M)%N.
  { apply N.div_le_lower_bound; [lia|]. rewrite <- N.mul_assoc, (N.mul_comm M). apply N.mul_le_mono_l, Hb. }
  lia.
Qed.

(* ---------- sorting ---------- *)
Section Sort.
Context {K : Type}.
Variable leb : K -> K -> bool.
Hypothesis leb_total : forall x y, leb x y = true \/ leb y x = true.
Hypothesis leb_trans : forall x y z, leb x y = true -> leb y z = true -> leb x z = true.
Hypothesis leb_antisym : forall x y, leb x y = true -> leb y x = true -> x = y.

Lemma insert_perm x l : Permutation (insert leb x l) (x :: l).
Proof.
  induction l as [|y l IH]; [reflexivity|]. cbn. destruct (leb x y); [reflexivity|].
  rewrite IH. apply perm_swap.
Qed.
Lemma sort_perm l : Permutation (sort leb l) l.
Proof. induction l as [|x l IH]; [reflexivity|]. cbn. rewrite insert_perm. now rewrite IH. Qed.

Lemma insert_sorted x l : StronglySorted (fun a b => leb a b = true) l ->
  StronglySorted (fun a b => leb a b = true) (insert leb x l).
Proof.
  induction 1 as [|y l Hs IH Hf]; cbn; [repeat constructor|].
  destruct (leb x y) eqn:E.
  - constructor; [now constructor|]. constructor; [assumption|].
    eapply Forall_impl; [|exact Hf]. intros a Ha. eauto.
  - constructor; [assumption|]. apply Forall_forall. intros a Ha.
    apply (Permutation_in _ (insert_perm x l)) in Ha as [<-|Ha].
    + destruct (leb_total x y); congruence.
    + rewrite Forall_forall in Hf. auto.
Qed.
Lemma sort_sorted l : StronglySorted (fun a b => leb a b = true) (sort leb l).
Proof. induction l; cbn; [constructor|]. now apply insert_sorted. Qed.

Lemma sorted_unique l l' : StronglySorted (fun a b => leb a b = true) l ->
  StronglySorted (fun a b => leb a b = true) l' -> Permutation l l' -> l = l'.
Proof.
  revert l'; induction l as [|x l IH]; intros l' H1 H2 Hp.
  - symmetry. now apply Permutation_nil.
  - destruct l' as [|y l']. { symmetry in Hp. apply Permutation_nil in Hp. discriminate. }
    inversion H1; subst. inversion H2; subst.
    assert (x = y).
    { rewrite Forall_forall in *.
      assert (Hx : In x (y :: l')) by (eapply Permutation_in; [exact Hp|now left]).
      assert (Hy : In y (x :: l)) by (eapply Permutation_in; [symmetry; exact Hp|now left]).
      destruct Hx as [->|Hx]; [reflexivity|]. destruct Hy as [->|Hy]; [reflexivity|]. auto. }
    subst y. f_equal. apply IH; try assumption. eapply Permutation_cons_inv; eassumption.
Qed.
End Sort.

(* ---------- MATLAB reader ---------- *)
Section MatP.
Context {A K : Type}.
Variable zero : A.
Variable leb : K -> K -> bool.

Lemma interleave_mat nxyz (vs : list (list A)) : interleave zero nxyz vs = mat_snapshot zero nxyz vs.
Proof. unfold interleave, mat_snapshot. now rewrite flat_map_concat_map. Qed.

Lemma mat_loop_spec nxyz (content : K -> list (list A)) files js je cum acc : js <= je ->
  mat_loop zero nxyz content files js je cum acc
  = acc ++ skipn (js - cum) (firstn (je - cum) (map (fun k => mat_snapshot zero nxyz (content k)) files)).
Proof.
  intros Hj. revert cum acc; induction files as [|k files IH]; intros cum acc.
  - cbn. now rewrite firstn_nil, skipn_nil, app_nil_r.
  - cbn [mat_loop map]. destruct (Nat.ltb_spec (max cum js) (min (cum + 1) je)) as [H|H].
    + rewrite IH, <- app_assoc. f_equal. replace (js - cum) with 0 by lia.
      destruct (je - cum) as [|d] eqn:E; [lia|]. cbn [firstn skipn]. rewrite interleave_mat. cbn [app]. f_equal.
      replace (js - (cum + 1)) with 0 by lia. replace (je - (cum + 1)) with d by lia. reflexivity.
    + rewrite IH. f_equal. destruct (je - cum) as [|d] eqn:E.
      * replace (je - (cum + 1)) with 0 by lia. cbn [firstn]. now rewrite !skipn_nil.
      * cbn [firstn]. replace (je - (cum + 1)) with d by lia.
        replace (js - cum) with (S (js - (cum + 1))) by lia. reflexivity.
Qed.

Lemma get_data_for_time_mat_spec size nxyz nv ver (content : K -> list (list A)) names ts te dst order :
  dst < size -> (forall k, In k names -> length (content k) = nv) -> ts <= te ->
  Permutation order (seq 0 size) ->
  use_padding size size nxyz nv ver (te - ts) = false ->
  get_data_for_time_mat zero leb size nxyz nv ver content names ts te dst order
  = Ok (concat (map (own_points nxyz nv size dst)
      (window ts (te - ts) (map (fun k => mat_snapshot zero nxyz (content k)) (sort leb names)
                            ++ repeat (repeat zero (nxyz * nv)) te)))).
Proof.
  intros Hd Hk Ht Hp Hu. unfold get_data_for_time_mat, redistribute. rewrite Hu. f_equal.
  set (R := map _ (sort leb names)). set (z := repeat zero (nxyz * nv)). set (m := te - ts) in *.
  apply receive_all_spec; try assumption; try lia.
  - rewrite window_length, app_length, repeat_length. unfold m. lia.
  - intros r Hin. apply In_window in Hin. apply in_app_iff in Hin as [Hin|Hin].
    + apply in_map_iff in Hin as [k [<- Hin]]. unfold mat_snapshot. rewrite flat_map_concat_map.
      rewrite (@concat_length_const _ _ nv). { now rewrite map_length, seq_length. }
      intros l Hl. apply in_map_iff in Hl as [x [<- _]]. rewrite map_length. apply Hk.
      eapply Permutation_in; [apply sort_perm|exact Hin].
    + apply repeat_spec in Hin. subst. unfold z. apply repeat_length.
  - intros q Hq. pose proof (@bd_fits m size q Hq). rewrite bd_pair. unfold mat_rank.
    rewrite mat_loop_spec by lia. rewrite !Nat.sub_0_r. cbn [app]. fold R.
    rewrite window_padded by lia. rewrite window_window by lia.
    replace (ts + bd_s m size q + bd_n m size q - (ts + bd_s m size q)) with (bd_n m size q) by lia.
    apply window_repeat_more; lia.
Qed.
End MatP.

(* ---------- remaining statements ---------- *)
Lemma own_points_cover {A} nxyz nv size (row : list A) : 0 < size -> length row = nxyz * nv ->
  concat (map (fun dst => own_points nxyz nv size dst row) (seq 0 size)) = row.
Proof.
  intros Hs Hl.
  assert (E : forall r, r <= size -> concat (map (fun dst => own_points nxyz nv size dst row) (seq 0 r)) = window 0 (P nxyz size r * nv) row).
  { induction r as [|r IH]; intros Hr; [reflexivity|].
    rewrite seq_S, map_app, concat_app, IH by lia. cbn [map concat plus]. rewrite app_nil_r.
    unfold own_points. rewrite bd_pair, P_start by lia. rewrite P_S, Nat.mul_add_distr_r. apply window_app. }
  rewrite E by lia. rewrite P_all by assumption. apply window_all. lia.
Qed.

Lemma chunked_store_tiles {A} (zero : A) size nreaders nxyz nv ver nchunks nblks fs names dst orders :
  dst < size -> NoDup names -> 0 < nchunks -> 0 < nblks ->
  (forall k, In k names -> nc_ok nxyz nv (fs k) /\ NoDup (nc_labels (fs k))) ->
  (forall c : nat, Permutation (orders c) (seq 0 size)) ->
  (forall m, m <= length (nc_record zero nxyz fs names) ->
     4 <= ver \/ ~ big_message size (nreaders_of nreaders size) nxyz nv m) ->
  exists st,
    get_data2 zero size (nreaders_of nreaders size) nxyz nv ver nchunks nblks fs names dst orders = Ok st /\
    map fst st = seq 0 (nchunks * nblks) /\
    tiling 0 (map (fun e => (b_s (snd e), b_e (snd e))) st) (length (nc_record zero nxyz fs names)) /\
    forall k b, In (k, b) st ->
      b_v b = map (own_points nxyz nv size dst) (window (b_s b) (b_e b - b_s b) (nc_record zero nxyz fs names)).
Proof.
  intros Hd Hn Hc Hb Hk Ho Hs.
  assert (Hr : 0 < nreaders_of nreaders size <= size) by (apply nreaders_of_ok; lia).
  destruct (@get_data2_spec A zero size (nreaders_of nreaders size) nxyz nv ver nchunks nblks fs names dst orders) as (x & Hx & E);
    try assumption.
  - intros k Hkk. destruct (Hk k Hkk) as [[H1 _] H2]. auto.
  - intros c _. apply Ho.
  - intros c Hcc. destruct (use_padding _ _ _ _ _ _) eqn:Eu; [|reflexivity].
    apply use_padding_iff in Eu; [|assumption]. destruct Eu as [E1 E2].
    rewrite <- (nc_record_length zero nxyz) in E2.
    destruct (Hs (bd_n (length (nc_record zero nxyz fs names)) nchunks c)) as [H|H]; [|lia|contradiction].
    pose proof (@bd_fits (length (nc_record zero nxyz fs names)) nchunks c Hcc). lia.
  - eexists. split; [exact E|].
    destruct (@chunk_store_spec _ (map (own_points nxyz nv size dst) (nc_record zero nxyz fs names)) x
                (length (nc_record zero nxyz fs names)) nchunks nblks Hc Hb) as (K1 & K2 & K3); [now rewrite map_length|assumption|].
    split; [assumption|]. split; [assumption|]. intros k b Hin. rewrite map_window. now apply (K3 k b).
Qed.

Lemma use_padding_small size nreaders nxyz nv ver m : 0 < nreaders <= size ->
  4 <= ver \/ ~ big_message size nreaders nxyz nv m -> use_padding size nreaders nxyz nv ver m = false.
Proof.
  intros H Hs. destruct (use_padding _ _ _ _ _ _) eqn:E; [|reflexivity].
  apply use_padding_iff in E; [|assumption]. destruct E, Hs; [lia|contradiction].
Qed.

Lemma mat_sorted_order A K (zero : A) (leb : K -> K -> bool) size nxyz nv ver content names sorted_names ts te dst order :
  (forall x y, leb x y = true \/ leb y x = true) ->
  (forall x y z, leb x y = true -> leb y z = true -> leb x z = true) ->
  (forall x y, leb x y = true -> leb y x = true -> x = y) ->
  Permutation sorted_names names -> StronglySorted (fun x y => leb x y = true) sorted_names ->
  dst < size -> (forall k, In k names -> length (content k) = nv) -> ts <= te <= length names ->
  Permutation order (seq 0 size) -> 4 <= ver \/ ~ big_message size size nxyz nv (te - ts) ->
  get_data_for_time_mat zero leb size nxyz nv ver content names ts te dst order
  = Ok (concat (map (own_points nxyz nv size dst)
      (window ts (te - ts) (map (fun k => mat_snapshot zero nxyz (content k)) sorted_names)))).
Proof.
  intros Ht Htr Ha Hp Hs Hd Hc Hte Ho Hu. rewrite get_data_for_time_mat_spec; try assumption; try lia.
  - assert (E : sort leb names = sorted_names).
    { apply (@sorted_unique K leb Ha); [now apply sort_sorted|assumption|].
      rewrite sort_perm. now symmetry. }
    rewrite E, window_app_l; [reflexivity|]. rewrite map_length, (Permutation_length Hp). lia.
  - apply use_padding_small; [lia|assumption].
Qed.

Lemma window_past {A} (R : list A) z t n : length R <= t -> t < n -> window t 1 (R ++ repeat z n) = [z].
Proof.
  intros H Hn. apply nth_error_ext. intros k. rewrite nth_error_window.
  destruct (Nat.ltb_spec k 1).
  - replace k with 0 by lia. rewrite nth_error_app2 by lia. rewrite nth_error_repeat by lia. reflexivity.
  - symmetry. apply nth_error_None. cbn. lia.
Qed.

Lemma window_repeat {A} (z : A) s n m : s + n <= m -> window s n (repeat z m) = repeat z n.
Proof.
  intros H. apply nth_error_ext. intros k. rewrite nth_error_window.
  destruct (Nat.ltb_spec k n); [now rewrite !nth_error_repeat by lia|].
  symmetry. apply nth_error_None. rewrite repeat_length. lia.
Qed.

Lemma own_points_zero {A} (z : A) nxyz nv size dst : dst < size ->
  own_points nxyz nv size dst (repeat z (nxyz * nv)) = repeat z (fst (blockdist nxyz size dst) * nv).
Proof.
  intros Hd. unfold own_points. rewrite bd_pair. pose proof (@bd_fits nxyz size dst Hd).
  cbn [fst]. apply window_repeat. nia.
Qed.

Lemma mat_stream_zero A K (zero : A) (leb : K -> K -> bool) size nxyz nv ver content names dst order t :
  dst < size -> (forall k, In k names -> length (content k) = nv) ->
  Permutation order (seq 0 size) -> 4 <= ver \/ ~ big_message size size nxyz nv 1 -> length names <= t ->
  get_data_for_time_mat zero leb size nxyz nv ver content names t (t + 1) dst order
  = Ok (repeat zero (fst (blockdist nxyz size dst) * nv)).
Proof.
  intros Hd Hc Ho Hu Ht. rewrite get_data_for_time_mat_spec; try assumption; try lia.
  - f_equal. replace (t + 1 - t) with 1 by lia. rewrite window_past; [|rewrite map_length, (Permutation_length (sort_perm leb names)); assumption|lia].
    cbn [map concat]. rewrite app_nil_r. now apply own_points_zero.
  - replace (t + 1 - t) with 1 by lia. apply use_padding_small; [lia|assumption].
Qed.

Lemma nc_stream_zero A (zero : A) size nreaders nxyz nv ver fs names dst order t :
  dst < size -> NoDup names -> (forall k, In k names -> nc_ok nxyz nv (fs k) /\ NoDup (nc_labels (fs k))) ->
  Permutation order (seq 0 size) -> 4 <= ver \/ ~ big_message size (nreaders_of nreaders size) nxyz nv 1 ->
  length (nc_record zero nxyz fs names) <= t ->
  get_data_for_time2 zero size (nreaders_of nreaders size) nxyz nv ver fs names t (t + 1) dst order
  = Ok (repeat zero (fst (blockdist nxyz size dst) * nv)).
Proof.
  intros Hd Hn Hk Ho Hu Ht. assert (Hr : 0 < nreaders_of nreaders size <= size) by (apply nreaders_of_ok; lia).
  rewrite get_data_for_time2_spec; try assumption; try lia.
  - f_equal. replace (t + 1 - t) with 1 by lia. rewrite window_past by lia.
    cbn [map concat]. rewrite app_nil_r. now apply own_points_zero.
  - intros k Hkk. destruct (Hk k Hkk) as [[H1 _] H2]. auto.
  - replace (t + 1 - t) with 1 by lia. apply use_padding_small; assumption.
Qed.
