From Coq Require Import Permutation.
From Verif Require Import Base_List Model_Parallel Proof_Parallel Proof_Npy Proof_Npy2 Proof_Reader1
  Model_Reader2 Spec_Reader2.
Set Implicit Arguments.

Lemma window_clip_seq a b n : window a b (seq 0 n) = seq a (min b (n - a)).
Proof.
  apply nth_error_ext. intros k. rewrite nth_error_window, !nth_error_seq.
  destruct (Nat.ltb_spec k b), (Nat.ltb_spec k (min b (n - a))), (Nat.ltb_spec (a + k) n); try lia; try reflexivity.
Qed.

(* ---------- put ---------- *)
Lemma put_length {A} (l : list A) off msg : off + length msg <= length l -> length (put l off msg) = length l.
Proof. intros. unfold put. rewrite !app_length, firstn_length, skipn_length. lia. Qed.

Lemma nth_error_put {A} (l : list A) off msg k : off + length msg <= length l ->
  nth_error (put l off msg) k =
  if (off <=? k) && (k <? off + length msg) then nth_error msg (k - off) else nth_error l k.
Proof.
  intros H. unfold put. destruct (Nat.leb_spec off k); cbn [andb].
  - rewrite nth_error_app2; rewrite firstn_length, Nat.min_l by lia; [|lia].
    destruct (Nat.ltb_spec k (off + length msg)).
    + rewrite nth_error_app1 by lia. reflexivity.
    + rewrite nth_error_app2 by lia. rewrite nth_error_skipn. f_equal. lia.
  - rewrite nth_error_app1 by (rewrite firstn_length; lia). now rewrite nth_error_firstn_lt by lia.
Qed.

(* messages that agree with a target assemble the target, in any order *)
Lemma puts_assemble {A} (T : list A) (off len : nat -> nat) (msg : nat -> list A) (order : list nat) :
  (forall q, In q order -> off q + len q <= length T) ->
  (forall q, In q order -> msg q = window (off q) (len q) T) ->
  forall init, length init = length T ->
  let r := fold_left (fun data q => put data (off q) (msg q)) order init in
  length r = length T /\
  (forall k, nth_error init k = nth_error T k -> nth_error r k = nth_error T k) /\
  (forall q k, In q order -> off q <= k < off q + len q -> nth_error r k = nth_error T k).
Proof.
  induction order as [|q order IH]; intros Hb Hm init Hi; cbn [fold_left].
  - split; [assumption|]. split; [tauto|]. intros q k [].
  - assert (Hlen : length (msg q) = len q).
    { rewrite Hm by (left; reflexivity). apply window_length_le, Hb. now left. }
    assert (Hbq := Hb q (or_introl eq_refl)).
    assert (Hput : forall k, nth_error init k = nth_error T k ->
                   nth_error (put init (off q) (msg q)) k = nth_error T k).
    { intros k Hk. rewrite nth_error_put by lia. rewrite Hlen.
      destruct ((off q <=? k) && (k <? off q + len q)) eqn:E; [|assumption].
      rewrite Hm by (now left). rewrite nth_error_window. apply andb_prop in E as [E1 E2].
      replace (k - off q <? len q) with true by lia. f_equal. lia. }
    destruct (IH (fun q' H => Hb q' (or_intror H)) (fun q' H => Hm q' (or_intror H))
                 (put init (off q) (msg q))) as (L & K & C).
    { rewrite put_length by lia. assumption. }
    split; [assumption|]. split.
    + intros k Hk. apply K, Hput, Hk.
    + intros q' k [<-|Hq] Hk; [|now apply (C q')].
      apply K. rewrite nth_error_put by lia. rewrite Hlen.
      replace ((off q <=? k) && (k <? off q + len q)) with true by lia.
      rewrite Hm by (now left). rewrite nth_error_window.
      replace (k - off q <? len q) with true by lia. f_equal. lia.
Qed.

(* ---------- redistribution ---------- *)
Lemma offset_reader nreaders m q : q < nreaders -> offset nreaders m q = bd_s m nreaders q.
Proof. intros. unfold offset. symmetry. now apply bd_start_prefix. Qed.

Lemma offset_other nreaders m q : 0 < nreaders -> nreaders <= q -> offset nreaders m q = m.
Proof.
  intros H Hq. unfold offset. replace q with (nreaders + (q - nreaders)) by lia.
  rewrite seq_app, map_app, sum_app. change (map (fun q0 => fst (blockdist m nreaders q0)) (seq 0 nreaders)) with (map (bd_n m nreaders) (seq 0 nreaders)). rewrite (bd_sum_all m H).
  assert (E : forall l, (forall x, In x l -> nreaders <= x) ->
     sum (map (fun q0 => fst (blockdist m nreaders q0)) l) = 0).
  { induction l as [|x l IH]; intros Hx; [reflexivity|]. cbn [map]. rewrite sum_cons.
    rewrite bd_outside by (apply Hx; now left). rewrite IH; [reflexivity|]. intros; apply Hx; now right. }
  rewrite E; [lia|]. intros x Hx. apply in_seq in Hx. lia.
Qed.

Lemma map_const_length {A} (f : list A -> list A) w (ls : list (list A)) :
  (forall l, In l ls -> length (f l) = w) -> forall l, In l (map f ls) -> length l = w.
Proof. intros H l Hl. apply in_map_iff in Hl as [x [<- Hx]]. auto. Qed.

Lemma receive_all_spec {A} (zero : A) size nreaders nxyz nv input (rws : list (list A)) m dst order :
  0 < nreaders <= size -> dst < size -> length rws = m ->
  (forall r, In r rws -> length r = nxyz * nv) ->
  (forall q, q < size -> input q = window (bd_s m nreaders q) (bd_n m nreaders q) rws) ->
  Permutation order (seq 0 size) ->
  receive_all zero size nreaders nxyz nv input m dst order
  = concat (map (own_points nxyz nv size dst) rws).
Proof.
  intros Hr Hd Hm Hrow Hin Hp.
  set (n := bd_n nxyz size dst). set (s := bd_s nxyz size dst).
  assert (Hsn : s + n <= nxyz) by (apply bd_fits; lia).
  assert (Hown : forall r : list A, own_points nxyz nv size dst r = window (s * nv) (n * nv) r).
  { intros r. unfold own_points, s, n, bd_s, bd_n. now destruct (blockdist nxyz size dst). }
  rewrite (map_ext _ _ Hown).
  set (T := concat (map (window (s * nv) (n * nv)) rws)).
  assert (Hlen : forall l, In l (map (window (s * nv) (n * nv)) rws) -> length l = n * nv).
  { apply map_const_length. intros l Hl. rewrite window_length, (Hrow l Hl). nia. }
  assert (HT : length T = m * (n * nv)).
  { unfold T. rewrite (concat_length_const _ Hlen), map_length. lia. }
  assert (Hin_order : forall q, In q order <-> q < size).
  { intros q. rewrite (Permutation_in' eq_refl Hp), in_seq. lia. }
  set (off := fun q => offset nreaders m q * (n * nv)).
  set (len := fun q => bd_n m nreaders q * (n * nv)).
  assert (Hfit : forall q, offset nreaders m q + bd_n m nreaders q <= m).
  { intros q. destruct (Nat.lt_ge_cases q nreaders) as [H|H].
    - rewrite offset_reader by lia. now apply bd_fits.
    - rewrite offset_other by lia. unfold bd_n. rewrite bd_outside by lia. cbn [fst]. lia. }
  destruct (@puts_assemble A T off len (fun q => message size nxyz nv input q dst) order) with (init := repeat zero (m * (n * nv))) as (L & _ & C).
  - intros q _. unfold off, len. rewrite HT, <- Nat.mul_add_distr_r. apply Nat.mul_le_mono_r, Hfit.
  - intros q Hq. apply Hin_order in Hq. unfold message.
    replace (blockdist nxyz size dst) with (n, s) by (unfold n, s, bd_n, bd_s; now destruct (blockdist nxyz size dst)).
    rewrite Hin by assumption. unfold off, len, T.
    specialize (Hfit q).
    rewrite window_concat_block; [|assumption|rewrite map_length; lia].
    rewrite <- map_window. f_equal. f_equal.
    destruct (Nat.lt_ge_cases q nreaders) as [H|H].
    + now rewrite offset_reader.
    + unfold bd_n. rewrite bd_outside by lia. cbn [fst]. now rewrite !window_0.
  - rewrite repeat_length. now rewrite HT.
  - unfold receive_all.
    change (fst (blockdist nxyz size dst)) with n.
    apply nth_error_ext. intros k. destruct (Nat.lt_ge_cases k (m * (n * nv))) as [Hk|Hk].
    + assert (Hw : 0 < n * nv) by nia.
      destruct (@bd_locate m nreaders (k / (n * nv))) as (q & (Hq & Hq1) & _); [lia| |].
      { apply Nat.div_lt_upper_bound; lia. }
      apply (C q); [apply Hin_order; lia|]. unfold off, len. rewrite offset_reader by lia.
      pose proof (Nat.div_mod_eq k (n * nv)) as E1. pose proof (Nat.mod_upper_bound k (n * nv) ltac:(lia)) as E2.
      set (d := k / (n * nv)) in *. set (e := k mod (n * nv)) in *. clearbody d e. clear -Hq1 E1 E2.
      nia.
    + rewrite !(proj2 (nth_error_None _ _)); [reflexivity|lia|]. unfold off in L. rewrite L. lia.
Qed.

(* ---------- label selection ---------- *)
Lemma index_of_le x l k : nth_error l k = Some x -> index_of x l <= k.
Proof.
  revert k; induction l as [|y l IH]; intros k H; [destruct k; discriminate|].
  cbn [index_of]. destruct (Z.eqb_spec x y); [lia|]. destruct k; cbn in H; [congruence|].
  specialize (IH _ H). lia.
Qed.
Lemma index_of_hit x l k : nth_error l k = Some x -> nth_error l (index_of x l) = Some x.
Proof.
  revert k; induction l as [|y l IH]; intros k H; [destruct k; discriminate|].
  cbn [index_of]. destruct (Z.eqb_spec x y); [subst; reflexivity|]. destruct k; cbn in H; [congruence|].
  cbn. eauto.
Qed.
Lemma nth_error_rev {A} (l : list A) k : k < length l -> nth_error (rev l) k = nth_error l (length l - S k).
Proof.
  intros H. destruct l as [|d l0] eqn:E; [cbn in H; lia|]. rewrite <- E in *. clear E l0.
  rewrite (nth_error_nth' (rev l) d) by (rewrite rev_length; lia).
  rewrite (nth_error_nth' l d) by lia. now rewrite rev_nth by lia.
Qed.
Lemma nth_error_lt {A} (l : list A) k x : nth_error l k = Some x -> k < length l.
Proof. intros H. apply nth_error_Some. congruence. Qed.
Lemma last_index_ge x l k : nth_error l k = Some x -> k <= last_index_of x l.
Proof.
  intros H. unfold last_index_of. pose proof (nth_error_lt _ _ H).
  assert (E : nth_error (rev l) (length l - S k) = Some x).
  { rewrite nth_error_rev by lia. replace (length l - S (length l - S k)) with k by lia. assumption. }
  apply index_of_le in E. lia.
Qed.
Lemma last_index_hit x l k : nth_error l k = Some x -> nth_error l (last_index_of x l) = Some x.
Proof.
  intros H. pose proof (nth_error_lt _ _ H) as Hk. unfold last_index_of.
  assert (E : nth_error (rev l) (length l - S k) = Some x).
  { rewrite nth_error_rev by lia. replace (length l - S (length l - S k)) with k by lia. assumption. }
  pose proof (index_of_hit _ _ E) as E'. pose proof (nth_error_lt _ _ E'). rewrite rev_length in *.
  rewrite nth_error_rev in E' by lia. rewrite <- E'. f_equal. lia.
Qed.

Lemma sel_unique labels a cnt : NoDup labels -> 0 < cnt -> a + cnt <= length labels ->
  sel labels (nth a labels 0%Z) (nth (a + cnt - 1) labels 0%Z) = Ok (seq a cnt).
Proof.
  intros Hn Hc Hl.
  assert (U : forall k, k < length labels ->
     index_of (nth k labels 0%Z) labels = k /\ last_index_of (nth k labels 0%Z) labels = k).
  { intros k Hk. pose proof (nth_error_nth' labels 0%Z Hk) as E.
    rewrite NoDup_nth_error in Hn. split.
    - apply Hn. { pose proof (index_of_hit _ _ E). eapply nth_error_lt; eauto. }
      rewrite (index_of_hit _ _ E). now rewrite E.
    - apply Hn. { pose proof (last_index_hit _ _ E). eapply nth_error_lt; eauto. }
      rewrite (last_index_hit _ _ E). now rewrite E. }
  unfold sel, contiguous.
  destruct (U a ltac:(lia)) as [-> ->]. destruct (U (a + cnt - 1) ltac:(lia)) as [-> ->].
  replace (S a - a) with 1 by lia. replace (S (a + cnt - 1) - (a + cnt - 1)) with 1 by lia.
  cbn [seq forallb]. rewrite !Z.eqb_refl. cbn [andb]. f_equal. f_equal. lia.
Qed.

(* the selection always covers the requested rows *)
Lemma sel_covers labels a cnt idx : 0 < cnt -> a + cnt <= length labels ->
  sel labels (nth a labels 0%Z) (nth (a + cnt - 1) labels 0%Z) = Ok idx ->
  exists s e, idx = seq s (e - s) /\ s <= a /\ a + cnt <= e /\
    (forall k, nth_error labels k = Some (nth a labels 0%Z) -> s <= k) /\
    (forall k, nth_error labels k = Some (nth (a + cnt - 1) labels 0%Z) -> k < e).
Proof.
  intros Hc Hl. unfold sel. destruct (_ && _); [|discriminate]. intros H; injection H as <-.
  exists (index_of (nth a labels 0%Z) labels), (S (last_index_of (nth (a + cnt - 1) labels 0%Z) labels)).
  split; [reflexivity|].
  pose proof (nth_error_nth' labels 0%Z (n := a) ltac:(lia)) as Ea.
  pose proof (nth_error_nth' labels 0%Z (n := a + cnt - 1) ltac:(lia)) as Eb.
  pose proof (index_of_le _ _ Ea). pose proof (last_index_ge _ _ Eb).
  repeat split; [lia|lia| |].
  - intros k Hk. now apply index_of_le.
  - intros k Hk. apply last_index_ge in Hk. lia.
Qed.

Section Nc.
Context {A : Type}.
Variable zero : A.

Lemma interleave_snapshot nxyz (f : ncfile A) i :
  interleave zero nxyz (map (fun v => nth i v []) (nc_vars f)) = nc_snapshot zero nxyz f i.
Proof.
  unfold interleave, nc_snapshot. rewrite flat_map_concat_map. f_equal. apply map_ext. intros x.
  now rewrite map_map.
Qed.

Lemma read_file_unique nxyz (f : ncfile A) a cnt :
  NoDup (nc_labels f) -> 0 < cnt -> a + cnt <= length (nc_labels f) ->
  read_file zero nxyz f a cnt = Ok (map (nc_snapshot zero nxyz f) (seq a cnt)).
Proof.
  intros Hn Hc Hl. unfold read_file. rewrite sel_unique by assumption. cbn [bind].
  rewrite map_length, seq_length, Nat.eqb_refl. f_equal. apply map_ext. intros; apply interleave_snapshot.
Qed.

Lemma read_file_exact nxyz (f : ncfile A) a cnt got :
  0 < cnt -> a + cnt <= length (nc_labels f) ->
  read_file zero nxyz f a cnt = Ok got -> got = map (nc_snapshot zero nxyz f) (seq a cnt).
Proof.
  intros Hc Hl. unfold read_file.
  destruct (sel _ _ _) as [idx|] eqn:E; cbn [bind]; [|discriminate].
  destruct (sel_covers _ _ Hc Hl E) as (s & e & -> & H1 & H2 & _). rewrite map_length, seq_length.
  destruct (Nat.eqb_spec (e - s) cnt) as [H|H].
  - intros [= <-]. replace (e - s) with cnt by lia. replace s with a by lia.
    apply map_ext. intros; apply interleave_snapshot.
  - destruct (map _ _) as [|r1 [|r2 rr]] eqn:E2; try discriminate.
    apply (f_equal (@length _)) in E2. rewrite map_length, seq_length in E2. cbn in E2. lia.
Qed.

Lemma read_file_duplicate nxyz (f : ncfile A) a cnt k :
  0 < cnt -> a + cnt <= length (nc_labels f) -> k < length (nc_labels f) ->
  (k < a /\ nth k (nc_labels f) 0%Z = nth a (nc_labels f) 0%Z \/
   a + cnt <= k /\ nth k (nc_labels f) 0%Z = nth (a + cnt - 1) (nc_labels f) 0%Z) ->
  read_file zero nxyz f a cnt = Err ValueError \/ read_file zero nxyz f a cnt = Err KeyError.
Proof.
  intros Hc Hl Hk Hd. unfold read_file.
  destruct (sel _ _ _) as [idx|] eqn:E; cbn [bind].
  - destruct (sel_covers _ _ Hc Hl E) as (s & e & -> & H1 & H2 & H3 & H4). left.
    assert (Hek := nth_error_nth' (nc_labels f) 0%Z Hk). rewrite map_length, seq_length.
    assert (cnt < e - s).
    { destruct Hd as [[Hd Hd']|[Hd Hd']]; rewrite Hd' in Hek; [apply H3 in Hek|apply H4 in Hek]; lia. }
    destruct (Nat.eqb_spec (e - s) cnt) as [H0|H0]; [lia|].
    destruct (map _ _) as [|r1 [|r2 rr]] eqn:E2; try reflexivity.
    apply (f_equal (@length _)) in E2. rewrite map_length, seq_length in E2. cbn in E2. lia.
  - unfold sel in E. destruct (_ && _); [discriminate|]. injection E as <-. now right.
Qed.

(* ---------- the file table and the loop over files ---------- *)
Fixpoint table (fs : nat -> ncfile A) (cum : nat) (names : list nat) : list (nat * (nat * nat)) :=
  match names with
  | [] => []
  | k :: names' => (k, (cum, cum + steps (fs k))) :: table fs (cum + steps (fs k)) names'
  end.

Lemma dict_set_new {V} (d : list (nat * V)) k v : ~ In k (map fst d) -> dict_set d k v = d ++ [(k, v)].
Proof.
  induction d as [|[k' v'] d IH]; intros H; [reflexivity|]. cbn in *.
  destruct (Nat.eqb_spec k k'); [subst; tauto|]. rewrite IH by tauto. reflexivity.
Qed.

Lemma file_time_table_gen fs names cum d :
  NoDup names -> (forall k, In k names -> ~ In k (map fst d)) ->
  snd (fold_left (fun '(nt, d) k => (nt + steps (fs k), dict_set d k (nt, nt + steps (fs k))))
                 names (cum, d)) = d ++ table fs cum names.
Proof.
  revert cum d; induction names as [|k names IH]; intros cum d Hn Hd; [cbn; now rewrite app_nil_r|].
  cbn [fold_left table]. inversion Hn; subst. rewrite IH.
  - rewrite dict_set_new by (apply Hd; now left). rewrite <- app_assoc. reflexivity.
  - assumption.
  - intros k' Hk'. rewrite dict_set_new by (apply Hd; now left). rewrite map_app, in_app_iff.
    intros [H|[H|[]]]; [now apply (Hd k'); [right|]|]. cbn in H. now subst.
Qed.

Lemma file_time_table (fs : nat -> ncfile A) names : NoDup names -> file_time fs names = table fs 0 names.
Proof. intros H. unfold file_time. rewrite file_time_table_gen; [reflexivity|assumption|]. intros ? ? []. Qed.

Lemma skipn_all_ge {B} n (l : list B) : length l <= n -> skipn n l = [].
Proof. intros. apply skipn_all2. lia. Qed.

Lemma read_loop_spec nxyz fs names js je cum acc :
  (forall k, In k names -> NoDup (nc_labels (fs k))) -> js <= je ->
  read_loop zero nxyz fs (table fs cum names) js je cum acc
  = Ok (acc ++ skipn (js - cum) (firstn (je - cum) (nc_record zero nxyz fs names))).
Proof.
  intros Hn Hj. revert cum acc; induction names as [|k names IH]; intros cum acc.
  - cbn. now rewrite firstn_nil, skipn_nil, app_nil_r.
  - cbn [table read_loop]. rewrite Nat.eqb_refl. cbn [negb].
    replace (cum + steps (fs k) - cum) with (steps (fs k)) by lia.
    set (m := steps (fs k)).
    assert (IH' := IH (fun k0 H => Hn k0 (or_intror H))).
    set (R' := nc_record zero nxyz fs names) in *.
    set (F := map (nc_snapshot zero nxyz (fs k)) (seq 0 m)).
    assert (HF : length F = m) by (unfold F; now rewrite map_length, seq_length).
    change (nc_record zero nxyz fs (k :: names)) with (F ++ R').
    rewrite firstn_app, HF, skipn_app, firstn_length, HF.
    assert (E2 : skipn (js - cum - min (je - cum) m) (firstn (je - cum - m) R')
                 = skipn (js - (cum + m)) (firstn (je - (cum + m)) R')).
    { replace (je - (cum + m)) with (je - cum - m) by lia.
      destruct (Nat.lt_ge_cases m (je - cum)).
      - f_equal; lia.
      - replace (je - cum - m) with 0 by lia. cbn [firstn]. now rewrite !skipn_nil. }
    rewrite E2.
    destruct (Nat.ltb_spec (max cum js) (min (cum + m) je)) as [H|H].
    + rewrite read_file_unique; [|apply Hn; now left|lia|unfold steps in m; fold m; lia].
      cbn [bind]. rewrite IH', <- app_assoc. f_equal. f_equal. f_equal.
      transitivity (window (js - cum) (je - cum - (js - cum)) F).
      * unfold F. rewrite <- map_window, window_clip_seq. f_equal. f_equal; lia.
      * unfold window. now rewrite skipn_firstn_comm.
    + rewrite IH'. f_equal. f_equal.
      rewrite (@skipn_all_ge _ (js - cum) (firstn (je - cum) F)); [reflexivity|].
      rewrite firstn_length, HF. lia.
Qed.
End Nc.
