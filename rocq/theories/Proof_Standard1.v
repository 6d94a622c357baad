(* Proofs: blocks from the chunked store, block files, shapes. *)
From Coq Require Import String.
From Verif Require Import Base_List Model_Parallel Spec_Array Proof_Parallel Model_Reader2 Spec_Reader2 Proof_Reader2 Model_Base Proof_Base
  Proof_Names Model_Standard.
Local Open Scope nat_scope.
Set Implicit Arguments.

Definition ranges {A} (st : list (nat * block A)) := map (fun e : nat * block A => (b_s (snd e), b_e (snd e))) st.
Definition holds {A} (rows : list A) (st : list (nat * block A)) :=
  forall k b, In (k, b) st -> b_v b = window (b_s b) (b_e b - b_s b) rows.

Lemma tiling_le a l b : tiling a l b -> a <= b.
Proof. revert a; induction l as [|[s e] l IH]; intros a; cbn; [lia|]. intros (-> & H & Ht). apply IH in Ht. lia. Qed.

Lemma block_loop_spec {A} (rows : list A) st end_ a cnt bstart out :
  tiling a (ranges st) (length rows) -> holds rows st -> end_ <= length rows ->
  bstart <= end_ -> a <= bstart \/ bstart = end_ ->
  block_loop st end_ cnt bstart out = (cnt + (end_ - bstart), out ++ window bstart (end_ - bstart) rows).
Proof.
  revert a cnt bstart out; induction st as [|[k b] st IH]; intros a cnt bstart out Ht Hv He Hb Ha.
  - cbn in Ht. cbn [block_loop]. replace (end_ - bstart) with 0 by lia. rewrite window_0, app_nil_r. f_equal. lia.
  - cbn [ranges map] in Ht. destruct Ht as (Hs & Hse & Ht). cbn [snd] in *. fold (ranges st) in Ht.
    cbn [block_loop]. assert (Hv' : holds rows st) by (intros k' b' H; apply (Hv k'); now right).
    pose proof (@tiling_le _ _ _ Ht) as Hle.
    destruct (Nat.ltb_spec 0 (min (b_e b) end_ - max (b_s b) bstart)) as [Hc|Hc].
    + rewrite (IH (b_e b)) by (try assumption; lia).
      rewrite (Hv k b) by now left.
      replace (max (b_s b) bstart) with bstart by lia.
      rewrite window_window by lia. replace (b_s b + (bstart - b_s b)) with bstart by lia.
      rewrite <- app_assoc. rewrite window_app. f_equal; [lia|]. f_equal. f_equal. lia.
    + rewrite (IH (b_e b)) by (try assumption; lia). reflexivity.
Qed.

Lemma last_In {A} (l : list A) d : l <> [] -> In (last l d) l.
Proof. induction l as [|y l IH]; [congruence|]. intros _. destruct l; [now left|]. right. apply IH. discriminate. Qed.
Lemma drop_old_id {A} start a b (st : list (nat * block A)) : tiling a (ranges st) b -> start <= a -> drop_old start st = st.
Proof.
  revert a; induction st as [|[k v] st IH]; intros a Ht Ha; [reflexivity|].
  cbn [ranges map] in Ht. destruct Ht as (Hs & Hse & Ht). cbn [snd] in *. unfold drop_old. cbn [filter snd].
  destruct (Nat.ltb_spec (b_e v) start) as [Hx|Hx]; [lia|]. cbn [negb]. f_equal. eapply IH; [exact Ht|lia].
Qed.
Lemma drop_old_spec {A} start a b (st : list (nat * block A)) : tiling a (ranges st) b -> a <= start -> start < b ->
  exists a', a' <= start /\ tiling a' (ranges (drop_old start st)) b.
Proof.
  revert a; induction st as [|[k v] st IH]; intros a Ht Ha Hb; [cbn in Ht; lia|].
  cbn [ranges map] in Ht. destruct Ht as (Hs & Hse & Ht). cbn [snd] in *. unfold drop_old. cbn [filter snd].
  destruct (Nat.ltb_spec (b_e v) start) as [Hx|Hx]; cbn [negb].
  - apply (IH (b_e v)); [exact Ht|lia|assumption].
  - exists a. split; [assumption|]. change (filter _ st) with (drop_old start st).
    rewrite (@drop_old_id A start (b_e v) b st Ht Hx). cbn [ranges map snd]. repeat split; try assumption.
Qed.
Lemma drop_old_last {A} start (st : list (nat * block A)) d : st <> [] -> start <= b_e (snd (last st d)) ->
  last (drop_old start st) d = last st d.
Proof.
  induction st as [|[k v] st IH]; intros Hn H; [congruence|]. unfold drop_old. cbn [filter snd].
  destruct st as [|x st].
  - cbn [last snd] in H. cbn [filter]. destruct (Nat.ltb_spec (b_e v) start); [lia|reflexivity].
  - change (last ((k, v) :: x :: st) d) with (last (x :: st) d) in *.
    specialize (IH ltac:(discriminate) H). unfold drop_old in IH.
    destruct (negb _); [|exact IH]. destruct (filter _ (x :: st)) eqn:E; [|exact IH].
    exfalso. cbn in E.
    assert (Hin : In (last (x :: st) d) (x :: st)).
    { apply last_In. discriminate. }
    change (filter (fun kb : nat * block A => negb (b_e (snd kb) <? start)) (x :: st) = []) in E.
    assert (In (last (x :: st) d) (filter (fun kb : nat * block A => negb (b_e (snd kb) <? start)) (x :: st))).
    { apply filter_In. split; [exact Hin|]. destruct (Nat.ltb_spec (b_e (snd (last (x :: st) d))) start); [lia|reflexivity]. }
    match goal with H : In _ (filter _ _) |- _ => rewrite E in H; destruct H end.
Qed.
Lemma tiling_last {A} a (st : list (nat * block A)) b d : tiling a (ranges st) b -> st <> [] -> b_e (snd (last st d)) = b.
Proof.
  revert a; induction st as [|[k v] st IH]; intros a Ht Hn; [congruence|].
  cbn [ranges map] in Ht. destruct Ht as (Hs & Hse & Ht). cbn [snd] in *. destruct st as [|x st]; [exact Ht|].
  apply (IH (b_e v) Ht). discriminate.
Qed.

Lemma run_blocks_spec {A} (rows : list A) n_dft hop nb st a k0 :
  0 < n_dft -> tiling a (ranges st) (length rows) -> holds rows st ->
  b_v (snd (last st (0, Block 0 0 []))) <> [] ->
  (forall i, k0 <= i < k0 + nb -> i * hop + n_dft <= length rows) -> a <= k0 * hop ->
  run_blocks st n_dft (map (fun i => i * hop) (seq k0 nb)) = Ok (map (fun i => window (i * hop) n_dft rows) (seq k0 nb)).
Proof.
  intros Hn. revert k0 st a; induction nb as [|nb IH]; intros k0 st a Ht Hv Hl Hfit Ha; [reflexivity|].
  cbn [seq map run_blocks]. pose proof (Hfit k0 ltac:(lia)) as Hf.
  assert (Hst : st <> []) by (intros ->; cbn in Ht; lia).
  unfold get_block_store. destruct st as [|x st'] eqn:Est; [congruence|]. rewrite <- Est in *.
  rewrite (@block_loop_spec A rows st _ a) by (try assumption; lia).
  replace (k0 * hop + n_dft - k0 * hop) with n_dft by lia. cbn [plus]. rewrite Nat.eqb_refl. cbn [negb].
  destruct (b_v (snd (last st (0, Block 0 0 [])))) eqn:El; [congruence|]. cbn [bind fst snd app].
  destruct (@drop_old_spec A (k0 * hop) a (length rows) st Ht Ha ltac:(lia)) as (a' & Ha' & Ht').
  rewrite (IH (S k0) (drop_old (k0 * hop) st) a'); try assumption.
  - reflexivity.
  - intros k' b' Hin. apply (Hv k'). unfold drop_old in Hin. apply filter_In in Hin. apply Hin.
  - rewrite drop_old_last; [congruence|assumption|]. rewrite (@tiling_last A a st (length rows)) by assumption. lia.
  - intros i Hi. apply Hfit. lia.
  - nia.
Qed.

(* ---- shapes ---- *)
Lemma matrix_shape_ok xv nb : 2 <= nb -> xv <> 1 -> spod_matrix_shape xv nb = Ok [nb; nb].
Proof.
  intros H Hx. unfold spod_matrix_shape, squeeze. cbn [filter].
  destruct (Nat.eqb_spec xv 1); [lia|]. destruct (Nat.eqb_spec nb 1); [lia|]. cbn [negb].
  unfold broadcast. cbn [rev app broadcast_rev bind]. rewrite Nat.eqb_refl.
  destruct (Nat.eqb_spec nb 1); [lia|]. cbn [bind]. cbn [Nat.eqb rev app bind matmul_shape].
  rewrite Nat.eqb_refl. reflexivity.
Qed.
Lemma matrix_shape_err nb : 2 <= nb -> spod_matrix_shape 1 nb = Err ValueError.
Proof.
  intros H. unfold spod_matrix_shape, squeeze. cbn [filter Nat.eqb negb].
  destruct (Nat.eqb_spec nb 1); [lia|]. cbn [negb].
  unfold broadcast. cbn [rev app broadcast_rev bind].
  destruct (Nat.eqb_spec nb 1); [lia|]. cbn [bind rev app Nat.eqb].
  unfold matmul_shape. destruct (Nat.eqb_spec nb 1); [lia|reflexivity].
Qed.
