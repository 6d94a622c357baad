From Verif Require Import Base_List Model_Parallel Spec_Array.
Set Implicit Arguments.

(* ---------- blockdist ---------- *)
Definition bd_n N size r := fst (blockdist N size r).
Definition bd_s N size r := snd (blockdist N size r).

Lemma bd_n_eq N size r : r < size ->
  bd_n N size r = N / size + (if r <? N mod size then 1 else 0).
Proof. intros H. unfold bd_n, blockdist. now replace (r <? size) with true by lia. Qed.

Lemma bd_s_eq N size r : r < size -> bd_s N size r = r * (N / size) + min r (N mod size).
Proof. intros H. unfold bd_s, blockdist. now replace (r <? size) with true by lia. Qed.

Lemma bd_sum_prefix N size r : r <= size ->
  sum (map (bd_n N size) (seq 0 r)) = r * (N / size) + min r (N mod size).
Proof.
  induction r as [|r IH]; intros H; [reflexivity|].
  rewrite seq_S, map_app, sum_app, IH by lia. cbn [map sum fold_right Nat.add].
  rewrite bd_n_eq by lia. destruct (Nat.ltb_spec r (N mod size)); lia.
Qed.

Lemma bd_start_prefix N size r : r < size -> bd_s N size r = sum (map (bd_n N size) (seq 0 r)).
Proof. intros. rewrite bd_sum_prefix by lia. now apply bd_s_eq. Qed.

Lemma bd_sum_all N size : 0 < size -> sum (map (bd_n N size) (seq 0 size)) = N.
Proof.
  intros H. rewrite bd_sum_prefix by lia.
  rewrite Nat.min_r by (pose proof (Nat.mod_upper_bound N size); lia).
  symmetry. apply Nat.div_mod. lia.
Qed.

Lemma bd_displs N size : displs 0 (map (bd_n N size) (seq 0 size)) = map (bd_s N size) (seq 0 size).
Proof.
  apply nth_ext with (d := 0) (d' := 0).
  - rewrite displs_length, !map_length. reflexivity.
  - intros r Hr. rewrite displs_length, map_length, seq_length in Hr.
    rewrite displs_nth by (rewrite map_length, seq_length; lia).
    rewrite nth_map_seq0 by lia. rewrite bd_start_prefix by lia.
    rewrite firstn_map. replace (firstn r (seq 0 size)) with (seq 0 r); [reflexivity|].
    change (firstn r (seq 0 size)) with (window 0 r (seq 0 size)).
    symmetry. rewrite window_seq by lia. reflexivity.
Qed.

Lemma bd_fits N size r : r < size -> bd_s N size r + bd_n N size r <= N.
Proof.
  intros H. rewrite <- (bd_sum_all N (size:=size)) at 3 by lia.
  rewrite bd_start_prefix by lia.
  replace size with (S r + (size - S r)) at 4 by lia.
  rewrite seq_app, map_app, sum_app, seq_S, map_app, sum_app. cbn [map sum fold_right Nat.add]. lia.
Qed.

Lemma bd_balanced N size r r' : r <= r' -> r' < size ->
  bd_n N size r' <= bd_n N size r <= bd_n N size r' + 1.
Proof.
  intros H H'. rewrite !bd_n_eq by lia.
  destruct (Nat.ltb_spec r (N mod size)), (Nat.ltb_spec r' (N mod size)); lia.
Qed.

Lemma bd_outside N size r : size <= r -> blockdist N size r = (0, 0).
Proof. intros. unfold blockdist. now replace (r <? size) with false by lia. Qed.

Lemma seq_displs_concat d cs :
  concat (map (fun p => seq (fst p) (snd p)) (combine (displs d cs) cs)) = seq d (sum cs).
Proof.
  revert d; induction cs as [|c cs IH]; intros d; simpl; [reflexivity|].
  rewrite IH. now rewrite <- seq_app.
Qed.

Lemma combine_map_same {A B C} (f : A -> B) (g : A -> C) l :
  combine (map f l) (map g l) = map (fun x => (f x, g x)) l.
Proof. induction l; simpl; congruence. Qed.

Lemma bd_ranges_concat N size : 0 < size ->
  concat (map (fun r => seq (snd (blockdist N size r)) (fst (blockdist N size r))) (seq 0 size))
  = seq 0 N.
Proof.
  intros H. transitivity (seq 0 (sum (map (bd_n N size) (seq 0 size)))); [|now rewrite bd_sum_all].
  rewrite <- seq_displs_concat, bd_displs, combine_map_same, map_map. reflexivity.
Qed.

(* position of a global index: exactly one rank *)
Lemma displs_locate d cs k : d <= k < d + sum cs ->
  exists! r, r < length cs /\ nth r (displs d cs) 0 <= k < nth r (displs d cs) 0 + nth r cs 0.
Proof.
  revert d; induction cs as [|c cs IH]; intros d H; simpl in *; [lia|].
  destruct (Nat.lt_ge_cases k (d + c)) as [Hk|Hk].
  - exists 0. split; [simpl; lia|]. intros [|r] [Hr Hkr]; [reflexivity|exfalso].
    simpl in *. rewrite displs_nth in Hkr by lia. lia.
  - destruct (IH (d + c)) as [r [[Hr Hkr] Hu]]; [lia|].
    exists (S r). split; [simpl; split; [lia|assumption]|].
    intros [|r'] [Hr' Hkr']; [simpl in *; lia|]. f_equal. apply Hu. simpl in *. split; [lia|assumption].
Qed.

Lemma bd_locate N size k : 0 < size -> k < N ->
  exists! r, r < size /\ bd_s N size r <= k < bd_s N size r + bd_n N size r.
Proof.
  intros H Hk.
  destruct (@displs_locate 0 (map (bd_n N size) (seq 0 size)) k) as [r [[Hr Hkr] Hu]].
  { rewrite bd_sum_all by assumption. lia. }
  rewrite map_length, seq_length in Hr. rewrite bd_displs in Hkr.
  rewrite !nth_map_seq0 in Hkr by assumption.
  exists r. split; [auto|]. intros r' [Hr' Hkr']. apply Hu.
  rewrite map_length, seq_length, bd_displs. rewrite !nth_map_seq0 by assumption. auto.
Qed.

(* ---------- slicing ---------- *)
Lemma idx_bound outer N inner s n o : o < outer -> s + n <= N ->
  (o * N + s) * inner + n * inner <= outer * N * inner.
Proof. intros. assert (o * N + s + n <= outer * N) by nia. nia. Qed.

Lemma row_bound outer c inner o : o < outer -> o * (c * inner) + c * inner <= outer * c * inner.
Proof. intros. assert (o * c + c <= outer * c) by nia. nia. Qed.

Section Slice.
Context {A : Type}.
Implicit Types l : list A.

Lemma slice_piece_len outer N inner s n l o :
  length l = outer * N * inner -> s + n <= N -> o < outer ->
  length (window ((o * N + s) * inner) (n * inner) l) = n * inner.
Proof. intros Hl Hs Ho. rewrite window_length_le; [reflexivity|]. rewrite Hl.
  assert (o * N + s + n <= outer * N) by nia. nia. Qed.

Lemma slice_flat_length outer N inner s n l :
  length l = outer * N * inner -> s + n <= N ->
  length (slice_flat outer N inner s n l) = outer * n * inner.
Proof.
  intros Hl Hs. unfold slice_flat. rewrite (@concat_length_const _ _ (n * inner)).
  - rewrite map_length, seq_length. lia.
  - intros w Hw. apply in_map_iff in Hw as [o [<- Ho]]. apply in_seq in Ho.
    eapply slice_piece_len; eauto; lia.
Qed.

Lemma slice_flat_nth outer N inner s n l o k i :
  length l = outer * N * inner -> s + n <= N -> o < outer -> k < n -> i < inner ->
  nth_error (slice_flat outer N inner s n l) ((o * n + k) * inner + i)
  = nth_error l ((o * N + (k + s)) * inner + i).
Proof.
  intros Hl Hs Ho Hk Hi. unfold slice_flat.
  replace ((o * n + k) * inner + i) with (o * (n * inner) + (k * inner + i)) by lia.
  rewrite (@nth_error_concat_const _ _ (n * inner)).
  - rewrite nth_error_map_seq. replace (o <? outer) with true by lia.
    rewrite nth_error_window. replace (k * inner + i <? n * inner) with true by nia.
    f_equal. lia.
  - intros w Hw. apply in_map_iff in Hw as [o' [<- Ho']]. apply in_seq in Ho'.
    eapply slice_piece_len; eauto; lia.
  - nia.
Qed.

(* consecutive slices along the axis cover the array: same elements *)
Lemma slices_permutation outer N inner l cs :
  length l = outer * N * inner -> sum cs = N ->
  Permutation (concat (map (fun p => slice_flat outer N inner (fst p) (snd p) l)
                           (combine (displs 0 cs) cs))) l.
Proof.
  intros Hl Hs. unfold slice_flat.
  rewrite (Permutation_concat_swap
    (fun p o => window ((o * N + fst p) * inner) (snd p * inner) l)).
  transitivity (concat (map (fun i => window (i * (N * inner)) (N * inner) l) (seq 0 outer)));
    [|rewrite chunks_concat by lia; reflexivity].
  erewrite map_ext; [reflexivity|]. intros o. cbn beta.
  transitivity (window ((o * N + 0) * inner) (sum cs * inner) l);
    [|rewrite Hs; f_equal; lia].
  clear Hs Hl. generalize 0 as d. induction cs as [|c cs IH]; intros d; [reflexivity|].
  simpl. rewrite IH. rewrite (Nat.mul_add_distr_r c (sum cs) inner).
  rewrite <- window_app. f_equal. f_equal. lia.
Qed.

End Slice.

Lemma slice_flat_map {A B} (f : A -> B) outer N inner s n l :
  map f (slice_flat outer N inner s n l) = slice_flat outer N inner s n (map f l).
Proof.
  unfold slice_flat. rewrite concat_map, map_map. f_equal. apply map_ext. intros. apply map_window.
Qed.

Lemma slice_flat_combine {A B} outer N inner s n (l : list A) (l' : list B) :
  length l = outer * N * inner -> length l' = outer * N * inner -> s + n <= N ->
  combine (slice_flat outer N inner s n l) (slice_flat outer N inner s n l')
  = slice_flat outer N inner s n (combine l l').
Proof.
  intros Hl Hl' Hs. unfold slice_flat.
  assert (Hin : forall o, In o (seq 0 outer) -> o < outer) by (intros o Ho; apply in_seq in Ho; lia).
  induction (seq 0 outer) as [|o os IH]; [reflexivity|]. simpl.
  rewrite combine_app', combine_window, IH; [reflexivity| |].
  - intros o' Ho'. apply Hin. now right.
  - pose proof (Hin o (or_introl eq_refl)).
    erewrite !slice_piece_len; eauto.
Qed.

Lemma slice_flat_seq outer N inner s n :
  s + n <= N ->
  slice_flat outer N inner s n (seq 0 (outer * N * inner)) = subarray_pos outer N inner s n.
Proof.
  intros H. unfold slice_flat, subarray_pos. f_equal. apply map_ext_in. intros o Ho.
  apply in_seq in Ho. rewrite window_seq; [reflexivity|].
  apply idx_bound; lia.
Qed.

(* ---------- multi-indices ---------- *)
Lemma valid_length sh idx : valid sh idx -> length idx = length sh.
Proof. unfold valid. induction 1; simpl; auto. Qed.

Lemma ravel_bound sh idx : valid sh idx -> ravel sh idx < prod sh.
Proof.
  unfold valid. revert idx; induction sh as [|d sh IH]; intros idx H; inversion H; subst; simpl; [lia|].
  match goal with H1 : Forall2 lt _ sh |- _ => apply IH in H1 end. nia.
Qed.

Lemma ravel_split sh1 N sh2 i1 k i2 : length i1 = length sh1 ->
  ravel (sh1 ++ N :: sh2) (i1 ++ k :: i2)
  = (ravel sh1 i1 * N + k) * prod sh2 + ravel sh2 i2.
Proof.
  revert i1; induction sh1 as [|d sh1 IH]; intros i1 H; destruct i1 as [|i i1]; simpl in *; try lia.
  rewrite IH by lia. rewrite prod_app. simpl. lia.
Qed.

Lemma valid_split sh1 N sh2 i1 k i2 : length i1 = length sh1 ->
  valid (sh1 ++ N :: sh2) (i1 ++ k :: i2) <-> valid sh1 i1 /\ k < N /\ valid sh2 i2.
Proof.
  intros Hl. unfold valid. split.
  - intros H. apply Forall2_app_inv_l in H as (m1 & m2 & H1 & H2 & E).
    assert (length m1 = length sh1) as Hm by (apply (valid_length (sh:=m1)) in H1; lia).
    assert (m1 = sh1 /\ m2 = N :: sh2) as [-> ->].
    { assert (firstn (length sh1) (sh1 ++ N :: sh2) = firstn (length sh1) (m1 ++ m2)) as F by now rewrite E.
      rewrite !firstn_app, Hm, !Nat.sub_diag, !firstn_O, !app_nil_r, firstn_all in F.
      rewrite <- Hm, firstn_all in F. subst m1. apply app_inv_head in E. auto. }
    inversion H2; subst. auto.
  - intros (H1 & H2 & H3). apply Forall2_app; [assumption|]. constructor; assumption.
Qed.

Lemma split_at_axis sh ax : ax < length sh ->
  exists sh1 N sh2, sh = sh1 ++ N :: sh2 /\ length sh1 = ax /\
    firstn ax sh = sh1 /\ nth ax sh 0 = N /\ skipn (S ax) sh = sh2.
Proof.
  intros H. exists (firstn ax sh), (nth ax sh 0), (skipn (S ax) sh).
  split; [now apply split_at|]. rewrite firstn_length. repeat split; lia.
Qed.

Lemma axis_firstn (sh1 : list nat) N sh2 : firstn (length sh1) (sh1 ++ N :: sh2) = sh1.
Proof. rewrite firstn_app, Nat.sub_diag, firstn_O, app_nil_r. apply firstn_all. Qed.
Lemma axis_skipn (sh1 : list nat) N sh2 : skipn (S (length sh1)) (sh1 ++ N :: sh2) = sh2.
Proof.
  rewrite skipn_app, skipn_all2 by lia.
  replace (S (length sh1) - length sh1) with 1 by lia. reflexivity.
Qed.
Lemma axis_nth (sh1 : list nat) N sh2 d : nth (length sh1) (sh1 ++ N :: sh2) d = N.
Proof. rewrite app_nth2 by lia. now rewrite Nat.sub_diag. Qed.
Lemma axis_upd (sh1 : list nat) N sh2 n : upd_nth (length sh1) n (sh1 ++ N :: sh2) = sh1 ++ n :: sh2.
Proof.
  rewrite upd_nth_split by (rewrite app_length; simpl; lia). now rewrite axis_firstn, axis_skipn.
Qed.

Lemma wf_axis {A} (sh1 : list nat) N sh2 (l : list A) :
  wf (Nd (sh1 ++ N :: sh2) l) <-> length l = prod sh1 * N * prod sh2.
Proof. unfold wf; simpl. rewrite prod_app; simpl. split; lia. Qed.

Lemma slice_axis_split {A} sh1 N sh2 (l : list A) s n :
  slice_axis (length sh1) s n (Nd (sh1 ++ N :: sh2) l)
  = Nd (sh1 ++ n :: sh2) (slice_flat (prod sh1) N (prod sh2) s n l).
Proof. unfold slice_axis; cbn [shape flat]. now rewrite axis_firstn, axis_nth, axis_skipn, axis_upd. Qed.

Lemma slice_axis_spec {A} (a : nd A) ax s n :
  wf a -> ax < length (shape a) -> s + n <= nth ax (shape a) 0 ->
  wf (slice_axis ax s n a) /\
  shape (slice_axis ax s n a) = upd_nth ax n (shape a) /\
  forall idx, valid (upd_nth ax n (shape a)) idx ->
    entry (slice_axis ax s n a) idx = entry a (shift_axis ax s idx) /\
    valid (shape a) (shift_axis ax s idx).
Proof.
  destruct a as [sh l]; simpl. intros Hwf Hax Hs.
  destruct (@split_at_axis sh ax Hax) as (sh1 & N & sh2 & -> & <- & _ & _ & _).
  rewrite axis_nth in Hs. rewrite slice_axis_split, axis_upd. apply wf_axis in Hwf.
  split; [|split; [reflexivity|]].
  - apply wf_axis. now apply slice_flat_length.
  - intros idx Hidx. assert (length sh1 < length idx) as Hl
      by (rewrite (valid_length Hidx), app_length; simpl; lia).
    destruct (@split_at_axis idx (length sh1) Hl) as (i1 & k & i2 & -> & Hi1 & _ & _ & _).
    assert (Hsh : shift_axis (length sh1) s (i1 ++ k :: i2) = i1 ++ (k + s) :: i2)
      by (unfold shift_axis; rewrite <- Hi1, axis_nth, axis_upd; reflexivity).
    rewrite Hsh.
    apply valid_split in Hidx as (V1 & V2 & V3); [|assumption].
    split; [|apply valid_split; auto; repeat split; auto; lia].
    unfold entry; simpl. rewrite !ravel_split by assumption.
    apply slice_flat_nth; auto using ravel_bound.
Qed.

Lemma entry_complete {A} (a : nd A) idx : wf a -> valid (shape a) idx -> entry a idx <> None.
Proof. intros H V. unfold entry. apply nth_error_Some. rewrite H. now apply ravel_bound. Qed.

(* ---------- concatenation along an axis ---------- *)
Lemma window_displs_concat {A} (pieces : list (list A)) r :
  r < length pieces ->
  window (nth r (displs 0 (map (@length A) pieces)) 0) (length (nth r pieces [])) (concat pieces)
  = nth r pieces [].
Proof.
  intros H. rewrite displs_nth by (rewrite map_length; lia). simpl.
  revert r H; induction pieces as [|p ps IH]; intros r H; simpl in *; [lia|].
  destruct r as [|r]; simpl.
  - rewrite window_app_l by lia. apply window_all. lia.
  - rewrite window_app_r by lia.
    transitivity (window (sum (firstn r (map (@length A) ps))) (length (nth r ps [])) (concat ps));
      [f_equal; lia|apply IH; lia].
Qed.

Section ConcatAxis.
Context {A : Type}.

(* flat concatenation: pieces given as (count, flat) *)
Definition concat_flat (outer inner : nat) (ps : list (nat * list A)) : list A :=
  concat (map (fun o => concat (map (fun p => window (o * (fst p * inner)) (fst p * inner) (snd p)) ps))
              (seq 0 outer)).

Lemma concat_row_len outer inner (ps : list (nat * list A)) o :
  (forall p, In p ps -> length (snd p) = outer * fst p * inner) -> o < outer ->
  length (concat (map (fun p => window (o * (fst p * inner)) (fst p * inner) (snd p)) ps))
  = sum (map fst ps) * inner.
Proof.
  intros H Ho. induction ps as [|p ps IH]; [reflexivity|]. simpl.
  rewrite app_length, IH by (intros; apply H; now right).
  rewrite window_length_le; [lia|]. rewrite (H p) by now left. apply row_bound; lia.
Qed.

Lemma concat_flat_length outer inner (ps : list (nat * list A)) :
  (forall p, In p ps -> length (snd p) = outer * fst p * inner) ->
  length (concat_flat outer inner ps) = outer * sum (map fst ps) * inner.
Proof.
  intros H. unfold concat_flat. rewrite (@concat_length_const _ _ (sum (map fst ps) * inner)).
  - rewrite map_length, seq_length. lia.
  - intros w Hw. apply in_map_iff in Hw as [o [<- Ho]]. apply in_seq in Ho.
    eapply concat_row_len; eauto. lia.
Qed.

(* slicing the concatenation gives the pieces back *)
Lemma slice_concat_flat outer inner (ps : list (nat * list A)) r :
  (forall p, In p ps -> length (snd p) = outer * fst p * inner) -> r < length ps ->
  slice_flat outer (sum (map fst ps)) inner
    (nth r (displs 0 (map fst ps)) 0) (nth r (map fst ps) 0) (concat_flat outer inner ps)
  = snd (nth r ps (0, [])).
Proof.
  intros H Hr.
  assert (Hp : In (nth r ps (0, [])) ps) by (apply nth_In; lia).
  pose proof (H _ Hp) as Hlen.
  assert (Hc : nth r (map fst ps) 0 = fst (nth r ps (0, []))) by exact (map_nth fst ps (0, []) r).
  rewrite Hc.
  set (c := fst (nth r ps (0, []))) in *.
  rewrite displs_nth by (rewrite map_length; lia). simpl.
  set (d := sum (firstn r (map fst ps))).
  assert (Hdc : d + c <= sum (map fst ps)).
  { unfold d. rewrite <- Hc. apply sum_nth_le. rewrite map_length; lia. }
  set (G := sum (map fst ps)) in *.
  transitivity (concat (map (fun i => window (i * (c * inner)) (c * inner) (snd (nth r ps (0, []))))
                            (seq 0 outer))); [|apply chunks_concat; lia].
  unfold slice_flat. f_equal. apply map_ext_in. intros o Ho. apply in_seq in Ho.
  unfold concat_flat.
  set (rows := fun o => concat (map (fun p => window (o * (fst p * inner)) (fst p * inner) (snd p)) ps)).
  assert (Hrow : forall o, o < outer -> length (rows o) = G * inner)
    by (intros o' Ho'; unfold rows; eapply concat_row_len; eauto).
  assert (Hw : window (o * (G * inner)) (G * inner) (concat (map rows (seq 0 outer))) = rows o).
  { apply nth_error_ext. intros k. rewrite nth_error_window.
    destruct (Nat.ltb_spec k (G * inner)).
    - rewrite (@nth_error_concat_const _ _ (G * inner)); auto.
      + rewrite nth_error_map_seq. now replace (o <? outer) with true by lia.
      + intros w Hin. apply in_map_iff in Hin as [o' [<- Ho']]. apply in_seq in Ho'. apply Hrow. lia.
    - symmetry. apply nth_error_None. rewrite Hrow; lia. }
  replace ((o * G + d) * inner) with (o * (G * inner) + d * inner) by lia.
  rewrite <- (@window_window _ (o * (G * inner)) (G * inner)) by nia. rewrite Hw.
  unfold rows.
  set (pcs := map (fun p => window (o * (fst p * inner)) (fst p * inner) (snd p)) ps).
  assert (Hpl : map (@length A) pcs = map (fun p => fst p * inner) ps).
  { unfold pcs. rewrite map_map. apply map_ext_in. intros p Hin. apply window_length_le.
    rewrite (H p Hin). apply row_bound; lia. }
  assert (Hr' : r < length pcs) by (unfold pcs; rewrite map_length; lia).
  pose proof (@window_displs_concat _ pcs r Hr') as E.
  assert (En : nth r pcs [] = window (o * (c * inner)) (c * inner) (snd (nth r ps (0, [])))).
  { unfold pcs, c.
    rewrite (nth_indep _ [] (window (o * (fst (0,@nil A) * inner)) (fst (0,@nil A) * inner) (snd (0,@nil A)))) by exact Hr'.
    exact (map_nth (fun p => window (o * (fst p * inner)) (fst p * inner) (snd p)) ps (0, []) r). }
  rewrite En in E. rewrite window_length_le in E by (rewrite Hlen; apply row_bound; lia).
  etransitivity; [|exact E]. f_equal.
  rewrite Hpl, displs_nth by (rewrite map_length; lia). simpl.
  unfold d. clear. rewrite !firstn_map. induction (firstn r ps) as [|p l IH]; simpl; lia.
Qed.
End ConcatAxis.

(* joinable pieces: common outer and inner *)
Lemma joinable_split {A} ax (ps : list (nd A)) : joinable ax ps -> ps <> [] ->
  exists sh1 sh2, length sh1 = ax /\
    forall p, In p ps -> exists n, shape p = sh1 ++ n :: sh2 /\ length (flat p) = prod sh1 * n * prod sh2.
Proof.
  intros H Hne. destruct ps as [|p0 ps]; [congruence|].
  destruct (H p0 p0) as (_ & Hax & _ & _); [now left..|].
  exists (firstn ax (shape p0)), (skipn (S ax) (shape p0)). split; [rewrite firstn_length; lia|].
  intros p Hp. destruct (H p p0 Hp (or_introl eq_refl)) as (Hwf & Hax' & E1 & E2).
  exists (nth ax (shape p) 0).
  assert (Es : shape p = firstn ax (shape p0) ++ nth ax (shape p) 0 :: skipn (S ax) (shape p0)).
  { rewrite <- E1, <- E2. now apply split_at. }
  split; [exact Es|]. unfold wf in Hwf. rewrite Hwf. rewrite Es at 1. rewrite prod_app. cbn [prod fold_right].
  change (fold_right Nat.mul 1) with prod. lia.
Qed.

Definition pcs_of {A} ax (ps : list (nd A)) := map (fun p => (nth ax (shape p) 0, flat p)) ps.

Lemma concat_axis_eq {A} sh1 sh2 (ps : list (nd A)) :
  ps <> [] ->
  (forall p, In p ps -> exists n, shape p = sh1 ++ n :: sh2 /\ length (flat p) = prod sh1 * n * prod sh2) ->
  concat_axis (length sh1) ps
  = Nd (sh1 ++ sum (map (fun p => nth (length sh1) (shape p) 0) ps) :: sh2)
       (concat_flat (prod sh1) (prod sh2) (pcs_of (length sh1) ps)).
Proof.
  intros Hne H. destruct ps as [|p0 ps]; [congruence|].
  destruct (H p0 (or_introl eq_refl)) as (n0 & E0 & _).
  unfold concat_axis, concat_flat, pcs_of. rewrite E0, axis_firstn, axis_skipn, axis_upd.
  f_equal. f_equal. apply map_ext. intros o. f_equal. rewrite map_map. reflexivity.
Qed.

Lemma pcs_lengths {A} sh1 sh2 (ps : list (nd A)) :
  (forall p, In p ps -> exists n, shape p = sh1 ++ n :: sh2 /\ length (flat p) = prod sh1 * n * prod sh2) ->
  forall q, In q (pcs_of (length sh1) ps) -> length (snd q) = prod sh1 * fst q * prod sh2.
Proof.
  intros H q Hq. unfold pcs_of in Hq. apply in_map_iff in Hq as [p [<- Hp]]. simpl.
  destruct (H p Hp) as (n & Es & El). rewrite Es, axis_nth. exact El.
Qed.
