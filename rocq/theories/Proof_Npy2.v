From Verif Require Import Base_List Model_Parallel Spec_Array Proof_Parallel Proof_Npy.
Set Implicit Arguments.

(* a row of an array made of equal rows *)
Lemma window_concat_const {A} (ls : list (list A)) m o :
  (forall l, In l ls -> length l = m) -> o < length ls ->
  window (o * m) m (concat ls) = nth o ls [].
Proof.
  intros H Ho. apply nth_error_ext. intros k. rewrite nth_error_window.
  assert (Hn : length (nth o ls []) = m) by (apply H, nth_In; lia).
  destruct (Nat.ltb_spec k m).
  - rewrite (@nth_error_concat_const _ _ m) by auto. rewrite (nth_error_nth' ls []) by lia. reflexivity.
  - symmetry. apply nth_error_None. lia.
Qed.

Lemma window_slice_flat {A} outer N inner s n (l : list A) o :
  length l = outer * N * inner -> s + n <= N -> o < outer ->
  window (o * (n * inner)) (n * inner) (slice_flat outer N inner s n l)
  = window ((o * N + s) * inner) (n * inner) l.
Proof.
  intros Hl Hs Ho. unfold slice_flat. rewrite window_concat_const.
  - rewrite (nth_indep _ [] (window ((0 * N + s) * inner) (n * inner) l))
      by (rewrite map_length, seq_length; lia).
    rewrite (map_nth (fun o => window ((o * N + s) * inner) (n * inner) l) (seq 0 outer) 0 o).
    now rewrite seq_nth by lia.
  - intros w Hw. apply in_map_iff in Hw as [o' [<- Ho']]. apply in_seq in Ho'.
    eapply slice_piece_len; eauto; lia.
  - rewrite map_length, seq_length. lia.
Qed.

(* consecutive slices joined again give the array *)
Lemma concat_flat_slices {A} outer N inner (l : list A) cs :
  length l = outer * N * inner -> sum cs = N ->
  concat_flat outer inner
    (map (fun p => (snd p, slice_flat outer N inner (fst p) (snd p) l)) (combine (displs 0 cs) cs)) = l.
Proof.
  intros Hl Hs. unfold concat_flat.
  transitivity (concat (map (fun i => window (i * (N * inner)) (N * inner) l) (seq 0 outer)));
    [|apply chunks_concat; lia].
  f_equal. apply map_ext_in. intros o Ho. apply in_seq in Ho. rewrite map_map. cbn [fst snd].
  transitivity (concat (map (fun p => window ((o * N + fst p) * inner) (snd p * inner) l)
                            (combine (displs 0 cs) cs))).
  - f_equal. apply map_ext_in. intros [d c] Hin. cbn [fst snd].
    apply window_slice_flat; [assumption| |lia].
    apply (In_nth _ _ (0, 0)) in Hin as (r & Hr & E).
    rewrite combine_length, displs_length, Nat.min_id in Hr.
    rewrite combine_nth in E by apply displs_length. injection E as <- <-.
    rewrite displs_nth by lia. rewrite <- Hs. simpl. apply sum_nth_le. lia.
  - transitivity (window ((o * N + 0) * inner) (sum cs * inner) l); [|rewrite Hs; f_equal; lia].
    clear. generalize 0 as d. induction cs as [|c cs IH]; intros d; [reflexivity|].
    simpl. rewrite IH, (Nat.mul_add_distr_r c (sum cs) inner), <- window_app. f_equal. f_equal. lia.
Qed.

(* the pieces of ranks 0..size-1 *)
Definition piece {A} (ax size : nat) (a : nd A) (r : nat) : nd A :=
  slice_axis ax (bd_s (nth ax (shape a) 0) size r) (bd_n (nth ax (shape a) 0) size r) a.

Lemma distribute_dimension_piece {A} (a : nd A) ax size r :
  ax < length (shape a) -> distribute_dimension a ax (Some (size, r)) = Ok (piece ax size a r).
Proof.
  intros H. unfold distribute_dimension, piece, bd_s, bd_n. replace (ax <? _) with true by lia.
  destruct (blockdist (nth ax (shape a) 0) size r). reflexivity.
Qed.

Lemma pieces_joinable {A} (a : nd A) ax size :
  wf a -> ax < length (shape a) -> joinable ax (map (piece ax size a) (seq 0 size)).
Proof.
  intros Hwf Hax p q Hp Hq.
  apply in_map_iff in Hp as [r [<- Hr]]. apply in_map_iff in Hq as [r' [<- Hr']].
  apply in_seq in Hr. apply in_seq in Hr'. unfold piece.
  destruct (@slice_axis_spec _ a ax (bd_s (nth ax (shape a) 0) size r) (bd_n (nth ax (shape a) 0) size r))
    as (W & S & _); auto; [apply bd_fits; lia|].
  split; [exact W|]. unfold slice_axis; cbn [shape]. rewrite upd_nth_length. split; [assumption|].
  rewrite !upd_nth_split by assumption.
  set (sh1 := firstn ax (shape a)). assert (length sh1 = ax) as E by (unfold sh1; rewrite firstn_length; lia).
  rewrite <- E. rewrite !axis_firstn, !axis_skipn. auto.
Qed.

Lemma pieces_concat {A} (a : nd A) ax size :
  wf a -> ax < length (shape a) -> 0 < size ->
  concat_axis ax (map (piece ax size a) (seq 0 size)) = a.
Proof.
  intros Hwf Hax Hsz. destruct a as [sh l]. cbn [shape] in *.
  destruct (split_at_axis _ Hax) as (sh1 & N & sh2 & -> & <- & _ & _ & _).
  apply wf_axis in Hwf.
  assert (Hp : forall r, piece (length sh1) size (Nd (sh1 ++ N :: sh2) l) r
    = Nd (sh1 ++ bd_n N size r :: sh2) (slice_flat (prod sh1) N (prod sh2) (bd_s N size r) (bd_n N size r) l)).
  { intros r. unfold piece. cbn [shape]. now rewrite slice_axis_split, axis_nth. }
  rewrite (map_ext _ _ Hp).
  rewrite (@concat_axis_eq _ sh1 sh2).
  - f_equal.
    + f_equal. f_equal. rewrite map_map. cbn [shape].
      rewrite (map_ext _ (bd_n N size)) by (intros; apply axis_nth). now apply bd_sum_all.
    + unfold pcs_of. rewrite map_map. cbn [shape flat].
      etransitivity; [|apply (@concat_flat_slices _ (prod sh1) N (prod sh2) l (map (bd_n N size) (seq 0 size)));
        [assumption|now apply bd_sum_all]].
      f_equal. rewrite bd_displs, combine_map_same, map_map. cbn [fst snd]. apply map_ext. intros r.
      now rewrite axis_nth.
  - intros E. apply map_eq_nil in E. destruct size; [lia|discriminate].
  - intros p Hin. apply in_map_iff in Hin as [r [<- Hr]]. apply in_seq in Hr. cbn [shape flat].
    eexists. split; [reflexivity|]. apply slice_flat_length; [assumption|]. apply bd_fits. lia.
Qed.

Lemma pieces_perm {A} (a : nd A) ax size :
  wf a -> ax < length (shape a) -> 0 < size ->
  Permutation (concat (map (fun r => flat (piece ax size a r)) (seq 0 size))) (flat a).
Proof.
  intros Hwf Hax Hsz. destruct a as [sh l]. cbn [shape flat] in *.
  destruct (split_at_axis _ Hax) as (sh1 & N & sh2 & -> & <- & _ & _ & _).
  apply wf_axis in Hwf.
  pose proof (@slices_permutation _ (prod sh1) N (prod sh2) l (map (bd_n N size) (seq 0 size)) Hwf
    (bd_sum_all N Hsz)) as P.
  rewrite bd_displs, combine_map_same, map_map in P. cbn [fst snd] in P.
  erewrite map_ext; [exact P|]. intros r. unfold piece. cbn [shape].
  now rewrite slice_axis_split, axis_nth.
Qed.

(* ---------- pointwise meaning of concat_axis ---------- *)
Lemma concat_axis_entry {A} ax (ps : list (nd A)) r idx :
  joinable ax ps -> r < length ps ->
  let p := nth r ps (Nd [] []) in
  valid (shape p) idx ->
  entry p idx = entry (concat_axis ax ps)
                  (shift_axis ax (sum (map (fun q => nth ax (shape q) 0) (firstn r ps))) idx).
Proof.
  intros HJ Hr p Hv. assert (Hne : ps <> []) by (destruct ps; simpl in *; [lia|discriminate]).
  destruct (joinable_split HJ Hne) as (sh1 & sh2 & <- & Hsh).
  rewrite (@concat_axis_eq _ sh1 sh2 ps Hne Hsh).
  assert (Hp : In p ps) by (apply nth_In; lia).
  destruct (Hsh p Hp) as (n & Es & El).
  set (cs := map (fun q => nth (length sh1) (shape q) 0) ps).
  assert (Hlen : length sh1 < length idx) by (rewrite (valid_length Hv), Es, app_length; simpl; lia).
  rewrite Es in Hv.
  destruct (split_at_axis _ Hlen) as (i1 & k & i2 & -> & Hi1 & _ & _ & _).
  apply valid_split in Hv as (V1 & V2 & V3); [|assumption].
  assert (Hd : sum (map (fun q => nth (length sh1) (shape q) 0) (firstn r ps)) = nth r (displs 0 cs) 0).
  { unfold cs. rewrite displs_nth by (rewrite map_length; lia). now rewrite firstn_map. }
  rewrite Hd.
  unfold shift_axis. rewrite <- Hi1. rewrite axis_nth, axis_upd.
  unfold entry. cbn [shape flat]. rewrite Es, !ravel_split by assumption.
  pose proof (@pcs_lengths _ sh1 sh2 ps Hsh) as Hlens.
  pose proof (@slice_concat_flat _ (prod sh1) (prod sh2) (pcs_of (length sh1) ps) r Hlens) as Hsl.
  assert (Hcs : map fst (pcs_of (length sh1) ps) = cs) by (unfold pcs_of, cs; rewrite map_map; reflexivity).
  rewrite Hcs in Hsl. rewrite Hi1.
  assert (Hnr : nth r (pcs_of (length sh1) ps) (0, []) = (n, flat p)).
  { unfold pcs_of.
    rewrite (nth_indep _ (0, []) (nth (length sh1) (shape (Nd (A:=A) [] [])) 0, flat (Nd (A:=A) [] [])))
      by (rewrite map_length; lia).
    rewrite (map_nth (fun p => (nth (length sh1) (shape p) 0, flat p)) ps (Nd [] []) r). fold p.
    now rewrite Es, axis_nth. }
  assert (Hn : nth r cs 0 = n).
  { rewrite <- Hcs. change n with (fst (n, flat p)). rewrite <- Hnr. exact (map_nth fst _ (0, []) r). }
  assert (Hb : nth r (displs 0 cs) 0 + n <= sum cs).
  { rewrite <- Hn. rewrite displs_nth by (unfold cs; rewrite map_length; lia). simpl.
    apply sum_nth_le. unfold cs. rewrite map_length. lia. }
  rewrite Hn, Hnr in Hsl. cbn [snd] in Hsl. fold cs.
  rewrite <- Hsl at 1 by (unfold pcs_of; rewrite map_length; lia).
  apply slice_flat_nth; auto using ravel_bound.
  rewrite concat_flat_length by assumption. now rewrite Hcs.
Qed.

Lemma concat_axis_shape {A} ax (ps : list (nd A)) :
  joinable ax ps -> ps <> [] -> wf (concat_axis ax ps).
Proof.
  intros HJ Hne. destruct (joinable_split HJ Hne) as (sh1 & sh2 & <- & Hsh).
  rewrite (@concat_axis_eq _ sh1 sh2 ps Hne Hsh). apply wf_axis.
  pose proof (@pcs_lengths _ sh1 sh2 ps Hsh) as Hlens.
  rewrite concat_flat_length by assumption. unfold pcs_of. rewrite map_map. reflexivity.
Qed.

Lemma subarray_pos_0 outer N inner s : subarray_pos outer N inner s 0 = [].
Proof. unfold subarray_pos. induction (seq 0 outer) as [|o os IH]; [reflexivity|]. exact IH. Qed.

(* ---------- loading ---------- *)
Section Load.
Context {A B : Type}.
Variables (enc : A -> list B) (hdr : list nat -> list B) (es : nat).
Variables (dec : list B -> option A).
Hypothesis enc_len : forall a, length (enc a) = es.
Hypothesis dec_enc : forall a, dec (enc a) = Some a.

Lemma read_bytes_ok (f : @file B) p bs :
  (forall k, k < length bs -> f (p + k) = nth_error bs k) -> read_bytes f p (length bs) = Some bs.
Proof.
  revert p; induction bs as [|b bs IH]; intros p H; simpl; [reflexivity|].
  pose proof (H 0 ltac:(simpl; lia)) as H0. rewrite Nat.add_0_r in H0. rewrite H0. simpl.
  rewrite IH; [reflexivity|]. intros k Hk. pose proof (H (S k) ltac:(simpl; lia)) as H1.
  simpl in H1. rewrite <- H1. f_equal. lia.
Qed.

Lemma read_elem_ok (f : @file B) (a : nd A) p x :
  (forall q, f q = nth_error (np_save enc hdr a) q) ->
  nth_error (flat a) p = Some x ->
  read_elem dec f (length (hdr (shape a))) es p = Some x.
Proof using enc_len dec_enc.
  intros Hf Hp. unfold read_elem.
  assert (read_bytes f (length (hdr (shape a)) + p * es) es = Some (enc x)) as ->; [|apply dec_enc].
  rewrite <- (enc_len x) at 2. apply read_bytes_ok. intros k Hk. rewrite enc_len in Hk.
  rewrite Hf. unfold np_save. rewrite nth_error_app2 by lia.
  replace (length (hdr (shape a)) + p * es + k - length (hdr (shape a))) with (p * es + k) by lia.
  rewrite (@nth_error_concat_const _ _ es).
  - erewrite map_nth_error by exact Hp. reflexivity.
  - intros l Hl. apply in_map_iff in Hl as [y [<- _]]. apply enc_len.
  - assumption.
Qed.

Variable parse : @file B -> option (list nat * nat).
Hypothesis parse_hdr : forall f sh,
  (forall k, k < length (hdr sh) -> f k = nth_error (hdr sh) k) -> parse f = Some (sh, length (hdr sh)).

Lemma npy_load_slice (f : @file B) (a : nd A) ax size rank count :
  wf a -> ax < length (shape a) ->
  (forall q, f q = nth_error (np_save enc hdr a) q) ->
  let cnt r := load_count (nth ax (shape a) 0) (count r) size r in
  let displ := sum (map cnt (seq 0 rank)) in
  displ + cnt rank <= nth ax (shape a) 0 ->
  let p := slice_axis ax displ (cnt rank) a in
  npy_load dec parse f es ax size rank count = Some (Nd (shape p) (map Some (flat p))).
Proof using enc_len dec_enc parse_hdr.
  intros Hwf Hax Hf cnt displ Hd p. unfold npy_load.
  rewrite (@parse_hdr f (shape a)).
  2:{ intros k Hk. rewrite Hf. unfold np_save. now rewrite nth_error_app1 by lia. }
  f_equal. fold (cnt rank).
  change (fun r => load_count (nth ax (shape a) 0) (count r) size r) with cnt.
  assert (Ed : sum (map cnt (seq 0 (S rank))) - cnt rank = displ).
  { rewrite seq_S, map_app, sum_app. simpl. unfold displ. lia. }
  rewrite Ed. unfold p, slice_axis. cbn [shape flat]. f_equal.
  destruct a as [sh l]. cbn [shape flat] in *.
  destruct (split_at_axis _ Hax) as (sh1 & N & sh2 & -> & <- & _ & _ & _).
  apply wf_axis in Hwf. rewrite axis_nth in Hd. rewrite axis_firstn, axis_skipn, axis_nth.
  transitivity (map (read_elem dec f (length (hdr (sh1 ++ N :: sh2))) es)
     (subarray_pos (prod sh1) N (prod sh2) displ (cnt rank))).
  { f_equal. destruct (Nat.ltb_spec 0 (cnt rank)); [reflexivity|]. replace (cnt rank) with 0 by lia.
    symmetry. apply subarray_pos_0. }
  rewrite <- slice_flat_seq by assumption.
  rewrite !slice_flat_map. f_equal. apply nth_error_ext. intros k.
  rewrite nth_error_map_seq. simpl. rewrite <- Hwf.
  destruct (Nat.ltb_spec k (length l)).
  - destruct (nth_error l k) as [x|] eqn:E; [|apply nth_error_None in E; lia].
    rewrite (map_nth_error Some k l E). f_equal.
    exact (@read_elem_ok f (Nd (sh1 ++ N :: sh2) l) k x Hf E).
  - symmetry. apply nth_error_None. rewrite map_length. lia.
Qed.
End Load.

(* default counts *)
Lemma default_counts_sum N size m : sum (map (fun r => load_count N None size r) (seq 0 m))
  = min m (N / size + N mod size).
Proof.
  induction m as [|m IH]; [reflexivity|]. rewrite seq_S, map_app, sum_app, IH.
  cbn [map sum fold_right Nat.add load_count].
  generalize dependent (N / size + N mod size). intros X _.
  destruct (Nat.ltb_spec m X); lia.
Qed.

Lemma default_counts_whole N size : 0 < size ->
  (sum (map (fun r => load_count N None size r) (seq 0 size)) = N <-> N < size \/ N = 1).
Proof.
  intros H. rewrite default_counts_sum. 
  pose proof (Nat.mod_upper_bound N size ltac:(lia)).
  pose proof (Nat.div_mod N size ltac:(lia)).
  split.
  - intros E. destruct (Nat.lt_ge_cases N size) as [Hlt|Hge]; [now left|right].
    assert (N = size) by lia. subst N. rewrite Nat.div_same, Nat.mod_same in E by lia. lia.
  - intros [Hlt| ->].
    + rewrite Nat.div_small, Nat.mod_small by lia. lia.
    + destruct (Nat.eq_dec size 1) as [->|Hn]; [reflexivity|].
      rewrite Nat.div_small, Nat.mod_small by lia. lia.
Qed.

(* ---------- argmax ---------- *)
Lemma argmax_from_spec l i best bi :
  bi < i ->
  let k := argmax_from i best bi l in
  (k = bi /\ (forall j, j < length l -> nth j l 0 <= best)) \/
  (i <= k /\ k - i < length l /\ best < nth (k - i) l 0 /\
    (forall j, j < length l -> nth j l 0 <= nth (k - i) l 0) /\
    (forall j, j < k - i -> nth j l 0 < nth (k - i) l 0)).
Proof.
  revert i best bi; induction l as [|x l IH]; intros i best bi Hb; cbn [argmax_from].
  - left. split; [reflexivity|]. simpl. intros; lia.
  - destruct (Nat.ltb_spec best x) as [Hx|Hx].
    + right. destruct (IH (S i) x i ltac:(lia)) as [[E H]|(H1 & H2 & H3 & H4 & H5)].
      * rewrite E. rewrite Nat.sub_diag. simpl. repeat split; try lia.
        intros [|j] Hj; [lia|]. apply H. lia.
      * set (k := argmax_from (S i) x i l) in *. replace (k - i) with (S (k - S i)) by lia. simpl.
        repeat split; try lia.
        -- intros [|j] Hj; [lia|]. apply H4. lia.
        -- intros [|j] Hj; [lia|]. apply H5. lia.
    + destruct (IH (S i) best bi ltac:(lia)) as [[E H]|(H1 & H2 & H3 & H4 & H5)].
      * left. split; [exact E|]. intros [|j] Hj; simpl in *; [lia|]. apply H. lia.
      * right. set (k := argmax_from (S i) best bi l) in *. replace (k - i) with (S (k - S i)) by lia. simpl.
        repeat split; try lia.
        -- intros [|j] Hj; [lia|]. apply H4. lia.
        -- intros [|j] Hj; [lia|]. apply H5. lia.
Qed.

Lemma argmax_spec l k : argmax l = Ok k ->
  k < length l /\ (forall j, j < length l -> nth j l 0 <= nth k l 0) /\
  (forall j, j < k -> nth j l 0 < nth k l 0).
Proof.
  destruct l as [|x l]; [discriminate|]. simpl. intros E. injection E as <-.
  destruct (@argmax_from_spec l 1 x 0 ltac:(lia)) as [[E H]|(H1 & H2 & H3 & H4 & H5)].
  - rewrite E. simpl. repeat split; try lia. intros [|j] Hj; [lia|]. apply H. lia.
  - set (k := argmax_from 1 x 0 l) in *. destruct k as [|k]; [lia|].
    replace (S k - 1) with k in * by lia. simpl. repeat split; try lia.
    + intros [|j] Hj; [lia|]. apply H4. lia.
    + intros [|j] Hj; [lia|]. apply H5. lia.
Qed.

Lemma argmax_err l : argmax l = Err ValueError <-> l = [].
Proof. destruct l; simpl; split; congruence. Qed.

(* ---------- create_subcomm ---------- *)
Lemma subcomm_dims_spec size cd : 0 < size ->
  (forall d, 0 < d -> fst (cd d) * snd (cd d) = d) ->
  let '(a, b) := subcomm_dims size cd in
  a * b = size /\ 0 < a /\ 0 < b /\
  (size mod 3 = 0 -> b mod 3 = 0) /\
  (size mod 3 <> 0 -> size mod 4 = 0 -> b mod 4 = 0) /\
  (size mod 3 <> 0 -> size mod 4 <> 0 -> size mod 2 = 0 -> b mod 2 = 0).
Proof.
  intros Hs Hcd. unfold subcomm_dims.
  set (den := subcomm_den size).
  assert (Hden : 0 < den /\ size mod den = 0 /\ (size mod 3 = 0 -> den = 3) /\
     (size mod 3 <> 0 -> size mod 4 = 0 -> den = 4) /\
     (size mod 3 <> 0 -> size mod 4 <> 0 -> size mod 2 = 0 -> den = 2)).
  { unfold den, subcomm_den.
    destruct (Nat.eqb_spec (size mod 3) 0); [repeat split; lia|].
    destruct (Nat.eqb_spec (size mod 4) 0); [repeat split; lia|].
    destruct (Nat.eqb_spec (size mod 2) 0); [repeat split; lia|].
    repeat split; try lia. }
  destruct Hden as (Hd & Hm & H3 & H4 & H2).
  assert (Hq : den * (size / den) = size).
  { pose proof (Nat.div_mod size den ltac:(lia)). lia. }
  pose proof (Hcd (size / den) ltac:(nia)) as Hab.
  destruct (cd (size / den)) as [a b]. simpl in Hab.
  assert (0 < a /\ 0 < b) as [Ha Hb] by nia.
  split; [nia|]. split; [assumption|]. split; [nia|]. split; [|split].
  - intros E. rewrite (H3 E). apply Nat.mod_mul. lia.
  - intros E E'. rewrite (H4 E E'). apply Nat.mod_mul. lia.
  - intros E E' E''. rewrite (H2 E E' E''). apply Nat.mod_mul. lia.
Qed.

(* every grid cell is one rank: the sub-communicators partition the communicator *)
Lemma subcomm_of_bij a b i j : i < a -> j < b ->
  exists! r, r < a * b /\ subcomm_of (a, b) r = (i, j).
Proof.
  intros Hi Hj. exists (i * b + j). unfold subcomm_of. cbn [snd]. split.
  - split; [nia|]. f_equal.
    + rewrite Nat.div_add_l, Nat.div_small by lia. lia.
    + rewrite Nat.add_comm, Nat.mod_add by lia. now apply Nat.mod_small.
  - intros r [Hr E]. injection E as <- <-.
    pose proof (Nat.div_mod r b ltac:(lia)). lia.
Qed.

(* ---------- statements used by Prop_Parallel ---------- *)
Lemma blockdist_partition N size : 0 < size ->
  concat (map (fun r => let '(n, s) := blockdist N size r in seq s n) (seq 0 size)) = seq 0 N /\
  (forall r r', r <= r' -> r' < size ->
     fst (blockdist N size r') <= fst (blockdist N size r) <= fst (blockdist N size r') + 1) /\
  (forall r, size <= r -> blockdist N size r = (0, 0)).
Proof.
  intros H. split; [|split].
  - rewrite <- (@bd_ranges_concat N size H). f_equal. apply map_ext. intros r.
    now destruct (blockdist N size r).
  - intros r r' H1 H2. now apply bd_balanced.
  - intros r. apply bd_outside.
Qed.

Lemma distribute_entries A (a : nd A) ax size r :
  wf a -> ax < length (shape a) -> r < size ->
  let '(n, s) := blockdist (nth ax (shape a) 0) size r in
  exists a', distribute_dimension a ax (Some (size, r)) = Ok a' /\ wf a' /\
    shape a' = upd_nth ax n (shape a) /\
    forall idx, valid (shape a') idx ->
      entry a' idx = entry a (shift_axis ax s idx) /\ valid (shape a) (shift_axis ax s idx).
Proof.
  intros Hwf Hax Hr. pose proof (distribute_dimension_piece a size r Hax) as E.
  pose proof (@bd_fits (nth ax (shape a) 0) size r Hr) as F.
  unfold piece in E. unfold bd_s, bd_n in *. destruct (blockdist (nth ax (shape a) 0) size r) as [n s].
  cbn [fst snd] in *. eexists. split; [exact E|].
  destruct (slice_axis_spec s n Hwf Hax F) as (W & S & P). split; [exact W|]. split; [exact S|].
  rewrite S. exact P.
Qed.

Lemma Forall2_map_r {X Y} (P : X -> Y -> Prop) (f : X -> Y) l :
  (forall x, In x l -> P x (f x)) -> Forall2 P l (map f l).
Proof. induction l as [|x l IH]; intros H; simpl; constructor; [apply H; now left|apply IH; intros; apply H; now right]. Qed.

Lemma distribute_reassemble A (a : nd A) ax size :
  wf a -> ax < length (shape a) -> 0 < size ->
  exists pieces, Forall2 (fun r p => distribute_dimension a ax (Some (size, r)) = Ok p) (seq 0 size) pieces /\
    concat_axis ax pieces = a /\ Permutation (concat (map (@flat A) pieces)) (flat a).
Proof.
  intros Hwf Hax Hs. exists (map (piece ax size a) (seq 0 size)). split; [|split].
  - apply Forall2_map_r. intros r _. now apply distribute_dimension_piece.
  - now apply pieces_concat.
  - rewrite map_map. now apply pieces_perm.
Qed.

Lemma distribute_serial A (a : nd A) ax : distribute_dimension a ax None = Ok a.
Proof. reflexivity. Qed.

Lemma npy_save_any_schedule A B (enc : A -> list B) (hdr : list nat -> list B) es :
  (forall a, length (enc a) = es) ->
  forall ax (locs : list (nd A)), joinable ax locs -> locs <> [] ->
  forall order, Permutation order (npy_save_writes enc hdr es ax locs) ->
  forall before p, npy_save_file order before p = nth_error (np_save enc hdr (concat_axis ax locs)) p.
Proof.
  intros He ax locs HJ Hne order HP before p. unfold npy_save_file. apply run_writes_perm_seq.
  etransitivity; [exact HP|]. now apply npy_save_writes_perm.
Qed.

Lemma npy_save_distributed A B (enc : A -> list B) (hdr : list nat -> list B) es :
  (forall a, length (enc a) = es) ->
  forall (a : nd A) ax size, wf a -> ax < length (shape a) -> 0 < size ->
  exists locs, Forall2 (fun r p => distribute_dimension a ax (Some (size, r)) = Ok p) (seq 0 size) locs /\
  forall order, Permutation order (npy_save_writes enc hdr es ax locs) ->
  forall before p, npy_save_file order before p = nth_error (np_save enc hdr a) p.
Proof.
  intros He a ax size Hwf Hax Hs. exists (map (piece ax size a) (seq 0 size)). split.
  - apply Forall2_map_r. intros r _. now apply distribute_dimension_piece.
  - intros order HP before p. rewrite <- (pieces_concat Hwf Hax Hs) at 1.
    eapply npy_save_any_schedule; eauto using pieces_joinable.
    intros E. apply map_eq_nil in E. destruct size; [lia|discriminate].
Qed.

Lemma slice_of_concat {A} ax (locs : list (nd A)) r :
  joinable ax locs -> r < length locs ->
  slice_axis ax (sum (map (fun q => nth ax (shape q) 0) (firstn r locs)))
    (nth ax (shape (nth r locs (Nd [] []))) 0) (concat_axis ax locs) = nth r locs (Nd [] []) /\
  sum (map (fun q => nth ax (shape q) 0) (firstn r locs)) + nth ax (shape (nth r locs (Nd [] []))) 0
    <= nth ax (shape (concat_axis ax locs)) 0 /\ ax < length (shape (concat_axis ax locs)).
Proof.
  intros HJ Hr. assert (Hne : locs <> []) by (destruct locs; simpl in *; [lia|discriminate]).
  destruct (joinable_split HJ Hne) as (sh1 & sh2 & <- & Hsh).
  rewrite (@concat_axis_eq _ sh1 sh2 locs Hne Hsh).
  set (p := nth r locs (Nd [] [])). assert (Hp : In p locs) by (apply nth_In; lia).
  destruct (Hsh p Hp) as (n & Es & El).
  set (cs := map (fun q => nth (length sh1) (shape q) 0) locs).
  pose proof (@pcs_lengths _ sh1 sh2 locs Hsh) as Hlens.
  pose proof (@slice_concat_flat _ (prod sh1) (prod sh2) (pcs_of (length sh1) locs) r Hlens) as Hsl.
  assert (Hcs : map fst (pcs_of (length sh1) locs) = cs) by (unfold pcs_of, cs; rewrite map_map; reflexivity).
  assert (Hnr : nth r (pcs_of (length sh1) locs) (0, []) = (n, flat p)).
  { unfold pcs_of.
    rewrite (nth_indep _ (0, []) (nth (length sh1) (shape (Nd (A:=A) [] [])) 0, flat (Nd (A:=A) [] [])))
      by (rewrite map_length; lia).
    rewrite (map_nth (fun p => (nth (length sh1) (shape p) 0, flat p)) locs (Nd [] []) r). fold p.
    now rewrite Es, axis_nth. }
  assert (Hn : nth r cs 0 = n).
  { rewrite <- Hcs. change n with (fst (n, flat p)). rewrite <- Hnr. exact (map_nth fst _ (0, []) r). }
  assert (Hd : sum (map (fun q => nth (length sh1) (shape q) 0) (firstn r locs)) = nth r (displs 0 cs) 0).
  { unfold cs. rewrite displs_nth by (rewrite map_length; lia). now rewrite firstn_map. }
  assert (Hb : nth r (displs 0 cs) 0 + n <= sum cs).
  { rewrite <- Hn. rewrite displs_nth by (unfold cs; rewrite map_length; lia). simpl.
    apply sum_nth_le. unfold cs. rewrite map_length. lia. }
  rewrite Hd. cbn [shape]. rewrite Es, !axis_nth. fold cs.
  split; [|split; [exact Hb|rewrite app_length; simpl; lia]].
  rewrite slice_axis_split. rewrite Hcs, Hn, Hnr in Hsl. cbn [snd] in Hsl.
  rewrite Hsl by (unfold pcs_of; rewrite map_length; lia).
  destruct p as [shp lp]. cbn [shape flat] in *. now rewrite Es.
Qed.

Lemma npy_round_trip A B (enc : A -> list B) (hdr : list nat -> list B) es dec :
  (forall a, length (enc a) = es) -> (forall a, dec (enc a) = Some a) ->
  forall parse, (forall f sh, (forall k, k < length (hdr sh) -> f k = nth_error (hdr sh) k) ->
                   parse f = Some (sh, length (hdr sh))) ->
  forall ax (locs : list (nd A)) order before, joinable ax locs -> locs <> [] ->
  Permutation order (npy_save_writes enc hdr es ax locs) ->
  forall r, r < length locs ->
  let mine := nth r locs (Nd [] []) in
  npy_load dec parse (npy_save_file order before) es ax (length locs) r
    (fun r' => Some (nth ax (shape (nth r' locs (Nd [] []))) 0))
  = Some (Nd (shape mine) (map Some (flat mine))).
Proof.
  intros He Hd parse Hparse ax locs order before HJ Hne HP r Hr mine.
  destruct (slice_of_concat HJ Hr) as (E & Hb & Hax).
  pose proof (concat_axis_shape HJ Hne) as Hwf.
  assert (Hs : map (fun r0 => nth ax (shape (nth r0 locs (Nd [] []))) 0) (seq 0 r)
      = map (fun q => nth ax (shape q) 0) (firstn r locs)).
  { apply nth_error_ext. intros k. rewrite nth_error_map_seq. simpl.
    destruct (Nat.ltb_spec k r).
    - symmetry. apply (map_nth_error (fun q => nth ax (shape q) 0)). rewrite nth_error_firstn_lt by lia. apply nth_error_nth'. lia.
    - symmetry. apply nth_error_None. rewrite map_length, firstn_length. lia. }
  pose proof (@npy_load_slice _ _ enc hdr es dec He Hd parse Hparse (npy_save_file order before)
     (concat_axis ax locs) ax (length locs) r
     (fun r' => Some (nth ax (shape (nth r' locs (Nd [] []))) 0)) Hwf Hax) as L.
  cbn [load_count] in L. cbv zeta in L. rewrite Hs in L. rewrite E in L. apply L; [|exact Hb].
  intros q. eapply npy_save_any_schedule; eauto.
Qed.

Lemma default_load_counts N size : 0 < size ->
  (forall r, load_count N None size r = if r <? N / size + N mod size then 1 else 0) /\
  sum (map (load_count N None size) (seq 0 size)) <= size /\
  (sum (map (load_count N None size) (seq 0 size)) = N <-> N < size \/ N = 1).
Proof.
  intros H. split; [reflexivity|]. split; [|now apply default_counts_whole].
  change (load_count N None size) with (fun r => load_count N None size r).
  rewrite default_counts_sum. apply Nat.le_min_l.
Qed.

Lemma default_load_content
  A B (enc : A -> list B) (hdr : list nat -> list B) es dec :
  (forall a, length (enc a) = es) -> (forall a, dec (enc a) = Some a) ->
  forall parse, (forall f sh, (forall k, k < length (hdr sh) -> f k = nth_error (hdr sh) k) ->
                   parse f = Some (sh, length (hdr sh))) ->
  forall (a : nd A) ax size rank f, wf a -> ax < length (shape a) -> rank < size ->
  (forall q, f q = nth_error (np_save enc hdr a) q) ->
  let N := nth ax (shape a) 0 in
  let p := if rank <? N / size + N mod size then slice_axis ax rank 1 a else slice_axis ax 0 0 a in
  npy_load dec parse f es ax size rank (fun _ => None) = Some (Nd (shape p) (map Some (flat p))).
Proof.
  intros He Hd parse Hparse a ax size rank f Hwf Hax Hr Hf N p.
  pose proof (@npy_load_slice _ _ enc hdr es dec He Hd parse Hparse f a ax size rank (fun _ => None)
    Hwf Hax Hf) as L. cbv zeta in L. fold N in L. rewrite default_counts_sum in L.
  assert (HX : N / size + N mod size <= N).
  { clear -Hr. clearbody N. pose proof (Nat.div_mod N size ltac:(lia)) as E.
    generalize dependent (N / size). generalize dependent (N mod size). intros m q ->. nia. }
  cbn [load_count] in L.
  unfold p. destruct (Nat.ltb_spec rank (N / size + N mod size)) as [Hlt|Hge].
  - rewrite Nat.min_l in L by lia. apply L. lia.
  - rewrite Nat.min_r in L by lia.
    rewrite L by lia. reflexivity.
Qed.

Lemma bd_nonempty_iff N size : 0 < size ->
  ((forall r, r < size -> 0 < fst (blockdist N size r)) <-> size <= N).
Proof.
  intros H. split.
  - intros Hall. specialize (Hall (size - 1) ltac:(lia)).
    change (fst (blockdist N size (size - 1))) with (bd_n N size (size - 1)) in Hall.
    rewrite bd_n_eq in Hall by lia.
    destruct (Nat.lt_ge_cases N size) as [Hlt|]; [|assumption].
    rewrite Nat.div_small, Nat.mod_small in Hall by lia.
    replace (size - 1 <? N) with false in Hall by lia. lia.
  - intros Hle r Hr. change (fst (blockdist N size r)) with (bd_n N size r). rewrite bd_n_eq by lia.
    pose proof (Nat.div_str_pos N size ltac:(lia)). lia.
Qed.
