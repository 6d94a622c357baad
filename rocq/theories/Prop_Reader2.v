(* Property theorems C14-C19, C78, C79: the file readers. *)
From Coq Require Import Permutation Sorted.
From Verif Require Import Base_List Model_Parallel Proof_Parallel Proof_Reader1
  Model_Reader2 Spec_Reader2 Proof_Reader2 Proof_Reader2b.
Set Implicit Arguments.

(* the read takes the ordinary (not padded) path *)
Definition small_message (size nreaders nxyz nv ver m : nat) : Prop :=
  4 <= ver \/ ~ big_message size nreaders nxyz nv m.
Lemma small_no_padding size nreaders nxyz nv ver m : 0 < nreaders <= size ->
  small_message size nreaders nxyz nv ver m -> use_padding size nreaders nxyz nv ver m = false.
Proof.
  intros H Hs. destruct (use_padding _ _ _ _ _ _) eqn:E; [|reflexivity].
  apply use_padding_iff in E; [|assumption]. destruct E, Hs; [lia|contradiction].
Qed.

(* ---- C14 ---- *)
Theorem C14_two_stage_read_any_message_order :
  forall A (zero : A) size nreaders nxyz nv ver fs names ts te dst order,
  dst < size -> NoDup names ->
  (forall k, In k names -> nc_ok nxyz nv (fs k) /\ NoDup (nc_labels (fs k))) ->
  ts <= te <= length (nc_record zero nxyz fs names) ->
  Permutation order (seq 0 size) ->
  small_message size (nreaders_of nreaders size) nxyz nv ver (te - ts) ->
  get_data_for_time2 zero size (nreaders_of nreaders size) nxyz nv ver fs names ts te dst order
  = Ok (concat (map (own_points nxyz nv size dst) (window ts (te - ts) (nc_record zero nxyz fs names)))).
Proof.
  intros. apply get_data_for_time2_in; try assumption; try lia.
  - apply nreaders_of_ok; lia.
  - intros k Hk. split; [apply H1 in Hk; apply Hk|now apply H1].
  - apply small_no_padding; [apply nreaders_of_ok; lia|assumption].
Qed.
Print Assumptions C14_two_stage_read_any_message_order.

(* whatever the time labels of the files are, a read that does not raise delivers the right data *)
Theorem C14_two_stage_read_never_wrong :
  forall A (zero : A) size nreaders nxyz nv ver fs names ts te dst order got,
  dst < size -> NoDup names -> (forall k, In k names -> nc_ok nxyz nv (fs k)) ->
  ts <= te <= length (nc_record zero nxyz fs names) ->
  Permutation order (seq 0 size) ->
  get_data_for_time2 zero size (nreaders_of nreaders size) nxyz nv ver fs names ts te dst order = Ok got ->
  got = concat (map (own_points nxyz nv size dst) (window ts (te - ts) (nc_record zero nxyz fs names))).
Proof.
  intros. eapply get_data_for_time2_safe; try eassumption; try lia.
  - apply nreaders_of_ok; lia.
  - intros k Hk. now apply H1.
Qed.
Print Assumptions C14_two_stage_read_never_wrong.

(* the pieces of the ranks put together are the whole row *)
Theorem C14_pieces_cover : forall A nxyz nv size (row : list A),
  0 < size -> length row = nxyz * nv ->
  concat (map (fun dst => own_points nxyz nv size dst row) (seq 0 size)) = row.
Proof. exact @own_points_cover. Qed.
Print Assumptions C14_pieces_cover.

(* ---- C15 ---- *)
Theorem C15_chunked_store_tiles_the_record :
  forall A (zero : A) size nreaders nxyz nv ver nchunks nblks fs names dst orders,
  dst < size -> NoDup names -> 0 < nchunks -> 0 < nblks ->
  (forall k, In k names -> nc_ok nxyz nv (fs k) /\ NoDup (nc_labels (fs k))) ->
  (forall c, Permutation (orders c) (seq 0 size)) ->
  (forall m, m <= length (nc_record zero nxyz fs names) -> small_message size (nreaders_of nreaders size) nxyz nv ver m) ->
  exists st,
    get_data2 zero size (nreaders_of nreaders size) nxyz nv ver nchunks nblks fs names dst orders = Ok st /\
    map fst st = seq 0 (nchunks * nblks) /\
    tiling 0 (map (fun e => (b_s (snd e), b_e (snd e))) st) (length (nc_record zero nxyz fs names)) /\
    forall k b, In (k, b) st ->
      b_v b = map (own_points nxyz nv size dst) (window (b_s b) (b_e b - b_s b) (nc_record zero nxyz fs names)).
Proof. exact @chunked_store_tiles. Qed.
Print Assumptions C15_chunked_store_tiles_the_record.

(* ---- C16 ---- *)
Theorem C16_unique_labels_select_exactly : forall A (zero : A) nxyz (f : ncfile A) a cnt,
  NoDup (nc_labels f) -> 0 < cnt -> a + cnt <= length (nc_labels f) ->
  read_file zero nxyz f a cnt = Ok (map (nc_snapshot zero nxyz f) (seq a cnt)).
Proof. exact @read_file_unique. Qed.
Print Assumptions C16_unique_labels_select_exactly.

Theorem C16_repeated_boundary_label_raises : forall A (zero : A) nxyz (f : ncfile A) a cnt k,
  0 < cnt -> a + cnt <= length (nc_labels f) -> k < length (nc_labels f) ->
  (k < a /\ nth k (nc_labels f) 0%Z = nth a (nc_labels f) 0%Z \/
   a + cnt <= k /\ nth k (nc_labels f) 0%Z = nth (a + cnt - 1) (nc_labels f) 0%Z) ->
  read_file zero nxyz f a cnt = Err ValueError \/ read_file zero nxyz f a cnt = Err KeyError.
Proof. exact @read_file_duplicate. Qed.
Print Assumptions C16_repeated_boundary_label_raises.

Theorem C16_never_wrong_rows : forall A (zero : A) nxyz (f : ncfile A) a cnt got,
  0 < cnt -> a + cnt <= length (nc_labels f) ->
  read_file zero nxyz f a cnt = Ok got -> got = map (nc_snapshot zero nxyz f) (seq a cnt).
Proof. exact @read_file_exact. Qed.
Print Assumptions C16_never_wrong_rows.

(* ---- C17 ---- *)
Theorem C17_last_block_nonempty_iff : forall A (rows : list A) x nt nchunks nblks,
  0 < nchunks -> 0 < nblks -> length rows = nt ->
  (forall c, c < nchunks -> x c = window (snd (blockdist nt nchunks c)) (fst (blockdist nt nchunks c)) rows) ->
  let st := chunk_store nt nchunks nblks x in
  (nchunks * nblks <= nt -> exists r, last_block_row st = Ok r /\ In r rows) /\
  (nt < nchunks * nblks -> last_block_row st = Err ValueError).
Proof. exact @last_block_spec. Qed.
Print Assumptions C17_last_block_nonempty_iff.

(* snapshots of 256 MB or more per process: too many chunks for every length of the record *)
Theorem C17_large_snapshots_always_fail : forall nt values itemsize size,
  (0 < size)%N -> (0 < nt)%N -> (1024 * 1024 * 256 * size <= values * itemsize)%N ->
  (nt < auto_nchunks nt values itemsize size * 3)%N.
Proof. exact auto_chunks_too_many. Qed.
Print Assumptions C17_large_snapshots_always_fail.

(* snapshots of a third of that or less, and at least three of them: there is at least one chunk and no block is empty *)
Theorem C17_small_snapshots_always_fit : forall nt values itemsize size,
  (0 < size)%N -> (3 <= nt)%N -> (3 * (values * itemsize) <= 1024 * 1024 * 256 * size)%N ->
  (1 <= auto_nchunks nt values itemsize size)%N /\ (auto_nchunks nt values itemsize size * 3 <= nt)%N.
Proof.
  intros nt values itemsize size Hs Hn Hv. unfold auto_nchunks.
  set (S := (1024 * 1024 * 256 * size)%N) in *. assert (HS : (S <> 0)%N) by (unfold S; lia). clearbody S.
  assert (H : (nt * values * itemsize / S * 3 <= nt)%N).
  { assert (E : (3 * (nt * values * itemsize) <= nt * S)%N).
    { replace (3 * (nt * values * itemsize))%N with (nt * (3 * (values * itemsize)))%N by nia. apply N.mul_le_mono_l; exact Hv. }
    pose proof (N.mul_div_le (nt * values * itemsize) S HS) as H1.
    apply (N.mul_le_mono_pos_l _ _ S); [lia|].
    replace (S * (nt * values * itemsize / S * 3))%N with (3 * (S * (nt * values * itemsize / S)))%N by nia.
    eapply N.le_trans; [apply N.mul_le_mono_l; exact H1|]. rewrite (N.mul_comm S nt). exact E. }
  split; lia.
Qed.
Print Assumptions C17_small_snapshots_always_fit.

(* ---- C18 ---- *)
Theorem C18_padded_path_always_fails : forall A (zero : A) size nreaders nxyz nv ver fs names ts te dst order,
  0 < size -> ver < 4 -> big_message size (nreaders_of nreaders size) nxyz nv (te - ts) ->
  exists e, get_data_for_time2 zero size (nreaders_of nreaders size) nxyz nv ver fs names ts te dst order = Err e.
Proof.
  intros. apply padded_fails. apply use_padding_iff; [apply nreaders_of_ok; lia|]. now split.
Qed.
Print Assumptions C18_padded_path_always_fails.

Theorem C18_padded_path_always_fails_mat : forall A K (zero : A) (leb : K -> K -> bool) size nxyz nv ver content names ts te dst order,
  0 < size -> ver < 4 -> big_message size size nxyz nv (te - ts) ->
  get_data_for_time_mat zero leb size nxyz nv ver content names ts te dst order = Err UnboundLocalError.
Proof.
  intros. unfold get_data_for_time_mat, redistribute.
  replace (use_padding _ _ _ _ _ _) with true; [reflexivity|]. symmetry. apply use_padding_iff; [lia|]. now split.
Qed.
Print Assumptions C18_padded_path_always_fails_mat.

Example C18_nonvacuous : exists nxyz, big_message 1 1 nxyz 1 1.
Proof.
  destruct (Z_of_nat_complete 2147483647) as [N HN]; [lia|]. exists N.
  unfold big_message. fold (bd_n 1 1 0). fold (bd_n N 1 0). rewrite !bd_n_eq by lia.
  rewrite !Nat.div_1_r, !Nat.mod_1_r. cbn [Nat.ltb Nat.leb].
  replace ((1 + 0) * 1 * (N + 0) * 1) with N by lia. lia.
Qed.

(* ---- C19 ---- *)
Theorem C19_sorted_name_order :
  forall A K (zero : A) (leb : K -> K -> bool) size nxyz nv ver content names sorted_names ts te dst order,
  (forall x y, leb x y = true \/ leb y x = true) ->
  (forall x y z, leb x y = true -> leb y z = true -> leb x z = true) ->
  (forall x y, leb x y = true -> leb y x = true -> x = y) ->
  Permutation sorted_names names -> StronglySorted (fun x y => leb x y = true) sorted_names ->
  dst < size -> (forall k, In k names -> length (content k) = nv) -> ts <= te <= length names ->
  Permutation order (seq 0 size) -> small_message size size nxyz nv ver (te - ts) ->
  get_data_for_time_mat zero leb size nxyz nv ver content names ts te dst order
  = Ok (concat (map (own_points nxyz nv size dst)
      (window ts (te - ts) (map (fun k => mat_snapshot zero nxyz (content k)) sorted_names)))).
Proof. exact @mat_sorted_order. Qed.
Print Assumptions C19_sorted_name_order.

(* the hypotheses are satisfiable: a sorted rearrangement always exists *)
Theorem C19_sorted_exists : forall K (leb : K -> K -> bool) names,
  (forall x y, leb x y = true \/ leb y x = true) ->
  (forall x y z, leb x y = true -> leb y z = true -> leb x z = true) ->
  exists s, Permutation s names /\ StronglySorted (fun x y => leb x y = true) s.
Proof. intros K leb names Ht Htr. exists (sort leb names). split; [apply sort_perm|now apply sort_sorted]. Qed.
Print Assumptions C19_sorted_exists.

(* ---- C78 ---- *)
(* a request for one snapshot never fails and never reports the end of the data: beyond the end it
   delivers a snapshot of zeros *)
Theorem C78_stream_from_mat_files_never_ends :
  forall A K (zero : A) (leb : K -> K -> bool) size nxyz nv ver content names dst order t,
  dst < size -> (forall k, In k names -> length (content k) = nv) ->
  Permutation order (seq 0 size) -> small_message size size nxyz nv ver 1 -> length names <= t ->
  get_data_for_time_mat zero leb size nxyz nv ver content names t (t + 1) dst order
  = Ok (repeat zero (fst (blockdist nxyz size dst) * nv)).
Proof. exact @mat_stream_zero. Qed.
Print Assumptions C78_stream_from_mat_files_never_ends.

Theorem C78_stream_from_nc_files_never_ends :
  forall A (zero : A) size nreaders nxyz nv ver fs names dst order t,
  dst < size -> NoDup names -> (forall k, In k names -> nc_ok nxyz nv (fs k) /\ NoDup (nc_labels (fs k))) ->
  Permutation order (seq 0 size) -> small_message size (nreaders_of nreaders size) nxyz nv ver 1 ->
  length (nc_record zero nxyz fs names) <= t ->
  get_data_for_time2 zero size (nreaders_of nreaders size) nxyz nv ver fs names t (t + 1) dst order
  = Ok (repeat zero (fst (blockdist nxyz size dst) * nv)).
Proof. exact @nc_stream_zero. Qed.
Print Assumptions C78_stream_from_nc_files_never_ends.

(* ---- C79 ---- *)
Theorem C79_repeated_file_rejected :
  forall A (zero : A) size nreaders nxyz nv ver (fs : nat -> ncfile A) names ts te dst order,
  0 < size -> (forall k, In k names -> 0 < length (nc_labels (fs k))) -> ~ NoDup names ->
  exists e, get_data_for_time2 zero size nreaders nxyz nv ver fs names ts te dst order = Err e.
Proof. exact @duplicate_name_read_fails. Qed.
Print Assumptions C79_repeated_file_rejected.

(* ---- concrete cases ---- *)
Definition f0 : ncfile nat := NcFile [10; 20]%Z [[[1;2;3]; [4;5;6]]; [[7;8;9]; [10;11;12]]].
Definition f1 : ncfile nat := NcFile [30]%Z [[[13;14;15]]; [[16;17;18]]].
Definition fs01 (k : nat) := match k with 0 => f0 | _ => f1 end.
Lemma fs01_ok : forall k, In k [0; 1] -> nc_ok 3 2 (fs01 k) /\ NoDup (nc_labels (fs01 k)).
Proof.
  intros k [<-|[<-|[]]]; cbn; (split; [split; [reflexivity|]|repeat constructor; cbn; intuition lia]);
    cbn; intuition; subst; cbn in *; intuition; subst; reflexivity.
Qed.
(* two ranks, one reader, messages arriving in reverse order *)
Example C14_case : get_data_for_time2 0 2 (nreaders_of (Some 1) 2) 3 2 3 fs01 [0; 1] 1 3 1 [1; 0]
  = Ok [6; 12; 15; 18].
Proof.
  rewrite C14_two_stage_read_any_message_order; try reflexivity; try (cbn; lia).
  - repeat constructor; cbn; intuition lia.
  - apply fs01_ok.
  - apply perm_swap.
  - right. unfold big_message. cbn. lia.
Qed.
Example C79_case : ~ NoDup [0; 1; 0].
Proof. intros H. inversion H; subst. cbn in *. intuition. Qed.
Example C16_case : read_file 0 1 (NcFile [1; 1; 2]%Z [[[5]; [6]; [7]]]) 1 2 = Err ValueError.
Proof. reflexivity. Qed.
Example C17_case : last_block_row (chunk_store 4 2 3 (fun c => window (2 * c) 2 [10; 11; 12; 13])) = Err ValueError.
Proof. reflexivity. Qed.
(* the record of three snapshots cut into two chunks of one block each, and a request beyond the end *)
Lemma fs01_small m : m <= 3 -> small_message 2 (nreaders_of (Some 1) 2) 3 2 3 m.
Proof.
  intros Hm. right. unfold big_message.
  assert (E : fst (blockdist m (nreaders_of (Some 1) 2) 0) <= 3).
  { destruct m as [|[|[|[|m]]]]; [cbn; lia..|lia]. }
  assert (E2 : fst (blockdist 3 2 0) = 2) by reflexivity. rewrite E2. lia.
Qed.
Example C15_case : exists st,
  get_data2 0 2 (nreaders_of (Some 1) 2) 3 2 3 2 1 fs01 [0; 1] 1 (fun _ => [1; 0]) = Ok st /\
  map fst st = [0; 1] /\ tiling 0 (map (fun e => (b_s (snd e), b_e (snd e))) st) 3.
Proof.
  destruct (@C15_chunked_store_tiles_the_record nat 0 2 (Some 1) 3 2 3 2 1 fs01 [0; 1] 1 (fun _ => [1; 0])) as [st [H1 [H2 [H3 _]]]].
  - lia.
  - repeat constructor; cbn; intuition lia.
  - lia.
  - lia.
  - apply fs01_ok.
  - intros _. apply perm_swap.
  - intros m Hm. apply fs01_small. cbn in Hm. lia.
  - exists st. repeat split; assumption.
Qed.
Example C78_case : get_data_for_time2 0 2 (nreaders_of (Some 1) 2) 3 2 3 fs01 [0; 1] 5 6 0 [1; 0] = Ok [0; 0; 0; 0].
Proof.
  apply (@C78_stream_from_nc_files_never_ends nat 0 2 (Some 1) 3 2 3 fs01 [0; 1] 0 [1; 0] 5).
  - lia.
  - repeat constructor; cbn; intuition lia.
  - apply fs01_ok.
  - apply perm_swap.
  - apply (@fs01_small 1). lia.
  - cbn. lia.
Qed.
(* files given as 2, 0, 1 are read as 0, 1, 2 *)
Example C19_case : get_data_for_time_mat 0 Nat.leb 2 3 1 4 (fun k => [[10 * k; 10 * k + 1; 10 * k + 2]]) [2; 0; 1] 0 2 0 [1; 0] = Ok [0; 1; 10; 11].
Proof.
  rewrite (@C19_sorted_name_order nat nat 0 Nat.leb 2 3 1 4 (fun k => [[10 * k; 10 * k + 1; 10 * k + 2]]) [2; 0; 1] [0; 1; 2] 0 2 0 [1; 0]); try reflexivity.
  - intros x y. rewrite !Nat.leb_le. lia.
  - intros x y z. rewrite !Nat.leb_le. lia.
  - intros x y. rewrite !Nat.leb_le. lia.
  - apply Permutation_sym, (Permutation_cons_app [0; 1] []). reflexivity.
  - repeat constructor.
  - lia.
  - cbn. lia.
  - apply perm_swap.
  - left. lia.
Qed.
