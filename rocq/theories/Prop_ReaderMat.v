(* Property theorems C107: the whole record read from MATLAB files. *)
From Coq Require Import Permutation Sorted.
From Verif Require Import Base_List Model_Parallel Proof_Parallel Proof_Reader1
  Model_Reader2 Spec_Reader2 Proof_Reader2 Proof_Reader2b Model_ReaderMat.
Set Implicit Arguments.

Lemma mat_snapshot_length A (zero : A) nxyz vars : length (mat_snapshot zero nxyz vars) = nxyz * length vars.
Proof.
  unfold mat_snapshot. generalize 0. induction nxyz as [|n IH]; intros s; [reflexivity|].
  cbn [seq flat_map]. rewrite app_length, map_length, IH. lia.
Qed.

(* ---- C107 ---- *)
(* the store read from MATLAB files tiles the record in the order of the sorted names, in any message order *)
Theorem C107_mat_store_tiles_the_sorted_record :
  forall A K (zero : A) (leb : K -> K -> bool) size nxyz nv ver nchunks nblks content names sorted_names dst orders,
  (forall x y, leb x y = true \/ leb y x = true) ->
  (forall x y z, leb x y = true -> leb y z = true -> leb x z = true) ->
  (forall x y, leb x y = true -> leb y x = true -> x = y) ->
  Permutation sorted_names names -> StronglySorted (fun x y => leb x y = true) sorted_names ->
  dst < size -> 0 < nchunks -> 0 < nblks ->
  (forall k, In k names -> length (content k) = nv) ->
  (forall c : nat, Permutation (orders c) (seq 0 size)) ->
  (forall m, m <= length names -> 4 <= ver \/ ~ big_message size size nxyz nv m) ->
  exists st,
    get_data_mat zero leb size nxyz nv ver nchunks nblks content names dst orders = Ok st /\
    map fst st = seq 0 (nchunks * nblks) /\
    tiling 0 (map (fun e => (b_s (snd e), b_e (snd e))) st) (length names) /\
    forall k b, In (k, b) st ->
      b_v b = map (own_points nxyz nv size dst)
                  (window (b_s b) (b_e b - b_s b) (map (fun k => mat_snapshot zero nxyz (content k)) sorted_names)).
Proof.
  intros A K zero leb size nxyz nv ver nchunks nblks content names sorted_names dst orders
    Ht Htr Ha Hp Hss Hd Hc Hb Hk Ho Hs.
  set (R := map (fun k => mat_snapshot zero nxyz (content k)) sorted_names).
  set (rows := map (own_points nxyz nv size dst) R).
  set (nt := length names).
  assert (HR : length R = nt) by (unfold R; rewrite map_length; now apply Permutation_length).
  set (G := fun c => window (bd_s nt nchunks c) (bd_n nt nchunks c) rows).
  assert (E : get_data_mat zero leb size nxyz nv ver nchunks nblks content names dst orders
              = Ok (chunk_store nt nchunks nblks (fun c => nth c (map G (seq 0 nchunks)) []))).
  { unfold get_data_mat. fold nt. rewrite (all_ok_map _ G); [reflexivity|].
    intros c Hcc. apply in_seq in Hcc. rewrite bd_pair. pose proof (@bd_fits nt nchunks c ltac:(lia)).
    rewrite (@mat_sorted_order A K zero leb size nxyz nv ver content names sorted_names); try assumption; try (unfold nt in *; lia).
    - cbn [bind]. f_equal.
      replace (bd_s nt nchunks c + bd_n nt nchunks c - bd_s nt nchunks c) with (bd_n nt nchunks c) by lia.
      fold R. rewrite map_window. fold rows. apply chop_concat.
      + intros l Hl. apply In_window in Hl. unfold rows in Hl. apply in_map_iff in Hl as [r [<- Hr']].
        apply own_points_length; [assumption|]. unfold R in Hr'. apply in_map_iff in Hr' as [k [<- Hk']].
        rewrite mat_snapshot_length. rewrite Hk; [reflexivity|]. eapply Permutation_in; eassumption.
      + unfold G. rewrite window_length. unfold rows. rewrite map_length. lia.
    - apply Ho.
    - apply Hs. fold nt. lia. }
  eexists. split; [exact E|].
  destruct (@chunk_store_spec _ rows (fun c => nth c (map G (seq 0 nchunks)) []) nt nchunks nblks Hc Hb) as (K1 & K2 & K3).
  - unfold rows. now rewrite map_length.
  - intros c Hcc. cbv beta. now rewrite (nth_map_seq0 G) by assumption.
  - split; [assumption|]. split; [assumption|]. intros k b Hin. rewrite map_window. fold rows. now apply (K3 k b).
Qed.
Print Assumptions C107_mat_store_tiles_the_sorted_record.

(* no chunk of the automatic number of chunks is empty *)
Theorem C107_no_empty_chunk : forall nt values itemsize size c,
  (0 < size)%N -> (0 < nt)%N -> (c < N.to_nat (auto_nchunks_mat nt values itemsize size))%nat ->
  0 < fst (blockdist (N.to_nat nt) (N.to_nat (auto_nchunks_mat nt values itemsize size)) c).
Proof.
  intros nt values itemsize size c Hs Hn Hc.
  assert (H : (auto_nchunks_mat nt values itemsize size <= nt)%N).
  { unfold auto_nchunks_mat. etransitivity; [apply N.le_min_r|]. apply N.div_le_upper_bound; [lia|]. nia. }
  fold (bd_n (N.to_nat nt) (N.to_nat (auto_nchunks_mat nt values itemsize size)) c).
  rewrite bd_n_eq by assumption. revert H Hc. generalize (auto_nchunks_mat nt values itemsize size). intros n H Hc.
  assert (1 <= N.to_nat nt / N.to_nat n); [|lia]. apply Nat.div_le_lower_bound; lia.
Qed.
Print Assumptions C107_no_empty_chunk.

(* with five processes or more, a record of three files or more always leaves the last of the three blocks of
   the last chunk non-empty, whatever the size of a snapshot (cf. C17) *)
Theorem C107_five_processes_never_fail : forall nt values itemsize size,
  (5 <= size)%N -> (3 <= nt)%N -> (auto_nchunks_mat nt values itemsize size * 3 <= nt)%N.
Proof.
  intros nt values itemsize size Hs Hn. unfold auto_nchunks_mat.
  set (x := N.max _ _). assert (H : (((nt + size - 1) / size) * 3 <= nt)%N).
  { assert (Hd : (size * ((nt + size - 1) / size) <= nt + size - 1)%N) by (apply N.mul_div_le; lia).
    revert Hd. generalize ((nt + size - 1) / size)%N. intros q Hd.
    destruct (N.le_gt_cases q 1) as [|Hq]; [lia|].
    assert (size * q - size <= nt - 1)%N by lia.
    assert (size * (q - 1) <= nt - 1)%N by (rewrite N.mul_sub_distr_l; lia).
    assert (5 * (q - 1) <= nt - 1)%N by nia. lia. }
  assert (N.min x ((nt + size - 1) / size) <= (nt + size - 1) / size)%N by apply N.le_min_r. nia.
Qed.
Print Assumptions C107_five_processes_never_fail.

(* on fewer processes it can fail: for every number of processes up to four there are a length and a snapshot size
   for which the number of blocks exceeds the length *)
Theorem C107_few_processes_can_fail : forall size, (1 <= size <= 4)%N ->
  exists nt values itemsize, (3 <= nt)%N /\ (nt < auto_nchunks_mat nt values itemsize size * 3)%N.
Proof.
  intros size H. assert (C : size = 1%N \/ size = 2%N \/ size = 3%N \/ size = 4%N) by lia.
  destruct C as [->|[->|[->| ->]]].
  - exists 3%N, 268435456%N, 8%N. vm_compute. split; congruence.
  - exists 3%N, 268435456%N, 8%N. vm_compute. split; congruence.
  - exists 4%N, 268435456%N, 8%N. vm_compute. split; congruence.
  - exists 5%N, 268435456%N, 8%N. vm_compute. split; congruence.
Qed.
Print Assumptions C107_few_processes_can_fail.

(* small snapshots are read in one chunk *)
Theorem C107_small_record_one_chunk : forall nt values itemsize size,
  (0 < size)%N -> (0 < nt)%N -> (nt * values * itemsize < 2 * (1024 * 1024 * 256) * size)%N ->
  auto_nchunks_mat nt values itemsize size = 1%N.
Proof.
  intros nt values itemsize size Hs Hn H. unfold auto_nchunks_mat.
  assert (E : (nt * values * itemsize / (1024 * 1024 * 256 * size) < 2)%N) by (apply N.div_lt_upper_bound; lia).
  assert (F : (1 <= (nt + size - 1) / size)%N) by (apply N.div_le_lower_bound; lia). lia.
Qed.
Print Assumptions C107_small_record_one_chunk.

(* the hypotheses hold for three files of two variables over two points, given in the order 2,0,1, on two ranks *)
Example C107_nonvacuous :
  let content := fun k => [[10 * k + 1; 10 * k + 2]; [10 * k + 3; 10 * k + 4]] in
  exists st, get_data_mat 0 Nat.leb 2 2 2 4 1 3 content [2; 0; 1] 1 (fun _ => [1; 0]) = Ok st /\
    map (fun e => b_v (snd e)) st = [[[2; 4]]; [[12; 14]]; [[22; 24]]].
Proof. vm_compute. eexists. split; reflexivity. Qed.
