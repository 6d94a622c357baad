(* Property theorems C03, C10-C13, C77: the in-memory reader. *)
From Verif Require Import Base_List Model_Parallel Spec_Array Proof_Parallel Proof_Npy2
  Model_Reader1 Spec_Reader Proof_Reader1 Proof_Reader1b.
From Coq Require Import QArith.
Local Open Scope nat_scope.

(* ---- C03 ---- *)
(* the axis reported for weights and files is the one distribute_data cuts, and is the first
   axis of maximal length *)
Theorem C03_same_axis : forall A isreal (ds : list (nd A)) xdim nv c r sp,
  reader1_init isreal ds xdim nv c = Ok r -> (forall d, In d ds -> tl (shape d) = sp) ->
  sp <> [] -> 0 < prod sp ->
  let ax := rd_max_axis r in
  (forall d, In d ds -> 0 < hd 0 (shape d) -> wf d -> shape d <> [] -> comm_ok c ->
     exists d', distribute_data d c = Ok (d', ax, sp) /\
       snapshots d' = map (local_piece sp ax c) (snapshots d)) /\
  ax < length sp /\ (forall j, j < length sp -> nth j sp 0 <= nth ax sp 0) /\
  (forall j, j < ax -> nth j sp 0 < nth ax sp 0).
Proof. exact @same_axis. Qed.
Print Assumptions C03_same_axis.

Theorem C03_weights_pair_with_data : forall A W isreal (ds : list (nd A)) xdim nv c r sp (w : nd W) (row : list A),
  reader1_init isreal ds xdim nv c = Ok r -> (forall d, In d ds -> tl (shape d) = sp) ->
  sp <> [] -> 0 < prod sp -> comm_ok c ->
  wf w -> shape w = tl (rd_shape r) -> length row = prod sp ->
  exists w', distribute_dimension w (rd_max_axis r) c = Ok w' /\
    combine (local_piece sp (rd_max_axis r) c row) (flat w')
    = local_piece sp (rd_max_axis r) c (combine row (flat w)).
Proof. exact @weights_pair. Qed.
Print Assumptions C03_weights_pair_with_data.

(* ---- C10 ---- *)
Theorem C10_reads_concatenation : forall A B (cast : A -> B) zero isreal (ds : list (nd A)) xdim nv c r sp ax,
  well_formed ds -> comm_ok c -> reader1_init isreal ds xdim nv c = Ok r ->
  (forall d, In d ds -> tl (shape d) = sp) -> argmax sp = Ok ax ->
  rd_nt r = length (record ds) /\
  get_data cast zero r None
  = Ok (Some (map (fun row => map cast (local_piece sp ax c row)) (record ds))).
Proof. exact @get_data_all. Qed.
Print Assumptions C10_reads_concatenation.

(* however the record is split *)
Theorem C10_split_independent : forall A B (cast : A -> B) zero isreal (ds ds' : list (nd A)) xdim nv c r r' sp ax,
  well_formed ds -> well_formed ds' -> comm_ok c ->
  reader1_init isreal ds xdim nv c = Ok r -> reader1_init isreal ds' xdim nv c = Ok r' ->
  (forall d, In d ds -> tl (shape d) = sp) -> (forall d, In d ds' -> tl (shape d) = sp) ->
  argmax sp = Ok ax -> record ds = record ds' ->
  rd_nt r = rd_nt r' /\ get_data cast zero r None = get_data cast zero r' None.
Proof. exact @split_independent. Qed.
Print Assumptions C10_split_independent.

Theorem C10_shape_mismatch_rejected : forall A isreal (ds : list (nd A)) xdim nv c,
  (exists d d', In d ds /\ In d' ds /\ tl (shape d) <> tl (shape d')) ->
  reader1_init isreal ds xdim nv c = Err AssertionError.
Proof. exact @get_data_shape_mismatch. Qed.
Print Assumptions C10_shape_mismatch_rejected.

(* the hypotheses are satisfiable: every list of well-formed data over one grid whose first dataset
   is non-empty is accepted *)
Theorem C10_accepted : forall A isreal (ds : list (nd A)) xdim nv c sp,
  (forall d, In d ds -> tl (shape d) = sp) -> ds <> [] -> 0 < hd 0 (shape (hd (Nd [] []) ds)) ->
  sp <> [] -> 0 < prod sp -> exists r, reader1_init isreal ds xdim nv c = Ok r.
Proof. exact @init_accepts. Qed.
Print Assumptions C10_accepted.

Definition ex_d0 : nd nat := Nd [2; 3] [0; 1; 2; 3; 4; 5].
Definition ex_d1 : nd nat := Nd [3; 3] [10; 11; 12; 13; 14; 15; 16; 17; 18].
Example C10_nonvacuous :
  match reader1_init (fun _ => true) [ex_d0; ex_d1] 1 1 (Some (2, 1)) with
  | Ok r => get_data (fun x => x) 0 r None = Ok (Some [[2]; [5]; [12]; [15]; [18]])
  | Err _ => False end.
Proof. reflexivity. Qed.

(* ---- C11 ---- *)
Theorem C11_single_dataset_snapshot : forall A B (cast : A -> B) zero isreal (d : nd A) xdim nv c r sp ax t,
  well_formed [d] -> comm_ok c -> reader1_init isreal [d] xdim nv c = Ok r ->
  tl (shape d) = sp -> argmax sp = Ok ax ->
  get_data cast zero r (Some t) =
  match nth_error (snapshots d) t with
  | Some row => Ok (Some [map cast (local_piece sp ax c row)])
  | None => Ok None
  end.
Proof. exact @single_snapshot. Qed.
Print Assumptions C11_single_dataset_snapshot.

Theorem C11_single_dataset_stream : forall A B (cast : A -> B) zero isreal (d : nd A) xdim nv c r sp ax fuel,
  well_formed [d] -> comm_ok c -> reader1_init isreal [d] xdim nv c = Ok r ->
  tl (shape d) = sp -> argmax sp = Ok ax -> nrows d < fuel ->
  stream_from cast zero r 0 fuel = map (fun row => map cast (local_piece sp ax c row)) (snapshots d).
Proof. exact @stream_single. Qed.
Print Assumptions C11_single_dataset_stream.

(* ---- C12 ---- *)
(* request at time t inside dataset d, which is preceded by `before`: row t of d, not row
   t - (length of before); ValueError when d has no row t *)
Theorem C12_later_dataset_law : forall A B (cast : A -> B) zero isreal (ds before : list (nd A)) d after xdim nv c r sp ax t,
  well_formed ds -> comm_ok c -> reader1_init isreal ds xdim nv c = Ok r ->
  (forall d, In d ds -> tl (shape d) = sp) -> argmax sp = Ok ax ->
  ds = before ++ d :: after ->
  length (record before) <= t < length (record before) + length (snapshots d) ->
  get_data cast zero r (Some t) =
  match nth_error (snapshots d) t with
  | Some row => Ok (Some [map cast (local_piece sp ax c row)])
  | None => Err ValueError
  end.
Proof. exact @later_dataset_law. Qed.
Print Assumptions C12_later_dataset_law.

(* what a streaming fit receives from two or more datasets: third and later datasets are never read *)
Theorem C12_stream_of_several_datasets : forall A B (cast : A -> B) zero isreal (d0 d1 : nd A) rest xdim nv c r sp ax fuel,
  let ds := d0 :: d1 :: rest in
  well_formed ds -> comm_ok c -> reader1_init isreal ds xdim nv c = Ok r ->
  (forall d, In d ds -> tl (shape d) = sp) -> argmax sp = Ok ax ->
  0 < nrows d1 -> max (nrows d0) (nrows d1) < fuel ->
  stream_from cast zero r 0 fuel
  = map (fun row => map cast (local_piece sp ax c row))
      (snapshots d0 ++ skipn (nrows d0) (snapshots d1)).
Proof. exact @stream_multi. Qed.
Print Assumptions C12_stream_of_several_datasets.

(* so the record is never delivered completely *)
Theorem C12_stream_never_complete_refuted : forall A B (cast : A -> B) zero isreal (d0 d1 : nd A) rest xdim nv c r sp ax fuel,
  let ds := d0 :: d1 :: rest in
  well_formed ds -> comm_ok c -> reader1_init isreal ds xdim nv c = Ok r ->
  (forall d, In d ds -> tl (shape d) = sp) -> argmax sp = Ok ax ->
  0 < nrows d1 -> max (nrows d0) (nrows d1) < fuel ->
  length (stream_from cast zero r 0 fuel) < length (record ds).
Proof. exact @stream_incomplete. Qed.
Print Assumptions C12_stream_never_complete_refuted.

Example C12_nonvacuous :
  match reader1_init (fun _ => true) [ex_d0; ex_d1] 1 1 None with
  | Ok r => stream_from (fun x => x) 0 r 0 10 = [[0; 1; 2]; [3; 4; 5]; [16; 17; 18]]
  | Err _ => False end.
Proof. reflexivity. Qed.

(* ---- C13 ---- *)
(* complex numbers as pairs; storing them in a real buffer keeps the first component *)
Theorem C13_imaginary_part_lost : forall isreal (ds : list (nd (Q * Q))) xdim nv c r sp ax,
  well_formed ds -> comm_ok c -> reader1_init isreal ds xdim nv c = Ok r ->
  (forall d, In d ds -> tl (shape d) = sp) -> argmax sp = Ok ax ->
  get_data fst 0%Q r None = Ok (Some (map (fun row => map fst (local_piece sp ax c row)) (record ds))) /\
  (* the stored values, read as complex numbers, are the data iff the data on this rank are real *)
  (map (map (fun x => (x, 0%Q))) (map (fun row => map fst (local_piece sp ax c row)) (record ds))
     = map (local_piece sp ax c) (record ds)
   <-> forall row z, In row (record ds) -> In z (local_piece sp ax c row) -> snd z = 0%Q).
Proof. exact imaginary_lost. Qed.
Print Assumptions C13_imaginary_part_lost.

(* ---- C77 ---- *)
Theorem C77_first_snapshot_decides_reality : forall A isreal (ds : list (nd A)) xdim nv c r,
  well_formed ds -> reader1_init isreal ds xdim nv c = Ok r ->
  exists first others, record ds = first :: others /\ (rd_is_real r = true <-> forall z, In z first -> isreal z = true).
Proof. exact @first_snapshot_decides. Qed.
Print Assumptions C77_first_snapshot_decides_reality.

(* ---- concrete cases: the same two datasets, with the data points and the weights cut along the same axis ---- *)
Example C03_nonvacuous :
  match reader1_init (fun _ => true) [Nd [2; 2; 3] (seq 0 12)] 2 1 (Some (2, 1)) with
  | Ok r => rd_max_axis r = 1 /\ rd_shape r = [1; 2; 3; 1] /\
      (exists d', distribute_data (Nd [2; 2; 3] (seq 0 12)) (Some (2, 1)) = Ok (d', 1, [2; 3]) /\ snapshots d' = [[2; 5]; [8; 11]]) /\
      (exists w', distribute_dimension (Nd [2; 3; 1] [20; 21; 22; 23; 24; 25]) (rd_max_axis r) (Some (2, 1)) = Ok w' /\ flat w' = [22; 25])
  | Err _ => False end.
Proof. cbn. repeat split; eexists; split; reflexivity. Qed.

Example C11_nonvacuous : well_formed [ex_d1] /\ comm_ok (Some (2, 0)) /\ argmax [3] = Ok 0 /\
  match reader1_init (fun _ => true) [ex_d1] 1 1 (Some (2, 0)) with
  | Ok r => get_data (fun x => x) 0 r (Some 2) = Ok (Some [[16; 17]]) /\ get_data (fun x => x) 0 r (Some 3) = Ok None /\
      stream_from (fun x => x) 0 r 0 10 = [[10; 11]; [13; 14]; [16; 17]]
  | Err _ => False end.
Proof.
  split; [|split; [|split; [reflexivity|cbn; repeat split]]].
  - intros d [<-|[]]. split; [reflexivity|discriminate].
  - cbn; lia.
Qed.

Example C13_nonvacuous :
  match reader1_init (fun _ => true) [Nd [2; 2] [(1, 0); (2, 5); (3, 0); (4, 7)]%Q] 1 1 None with
  | Ok r => get_data fst 0%Q r None = Ok (Some [[1; 2]; [3; 4]]%Q)
  | Err _ => False end.
Proof. reflexivity. Qed.

(* a later complex snapshot is not noticed *)
Example C77_nonvacuous :
  match reader1_init (fun z : Q * Q => Qeq_bool (snd z) 0) [Nd [2; 2] [(1, 0); (2, 0); (3, 0); (4, 7)]%Q] 1 1 None with
  | Ok r => rd_is_real r = true
  | Err _ => False end.
Proof. reflexivity. Qed.
