(* Property theorems C01, C02, C04-C09.  Statements only; proofs are in Proof_*.v. *)
From Verif Require Import Base_List Model_Parallel Spec_Array Proof_Parallel Proof_Npy Proof_Npy2.
From Verif Require Import Model_Stat Spec_Stat Proof_Stat.
From Coq Require Import QArith.
Local Open Scope nat_scope.

(* ---- C01 ---- *)
Theorem C01_blockdist_partition : forall N size, 0 < size ->
  (* ranges of ranks 0,1,2,.. follow one another and are exactly 0..N-1 *)
  concat (map (fun r => let '(n, s) := blockdist N size r in seq s n) (seq 0 size)) = seq 0 N /\
  (* balanced, lower ranks never hold fewer *)
  (forall r r', r <= r' -> r' < size ->
     fst (blockdist N size r') <= fst (blockdist N size r) <= fst (blockdist N size r') + 1) /\
  (* outside the group *)
  (forall r, size <= r -> blockdist N size r = (0, 0)).
Proof. exact blockdist_partition. Qed.
Print Assumptions C01_blockdist_partition.
Example C01_nonvacuous : map (fun r => blockdist 7 3 r) (seq 0 4) = [(3, 0); (2, 3); (2, 5); (0, 0)].
Proof. reflexivity. Qed.

(* ---- C02 ---- *)
Theorem C02_distribute_entries : forall A (a : nd A) ax size r,
  wf a -> ax < length (shape a) -> r < size ->
  let '(n, s) := blockdist (nth ax (shape a) 0) size r in
  exists a', distribute_dimension a ax (Some (size, r)) = Ok a' /\ wf a' /\
    shape a' = upd_nth ax n (shape a) /\
    forall idx, valid (shape a') idx ->
      entry a' idx = entry a (shift_axis ax s idx) /\ valid (shape a) (shift_axis ax s idx).
Proof. exact distribute_entries. Qed.
Print Assumptions C02_distribute_entries.

Theorem C02_distribute_exactly_one_owner : forall N size k, 0 < size -> k < N ->
  exists! r, r < size /\ snd (blockdist N size r) <= k < snd (blockdist N size r) + fst (blockdist N size r).
Proof. exact bd_locate. Qed.
Print Assumptions C02_distribute_exactly_one_owner.

Theorem C02_distribute_reassemble : forall A (a : nd A) ax size,
  wf a -> ax < length (shape a) -> 0 < size ->
  exists pieces, Forall2 (fun r p => distribute_dimension a ax (Some (size, r)) = Ok p) (seq 0 size) pieces /\
    concat_axis ax pieces = a /\ Permutation (concat (map (@flat A) pieces)) (flat a).
Proof. exact distribute_reassemble. Qed.
Print Assumptions C02_distribute_reassemble.

(* concat_axis is np.concatenate: entry [..,k,..] of piece r is entry [..,k + counts of pieces before r,..] *)
Theorem C02_concat_axis_meaning : forall A ax (ps : list (nd A)) r idx,
  joinable ax ps -> r < length ps -> valid (shape (nth r ps (Nd [] []))) idx ->
  entry (nth r ps (Nd [] [])) idx
  = entry (concat_axis ax ps) (shift_axis ax (sum (map (fun q => nth ax (shape q) 0) (firstn r ps))) idx).
Proof. exact @concat_axis_entry. Qed.
Print Assumptions C02_concat_axis_meaning.

Theorem C02_distribute_serial : forall A (a : nd A) ax, distribute_dimension a ax None = Ok a.
Proof. exact distribute_serial. Qed.
Print Assumptions C02_distribute_serial.

Example C02_nonvacuous :
  distribute_dimension (Nd [2; 3; 2] (seq 0 12)) 1 (Some (2, 1)) = Ok (Nd [2; 1; 2] [4; 5; 10; 11]).
Proof. reflexivity. Qed.

(* ---- C04 ---- *)
Theorem C04_npy_save_any_schedule :
  forall A B (enc : A -> list B) (hdr : list nat -> list B) es,
  (forall a, length (enc a) = es) ->
  forall ax (locs : list (nd A)), joinable ax locs -> locs <> [] ->
  forall order, Permutation order (npy_save_writes enc hdr es ax locs) ->
  forall before p,
    npy_save_file order before p = nth_error (np_save enc hdr (concat_axis ax locs)) p.
Proof. exact npy_save_any_schedule. Qed.
Print Assumptions C04_npy_save_any_schedule.

Theorem C04_save_of_distributed_is_serial_save :
  forall A B (enc : A -> list B) (hdr : list nat -> list B) es,
  (forall a, length (enc a) = es) ->
  forall (a : nd A) ax size, wf a -> ax < length (shape a) -> 0 < size ->
  exists locs, Forall2 (fun r p => distribute_dimension a ax (Some (size, r)) = Ok p) (seq 0 size) locs /\
  forall order, Permutation order (npy_save_writes enc hdr es ax locs) ->
  forall before p, npy_save_file order before p = nth_error (np_save enc hdr a) p.
Proof. exact npy_save_distributed. Qed.
Print Assumptions C04_save_of_distributed_is_serial_save.

(* three ranks, the last with an empty piece *)
Example C04_nonvacuous :
  let locs := [Nd [2; 1] [10; 20]; Nd [2; 1] [11; 21]; Nd [2; 0] []] in
  joinable 1 locs /\ concat_axis 1 locs = Nd [2; 2] [10; 11; 20; 21] /\
  npy_save_writes (fun x : nat => [x]) (fun sh => sh) 1 1 locs
  = [(0, 2); (1, 2); (2, 10); (4, 20); (3, 11); (5, 21)].
Proof.
  cbv zeta. split; [|split; reflexivity].
  intros p q [<-|[<-|[<-|[]]]] [<-|[<-|[<-|[]]]]; unfold wf; simpl; repeat split; lia.
Qed.

(* ---- C05 ---- *)
Theorem C05_npy_round_trip :
  forall A B (enc : A -> list B) (hdr : list nat -> list B) es dec,
  (forall a, length (enc a) = es) -> (forall a, dec (enc a) = Some a) ->
  forall parse, (forall f sh, (forall k, k < length (hdr sh) -> f k = nth_error (hdr sh) k) ->
                   parse f = Some (sh, length (hdr sh))) ->
  forall ax (locs : list (nd A)) order before, joinable ax locs -> locs <> [] ->
  Permutation order (npy_save_writes enc hdr es ax locs) ->
  forall r, r < length locs ->
  let mine := nth r locs (Nd [] []) in
  npy_load dec parse (npy_save_file order before) es ax (length locs) r
    (fun r' => Some (nth ax (shape (nth r' locs (Nd [] []))) 0))
  = Some (Nd (shape mine) (map Some (flat mine))).
Proof. exact npy_round_trip. Qed.
Print Assumptions C05_npy_round_trip.

(* ---- C06 ---- *)
Theorem C06_default_load_counts_refuted : forall N size, 0 < size ->
  (forall r, load_count N None size r = if r <? N / size + N mod size then 1 else 0) /\
  sum (map (load_count N None size) (seq 0 size)) <= size /\
  (sum (map (load_count N None size) (seq 0 size)) = N <-> N < size \/ N = 1).
Proof. exact default_load_counts. Qed.
Print Assumptions C06_default_load_counts_refuted.

(* what a rank really obtains: at most one slice, at the position given by its rank *)
Theorem C06_default_load_content :
  forall A B (enc : A -> list B) (hdr : list nat -> list B) es dec,
  (forall a, length (enc a) = es) -> (forall a, dec (enc a) = Some a) ->
  forall parse, (forall f sh, (forall k, k < length (hdr sh) -> f k = nth_error (hdr sh) k) ->
                   parse f = Some (sh, length (hdr sh))) ->
  forall (a : nd A) ax size rank f, wf a -> ax < length (shape a) -> rank < size ->
  (forall q, f q = nth_error (np_save enc hdr a) q) ->
  let N := nth ax (shape a) 0 in
  let p := if rank <? N / size + N mod size then slice_axis ax rank 1 a else slice_axis ax 0 0 a in
  npy_load dec parse f es ax size rank (fun _ => None) = Some (Nd (shape p) (map Some (flat p))).
Proof. exact @default_load_content. Qed.
Print Assumptions C06_default_load_content.

(* ---- C07 ---- *)
Theorem C07_pvar_any_reduction : forall t : rtree (list Q),
  (forall l, In l (leaves t) -> l <> []) ->
  let data := concat (leaves t) in
  exists v m, pvar t = (Some v, Some m, s_n (reduce t)) /\
    Qeq (s_n (reduce t)) (count data) /\ Qeq m (mean data) /\ Qeq v (variance data).
Proof. exact pvar_any_reduction. Qed.
Print Assumptions C07_pvar_any_reduction.
Example C07_nonvacuous :
  let t := Node (Leaf [1; 3]%Q) (Node (Leaf [5]) (Leaf [7; 9; 11]))%Q in
  Qeq (match s_v (reduce t) with Some v => v | None => 0 end) (35 # 3).
Proof. reflexivity. Qed.

(* ---- C08 ---- *)
Theorem C08_pvar_empty_piece_is_nan : forall t : rtree (list Q),
  In [] (leaves t) -> exists n, pvar t = (None, None, n).
Proof. exact pvar_empty_nan. Qed.
Print Assumptions C08_pvar_empty_piece_is_nan.
Theorem C08_empty_pieces_iff_more_ranks_than_entries : forall N size, 0 < size ->
  ((forall r, r < size -> 0 < fst (blockdist N size r)) <-> size <= N).
Proof. exact bd_nonempty_iff. Qed.
Print Assumptions C08_empty_pieces_iff_more_ranks_than_entries.

(* ---- C09 ---- *)
Theorem C09_subcomm_grid : forall size compute_dims, 0 < size ->
  (forall d, 0 < d -> fst (compute_dims d) * snd (compute_dims d) = d) ->
  let '(a, b) := subcomm_dims size compute_dims in
  a * b = size /\ 0 < a /\ 0 < b /\
  (size mod 3 = 0 -> b mod 3 = 0) /\
  (size mod 3 <> 0 -> size mod 4 = 0 -> b mod 4 = 0) /\
  (size mod 3 <> 0 -> size mod 4 <> 0 -> size mod 2 = 0 -> b mod 2 = 0).
Proof. exact subcomm_dims_spec. Qed.
Print Assumptions C09_subcomm_grid.
Theorem C09_subcomm_every_cell_one_rank : forall a b i j, i < a -> j < b ->
  exists! r, r < a * b /\ subcomm_of (a, b) r = (i, j).
Proof. exact subcomm_of_bij. Qed.
Print Assumptions C09_subcomm_every_cell_one_rank.
Example C09_nonvacuous : subcomm_dims 12 (fun d => (2, d / 2)) = (2, 6).
Proof. reflexivity. Qed.

(* ---- concrete cases ---- *)
(* a file format meeting the hypotheses of C05 and C06: one number per value, a header made of the number of axes and their lengths *)
Definition ex_hdr (sh : list nat) : list nat := length sh :: sh.
Definition ex_dec (l : list nat) : option nat := match l with [a] => Some a | _ => None end.
Fixpoint ex_take (f : nat -> option nat) (at_ n : nat) : option (list nat) :=
  match n with
  | 0 => Some []
  | S m => match f at_, ex_take f (S at_) m with Some a, Some l => Some (a :: l) | _, _ => None end
  end.
Definition ex_parse (f : nat -> option nat) : option (list nat * nat) :=
  match f 0 with Some n => match ex_take f 1 n with Some sh => Some (sh, S n) | None => None end | None => None end.
Lemma ex_take_ok f sh : forall at_, (forall k, k < length sh -> f (at_ + k) = nth_error sh k) -> ex_take f at_ (length sh) = Some sh.
Proof.
  induction sh as [|a sh IH]; intros at_ H; [reflexivity|]. cbn.
  pose proof (H 0 ltac:(cbn; lia)) as H0. rewrite Nat.add_0_r in H0. cbn in H0. rewrite H0.
  rewrite IH; [reflexivity|]. intros k Hk. rewrite Nat.add_succ_comm. apply (H (S k)). cbn; lia.
Qed.
Lemma ex_parse_ok f sh : (forall k, k < length (ex_hdr sh) -> f k = nth_error (ex_hdr sh) k) -> ex_parse f = Some (sh, length (ex_hdr sh)).
Proof.
  intros H. unfold ex_parse. rewrite (H 0) by (cbn; lia). cbn [nth_error ex_hdr].
  rewrite ex_take_ok; [reflexivity|]. intros k Hk. rewrite Nat.add_1_l. apply (H (S k)). cbn; lia.
Qed.
Definition ex_locs : list (nd nat) := [Nd [2; 2] [1; 2; 4; 5]; Nd [2; 1] [3; 6]].

(* two ranks holding two columns and one column of a 2 x 3 array, their writes reaching the file in the reverse order *)
Example C05_nonvacuous :
  (forall a : nat, length [a] = 1) /\ (forall a, ex_dec [a] = Some a) /\
  (forall f sh, (forall k, k < length (ex_hdr sh) -> f k = nth_error (ex_hdr sh) k) -> ex_parse f = Some (sh, length (ex_hdr sh))) /\
  joinable 1 ex_locs /\
  let order := rev (npy_save_writes (fun a => [a]) ex_hdr 1 1 ex_locs) in
  Permutation order (npy_save_writes (fun a => [a]) ex_hdr 1 1 ex_locs) /\
  map (npy_save_file order (fun _ => Some 99)) (seq 0 10) = [Some 2; Some 2; Some 3; Some 1; Some 2; Some 3; Some 4; Some 5; Some 6; None] /\
  npy_load ex_dec ex_parse (npy_save_file order (fun _ => Some 99)) 1 1 2 1
    (fun r' => Some (nth 1 (shape (nth r' ex_locs (Nd [] []))) 0)) = Some (Nd [2; 1] [Some 3; Some 6]).
Proof.
  repeat split; try exact ex_parse_ok.
  - destruct H as [<-|[<-|[]]]; reflexivity.
  - destruct H as [<-|[<-|[]]]; cbn; lia.
  - destruct H as [<-|[<-|[]]]; destruct H0 as [<-|[<-|[]]]; reflexivity.
  - destruct H as [<-|[<-|[]]]; destruct H0 as [<-|[<-|[]]]; reflexivity.
  - apply Permutation_sym, Permutation_rev.
Qed.

(* without the counts the second of two ranks receives one of seven columns: five are delivered to nobody *)
Example C06_nonvacuous :
  map (load_count 7 None 2) (seq 0 2) = [1; 1] /\
  npy_load ex_dec ex_parse (fun q => nth_error (np_save (fun a => [a]) ex_hdr (Nd [7] [10; 11; 12; 13; 14; 15; 16])) q) 1 0 2 1 (fun _ => None)
  = Some (Nd [1] [Some 11]).
Proof. split; reflexivity. Qed.

(* three ranks and two values: the third rank holds nothing and the result is undefined *)
Example C08_nonvacuous :
  map (fun r => fst (blockdist 2 3 r)) (seq 0 3) = [1; 1; 0] /\
  pvar (Node (Leaf [1%Q]) (Node (Leaf [3%Q]) (Leaf []))) = (None, None, 2%Q).
Proof. split; reflexivity. Qed.
