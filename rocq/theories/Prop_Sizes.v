(* C145: the problem sizes a fit reports. *)
From Coq Require Import QArith Qabs.
From Verif Require Import Base_List Model_Parallel Model_Reader1 Model_Reader2 Model_ReaderMat Model_Sizes Spec_Reader Spec_Reader2 Spec_Array
  Proof_Parallel Proof_Reader1 Proof_Reader1b Proof_Reader2b Proof_Pipeline Prop_Reader1 Prop_Reader2 Prop_ReaderMat.
Local Open Scope nat_scope.
Set Implicit Arguments.

(* what the three numbers should be: the smallest and the largest share, both really held by some process, and the number of all values *)
Definition sizes_right (shares : list nat) (values : nat) (got : nat * nat * nat) : Prop :=
  let '(mn, mx, tot) := got in
  In mn shares /\ In mx shares /\ (forall s, In s shares -> mn <= s <= mx) /\ tot = values.

Lemma fold_min l : forall x, fold_left Nat.min l x <= x /\ (forall y, In y l -> fold_left Nat.min l x <= y) /\ (fold_left Nat.min l x = x \/ In (fold_left Nat.min l x) l).
Proof.
  induction l as [|a l IH]; intros x; cbn [fold_left]; [repeat split; [lia|intros y []|auto]|].
  destruct (IH (Nat.min x a)) as (H1 & H2 & H3). split; [lia|]. split.
  - intros y [<-|Hy]; [lia|auto].
  - destruct H3 as [H3|H3]; [|cbn; auto]. rewrite H3. destruct (Nat.min_spec x a) as [[_ E]|[_ E]]; rewrite E; cbn; auto.
Qed.
Lemma fold_max l : forall x, x <= fold_left Nat.max l x /\ (forall y, In y l -> y <= fold_left Nat.max l x) /\ (fold_left Nat.max l x = x \/ In (fold_left Nat.max l x) l).
Proof.
  induction l as [|a l IH]; intros x; cbn [fold_left]; [repeat split; [lia|intros y []|auto]|].
  destruct (IH (Nat.max x a)) as (H1 & H2 & H3). split; [lia|]. split.
  - intros y [<-|Hy]; [lia|auto].
  - destruct H3 as [H3|H3]; [|cbn; auto]. rewrite H3. destruct (Nat.max_spec x a) as [[_ E]|[_ E]]; rewrite E; cbn; auto.
Qed.
Lemma get_sizes_right c mine shares : shares <> [] -> sizes_right shares (sum shares) (get_sizes (Some c) mine shares).
Proof.
  destruct shares as [|x l]; [congruence|]. intros _. cbn [get_sizes all_min all_max].
  destruct (fold_min l x) as (A1 & A2 & A3), (fold_max l x) as (B1 & B2 & B3). repeat split.
  - destruct A3 as [-> |A3]; cbn; auto.
  - destruct B3 as [-> |B3]; cbn; auto.
  - destruct H as [<-|H]; auto.
  - destruct H as [<-|H]; auto.
Qed.
Lemma data_size_const {B} (rows : list (list B)) k : (forall r, In r rows -> length r = k) -> data_size rows = length rows * k.
Proof.
  unfold data_size. induction rows as [|r rows IH]; intros H; [reflexivity|]. cbn [map length]. rewrite sum_cons, IH by (intros; apply H; now right).
  rewrite (H r) by now left. lia.
Qed.
Lemma sum_scale (f : nat -> nat) k l : sum (map (fun r => f r * k) l) = sum (map f l) * k.
Proof. induction l as [|x l IH]; [reflexivity|]. cbn [map]. rewrite !sum_cons, IH. lia. Qed.
Lemma sum_scale_l (f : nat -> nat) k l : sum (map (fun r => k * f r) l) = k * sum (map f l).
Proof. induction l as [|x l IH]; cbn [map]; rewrite ?sum_nil, ?sum_cons; lia. Qed.
Lemma prod_axis ax sp n : ax < length sp ->
  prod (upd_nth ax n sp) = n * (prod (firstn ax sp) * prod (skipn (S ax) sp)) /\ prod sp = nth ax sp 0 * (prod (firstn ax sp) * prod (skipn (S ax) sp)).
Proof.
  intros H. rewrite upd_nth_split by assumption. rewrite prod_app. cbn [prod fold_right]. split.
  - fold (prod (skipn (S ax) sp)). lia.
  - rewrite <- (firstn_skipn ax sp) at 1. rewrite prod_app.
    destruct (skipn ax sp) as [|y l] eqn:E. { exfalso. apply (f_equal (@length nat)) in E. rewrite skipn_length in E. cbn in E. lia. }
    assert (nth ax sp 0 = y). { rewrite <- (firstn_skipn ax sp), E, app_nth2 by (rewrite firstn_length; lia). rewrite firstn_length. replace (ax - Nat.min ax (length sp)) with 0 by lia. reflexivity. }
    assert (skipn (S ax) sp = l). { replace (S ax) with (ax + 1) by lia. rewrite <- skipn_skipn_add, E. reflexivity. }
    rewrite H0, H1. cbn [prod fold_right]. fold (prod l). lia.
Qed.
Lemma argmax_lt l ax : argmax l = Ok ax -> ax < length l.
Proof.
  destruct l as [|x l]; [discriminate|]. cbn [argmax]. intros [= <-].
  assert (G : forall l i best bi, bi < i -> argmax_from i best bi l < i + length l).
  { clear. induction l as [|y l IH]; intros i best bi H; cbn [argmax_from length]; [lia|].
    destruct (best <? y); [specialize (IH (S i) y i)|specialize (IH (S i) best bi)]; lia. }
  specialize (G l 1 x 0). cbn. lia.
Qed.

(* ---- data in memory, one array per process ---- *)
Theorem C145_sizes_of_arrays : forall A B (cast : A -> B) zero isreal (ds : list (nd A)) xdim nv size readers sp ax,
  well_formed ds -> 0 < size -> (forall d, In d ds -> tl (shape d) = sp) -> argmax sp = Ok ax ->
  (forall r, r < size -> reader1_init isreal ds xdim nv (Some (size, r)) = Ok (readers r)) ->
  exists parts : nat -> list (list B),
    (forall r, r < size -> get_data cast zero (readers r) None = Ok (Some (parts r))) /\
    let shares := map (fun r => data_size (parts r)) (seq 0 size) in
    (forall r, r < size -> sizes_right shares (length (record ds) * prod sp) (get_sizes (Some (size, r)) (data_size (parts r)) shares)) /\
    (* the shares of two processes differ by at most one layer of the grid *)
    (forall r r', r < size -> r' < size -> data_size (parts r) * nth ax sp 0 <= data_size (parts r') * nth ax sp 0 + length (record ds) * prod sp).
Proof.
  intros A B cast zero isreal ds xdim nv size readers sp ax Hw Hs Hg Ha Hr.
  exists (fun r => map (fun row => map cast (local_piece sp ax (Some (size, r)) row)) (record ds)).
  set (k := prod (firstn ax sp) * prod (skipn (S ax) sp)).
  assert (Hax := argmax_lt _ Ha).
  assert (E : forall r, r < size -> data_size (map (fun row => map cast (local_piece sp ax (Some (size, r)) row)) (record ds)) = length (record ds) * (bd_n (nth ax sp 0) size r * k)).
  { intros r Hlt. rewrite (@data_size_const _ _ (bd_n (nth ax sp 0) size r * k)); [now rewrite map_length|].
    intros row Hrow. apply in_map_iff in Hrow as (row0 & <- & Hin). rewrite map_length.
    rewrite local_piece_length; [|exact Hlt|exact Hax|eapply record_row_length; eauto]. apply (proj1 (prod_axis sp _ Hax)). }
  split; [|split].
  - intros r Hlt. exact (proj2 (@C10_reads_concatenation A B cast zero isreal ds xdim nv (Some (size, r)) (readers r) sp ax Hw Hlt (Hr r Hlt) Hg Ha)).
  - intros r Hlt. set (shares := map _ (seq 0 size)).
    replace (length (record ds) * prod sp) with (sum shares); [apply get_sizes_right; unfold shares; destruct size; [lia|discriminate]|].
    unfold shares. rewrite (map_ext_in _ (fun r => length (record ds) * (bd_n (nth ax sp 0) size r * k))) by (intros x Hx; apply in_seq in Hx; apply E; lia).
    rewrite sum_scale_l, sum_scale, bd_sum_all by assumption. rewrite (proj2 (prod_axis sp 0 Hax)). reflexivity.
  - intros r r' Hlt Hlt'. rewrite !E by assumption. rewrite (proj2 (prod_axis sp 0 Hax)). fold k.
    assert (bd_n (nth ax sp 0) size r <= bd_n (nth ax sp 0) size r' + 1).
    { destruct (Nat.le_ge_cases r r'); [apply bd_balanced; assumption|]. pose proof (@bd_balanced (nth ax sp 0) size r' r). lia. }
    generalize (bd_n (nth ax sp 0) size r) (bd_n (nth ax sp 0) size r') H. clear. intros a b H.
    set (L := length (record ds)). set (N := nth ax sp 0).
    replace (L * (a * k) * N) with (a * (L * k * N)) by lia. replace (L * (b * k) * N + L * (N * k)) with ((b + 1) * (L * k * N)) by lia.
    now apply Nat.mul_le_mono_r.
Qed.
Print Assumptions C145_sizes_of_arrays.

(* one process without a communicator: three times the size of the record *)
Theorem C145_sizes_serial : forall A B (cast : A -> B) zero isreal (ds : list (nd A)) xdim nv reader sp ax,
  well_formed ds -> (forall d, In d ds -> tl (shape d) = sp) -> argmax sp = Ok ax ->
  reader1_init isreal ds xdim nv None = Ok reader ->
  exists rows : list (list B), get_data cast zero reader None = Ok (Some rows) /\
    let n := length (record ds) * prod sp in get_sizes None (data_size rows) [data_size rows] = (n, n, n).
Proof.
  intros A B cast zero isreal ds xdim nv reader sp ax Hw Hg Ha Hr. eexists. split.
  - exact (proj2 (@C10_reads_concatenation A B cast zero isreal ds xdim nv None reader sp ax Hw I Hr Hg Ha)).
  - cbn [get_sizes local_piece]. rewrite (@data_size_const _ _ (prod sp)); [now rewrite map_length|].
    intros row Hrow. apply in_map_iff in Hrow as (row0 & <- & Hin). rewrite map_length. eapply record_row_length; eauto.
Qed.
Print Assumptions C145_sizes_serial.

(* the streaming fit reports the size of one snapshot, however long the record is *)
Theorem C145_streaming_reports_one_snapshot : forall A B (cast : A -> B) zero isreal (d : nd A) xdim nv reader sp ax,
  well_formed [d] -> tl (shape d) = sp -> argmax sp = Ok ax -> 0 < length (snapshots d) ->
  reader1_init isreal [d] xdim nv None = Ok reader ->
  exists rows : list (list B), get_data cast zero reader (Some 0) = Ok (Some rows) /\
    get_sizes None (data_size rows) [data_size rows] = (prod sp, prod sp, prod sp).
Proof.
  intros A B cast zero isreal d xdim nv reader sp ax Hw Hg Ha Hp Hr.
  pose proof (@C11_single_dataset_snapshot A B cast zero isreal d xdim nv None reader sp ax 0 Hw I Hr Hg Ha) as E.
  destruct (snapshots d) as [|r rs] eqn:Es; [cbn in Hp; lia|]. cbn [nth_error] in E. eexists. split; [exact E|].
  assert (length r = prod sp).
  { apply (@record_row_length A [d] sp r Hw); [intros d' [<-|[]]; exact Hg|]. unfold record. cbn [map concat]. rewrite Es. cbn. now left. }
  cbn [get_sizes local_piece]. unfold data_size. cbn [map]. rewrite sum_cons, sum_nil, map_length, Nat.add_0_r, H. reflexivity.
Qed.
Print Assumptions C145_streaming_reports_one_snapshot.

(* ---- data in files, a dictionary of blocks per process ---- *)
Lemma tiled_size {B} (w : nat) (R : list (list B)) : forall (st : list (nat * block (list B))) a n, tiling a (map (fun e => (b_s (snd e), b_e (snd e))) st) n ->
  n <= length R -> (forall k b, In (k, b) st -> exists f : list B -> list B, (forall row, In row R -> length (f row) = w) /\ b_v b = map f (window (b_s b) (b_e b - b_s b) R)) ->
  store_size st + a * w = n * w.
Proof.
  unfold store_size. induction st as [|[k b] st IH]; intros a n Ht Hn Hv; cbn in Ht; [subst; cbn; lia|].
  destruct Ht as (H1 & H2 & H3). cbn [map snd]. rewrite sum_cons.
  specialize (IH _ _ H3 Hn (fun k b H => Hv k b (or_intror H))).
  destruct (Hv k b (or_introl eq_refl)) as (f & Hf & Eb).
  assert (b_e b <= n). { clear - H3. revert H3. generalize (b_e b). induction st as [|[k' b'] st IH]; intros m H; cbn in H; [lia|]. destruct H as (H1 & H2 & H3). apply IH in H3. lia. }
  rewrite (@data_size_const _ (b_v b) w).
  - rewrite Eb, map_length, window_length. replace (Nat.min (b_e b - b_s b) (length R - b_s b)) with (b_e b - a) by lia.
    assert ((b_e b - a) * w + a * w = b_e b * w) by (rewrite <- Nat.mul_add_distr_r; f_equal; lia). lia.
  - rewrite Eb. intros r Hr. apply in_map_iff in Hr as (row & <- & Hrow). apply Hf. now apply In_window in Hrow.
Qed.

Theorem C145_sizes_of_netcdf_files :
  forall A (zero : A) size nreaders nxyz nv ver nchunks nblks fs names (orders : nat -> nat -> list nat),
  0 < size -> NoDup names -> 0 < nchunks -> 0 < nblks ->
  (forall k, In k names -> nc_ok nxyz nv (fs k) /\ NoDup (nc_labels (fs k))) ->
  (forall dst c, Permutation (orders dst c) (seq 0 size)) ->
  (forall m, m <= length (nc_record zero nxyz fs names) -> small_message size (nreaders_of nreaders size) nxyz nv ver m) ->
  exists st : nat -> list (nat * block (list A)),
    (forall dst, dst < size -> get_data2 zero size (nreaders_of nreaders size) nxyz nv ver nchunks nblks fs names dst (orders dst) = Ok (st dst)) /\
    let shares := map (fun dst => store_size (st dst)) (seq 0 size) in
    forall dst, dst < size ->
      sizes_right shares (length (nc_record zero nxyz fs names) * (nxyz * nv)) (get_sizes (Some (size, dst)) (store_size (st dst)) shares).
Proof.
  intros A zero size nreaders nxyz nv ver nchunks nblks fs names orders Hs Hnd Hc Hb Hk Ho Hm.
  set (R := nc_record zero nxyz fs names).
  assert (HR : forall row, In row R -> length row = nxyz * nv).
  { intros row Hrow. unfold R, nc_record in Hrow. apply in_flat_map in Hrow as (k & Hkin & Hrow). apply in_map_iff in Hrow as (t & <- & _).
    destruct (Hk k Hkin) as [[Hv _] _]. unfold nc_snapshot. rewrite flat_map_concat_map, (@concat_length_const _ _ nv).
    - now rewrite map_length, seq_length.
    - intros l Hl. apply in_map_iff in Hl as (x & <- & _). now rewrite map_length. }
  exists (fun dst => match get_data2 zero size (nreaders_of nreaders size) nxyz nv ver nchunks nblks fs names dst (orders dst) with Ok s => s | Err _ => [] end).
  assert (G : forall dst, dst < size -> exists s, get_data2 zero size (nreaders_of nreaders size) nxyz nv ver nchunks nblks fs names dst (orders dst) = Ok s /\
    store_size s = length R * (bd_n nxyz size dst * nv)).
  { intros dst Hd. destruct (@C15_chunked_store_tiles_the_record A zero size nreaders nxyz nv ver nchunks nblks fs names dst (orders dst) Hd Hnd Hc Hb Hk (Ho dst) Hm) as (s & E & _ & T & V).
    exists s. split; [exact E|]. pose proof (@tiled_size A (bd_n nxyz size dst * nv) R s 0 (length R) T (le_n _)) as Z.
    rewrite Nat.mul_0_l, Nat.add_0_r in Z. apply Z. intros k b Hin. exists (own_points nxyz nv size dst). split; [|now apply (V k b)].
    intros row Hrow. apply own_points_length; auto. }
  split; [|intros shares dst Hd].
  - intros dst Hd. destruct (G dst Hd) as (s & E & _). now rewrite E.
  - replace (length R * (nxyz * nv)) with (sum shares); [apply get_sizes_right; unfold shares; destruct size; [lia|discriminate]|].
    unfold shares. rewrite (map_ext_in _ (fun dst => length R * (bd_n nxyz size dst * nv))).
    + now rewrite sum_scale_l, sum_scale, bd_sum_all.
    + intros x Hx. apply in_seq in Hx. destruct (G x ltac:(lia)) as (s & E & H). now rewrite E.
Qed.
Print Assumptions C145_sizes_of_netcdf_files.

Theorem C145_sizes_of_matlab_files :
  forall A K (zero : A) (leb : K -> K -> bool) size nxyz nv ver nchunks nblks content names (orders : nat -> nat -> list nat),
  (forall x y, leb x y = true \/ leb y x = true) ->
  (forall x y z, leb x y = true -> leb y z = true -> leb x z = true) ->
  (forall x y, leb x y = true -> leb y x = true -> x = y) ->
  0 < size -> 0 < nchunks -> 0 < nblks ->
  (forall k, In k names -> length (content k) = nv) ->
  (forall dst c : nat, Permutation (orders dst c) (seq 0 size)) ->
  (forall m, m <= length names -> small_message size size nxyz nv ver m) ->
  exists st : nat -> list (nat * block (list A)),
    (forall dst, dst < size -> get_data_mat zero leb size nxyz nv ver nchunks nblks content names dst (orders dst) = Ok (st dst)) /\
    let shares := map (fun dst => store_size (st dst)) (seq 0 size) in
    forall dst, dst < size ->
      sizes_right shares (length names * (nxyz * nv)) (get_sizes (Some (size, dst)) (store_size (st dst)) shares).
Proof.
  intros A K zero leb size nxyz nv ver nchunks nblks content names orders Ht Htr Ha Hs Hc Hb Hk Ho Hm.
  destruct (@C19_sorted_exists K leb names Ht Htr) as (sorted & Hp & Hss).
  set (R := map (fun k => mat_snapshot zero nxyz (content k)) sorted).
  assert (HRl : length R = length names) by (unfold R; rewrite map_length; now apply Permutation_length).
  assert (HR : forall row, In row R -> length row = nxyz * nv).
  { intros row Hrow. apply in_map_iff in Hrow as (k & <- & Hin). rewrite mat_snapshot_length, Hk; [reflexivity|]. eapply Permutation_in; eauto. }
  exists (fun dst => match get_data_mat zero leb size nxyz nv ver nchunks nblks content names dst (orders dst) with Ok s => s | Err _ => [] end).
  assert (G : forall dst, dst < size -> exists s, get_data_mat zero leb size nxyz nv ver nchunks nblks content names dst (orders dst) = Ok s /\
    store_size s = length names * (bd_n nxyz size dst * nv)).
  { intros dst Hd. destruct (@C107_mat_store_tiles_the_sorted_record A K zero leb size nxyz nv ver nchunks nblks content names sorted dst (orders dst) Ht Htr Ha Hp Hss Hd Hc Hb Hk (Ho dst)) as (s & E & _ & T & V).
    { intros m Hle. exact (Hm m Hle). }
    exists s. split; [exact E|]. pose proof (@tiled_size A (bd_n nxyz size dst * nv) R s 0 (length names) T ltac:(lia)) as Z.
    rewrite Nat.mul_0_l, Nat.add_0_r in Z. apply Z. intros k b Hin. exists (own_points nxyz nv size dst). split; [|now apply (V k b)].
    intros row Hrow. apply own_points_length; auto. }
  split; [|intros shares dst Hd].
  - intros dst Hd. destruct (G dst Hd) as (s & E & _). now rewrite E.
  - replace (length names * (nxyz * nv)) with (sum shares); [apply get_sizes_right; unfold shares; destruct size; [lia|discriminate]|].
    unfold shares. rewrite (map_ext_in _ (fun dst => length names * (bd_n nxyz size dst * nv))).
    + now rewrite sum_scale_l, sum_scale, bd_sum_all.
    + intros x Hx. apply in_seq in Hx. destruct (G x ltac:(lia)) as (s & E & H). now rewrite E.
Qed.
Print Assumptions C145_sizes_of_matlab_files.

(* ---- POD: the number printed is right only if the processes share the axis evenly; it is never too small ---- *)
Theorem C145_pod_size : forall A (d : nd A) rest nt size sp ax,
  shape d = nt :: sp -> 0 < nt -> 0 < size -> argmax sp = Ok ax -> 0 < prod sp ->
  exists got, pod_size (d :: rest) nt (Some (size, 0)) = Ok got /\ nt * prod sp <= got /\
    (got = nt * prod sp <-> Nat.divide size (nth ax sp 0)) /\
    (got - nt * prod sp) * nth ax sp 0 <= (size - 1) * (nt * prod sp).
Proof.
  intros A d rest nt size sp ax Hsh Hnt Hs Ha Hp. assert (Hax := argmax_lt _ Ha).
  unfold pod_size, distribute_data. rewrite Hsh. destruct nt as [|nt]; [lia|]. rewrite Ha. cbn [bind distribute_dimension]. rewrite Hsh. cbn [length nth].
  replace (S ax <? S (length sp)) with true by lia. rewrite bd_pair. cbn [bind slice_axis shape upd_nth tl]. rewrite Hsh. cbn [upd_nth tl].
  eexists. split; [reflexivity|]. destruct (prod_axis sp (bd_n (nth ax sp 0) size 0) Hax) as [E1 E2]. rewrite E1, E2 in *.
  set (k := prod (firstn ax sp) * prod (skipn (S ax) sp)) in *. set (N := nth ax sp 0) in *. clearbody k N. clear E1 E2 Hax Ha Hsh.
  rewrite bd_n_eq by lia. pose proof (Nat.div_mod N size ltac:(lia)) as D. pose proof (Nat.mod_upper_bound N size ltac:(lia)) as U.
  assert (K : (N mod size = 0 <-> Nat.divide size N)) by (rewrite Nat.mod_divide by lia; reflexivity). rewrite <- K.
  generalize (N / size) (N mod size) D U. clear D U K. intros q m D U. set (t := S nt) in *. assert (0 < t) by lia. clearbody t. subst N.
  assert (0 < k). { destruct k; [rewrite Nat.mul_0_r in Hp; lia|lia]. } 
  destruct (Nat.ltb_spec 0 m) as [M|M].
  - assert (X : size * (t * ((q + 1) * k)) = t * ((size * q + m) * k) + t * ((size - m) * k)) by (assert (size = m + (size - m)) by lia; nia).
    rewrite X. split; [lia|]. split.
    + split; [|lia]. intros Q. exfalso. assert (0 < t * ((size - m) * k)) by (apply Nat.mul_pos_pos; [lia|apply Nat.mul_pos_pos; lia]). lia.
    + rewrite Nat.add_comm, Nat.add_sub. replace ((size - 1) * (t * ((size * q + m) * k))) with (t * ((size - 1) * k) * (size * q + m)) by lia.
      apply Nat.mul_le_mono_r, Nat.mul_le_mono_l, Nat.mul_le_mono_r. lia.
  - assert (m = 0) by lia. subst m. replace (size * (t * ((q + 0) * k))) with (t * ((size * q + 0) * k)) by lia.
    split; [lia|]. split; [tauto|]. rewrite Nat.sub_diag. lia.
Qed.
Print Assumptions C145_pod_size.

(* ---- the conversion to gigabytes (2^30 bytes) is right to 14 digits ---- *)
Theorem C145_gigabytes : forall n nbytes,
  (Qabs (gigabytes n nbytes - inject_Z (Z.of_nat (n * nbytes)) * (1 # 1073741824)) <= inject_Z (Z.of_nat (n * nbytes)) * (1 # 1073741824) * (1 # 100000000000000))%Q.
Proof.
  intros n nbytes. unfold gigabytes, B2GB. set (x := inject_Z (Z.of_nat (n * nbytes))). assert (Hx : (0 <= x)%Q) by (unfold x; change 0%Q with (inject_Z 0); rewrite <- Zle_Qle; lia).
  clearbody x.
  assert (E : (x * (93132257461548 # 100000000000000000000000) - x * (1 # 1073741824) == x * ((93132257461548 # 100000000000000000000000) - (1 # 1073741824)))%Q) by ring.
  rewrite E, Qabs_Qmult, (Qabs_pos x) by assumption. rewrite <- Qmult_assoc.
  rewrite !(Qmult_comm x). apply Qmult_le_compat_r; [|assumption]. vm_compute. discriminate.
Qed.
Print Assumptions C145_gigabytes.

Example C145_nonvacuous :
  let d := Nd [4; 5; 2] (seq 0 40) in
  well_formed [d] /\ argmax [5; 2] = Ok 0 /\ length (record [d]) * prod [5; 2] = 40 /\
  (forall r, r < 3 -> exists rd, reader1_init (fun _ : nat => true) [d] 2 1 (Some (3, r)) = Ok rd) /\
  pod_size [d] 4 (Some (3, 0)) = Ok 48.
Proof.
  cbv zeta. split; [|split; [reflexivity|split; [reflexivity|split; [|reflexivity]]]].
  - intros d [<-|[]]. split; [reflexivity|discriminate].
  - intros r _. eexists. reflexivity.
Qed.
