From Coq Require Import QArith.
From Verif Require Import Base_List Model_Parallel Model_Reader1 Model_Reader2 Model_Base Model_Standard Model_Pipeline
  Spec_Array Spec_Reader Spec_Reader2 Proof_Parallel Proof_Npy2 Proof_Reader1 Proof_Reader1b Proof_Reader2b Proof_Base Proof_Standard1.
Local Open Scope nat_scope.
Set Implicit Arguments.

(* ---------- a process owns some positions of a snapshot ---------- *)
Definition picks {A} (zero : A) (ids : list nat) (row : list A) : list A := map (fun i => nth i row zero) ids.
Definition axis_ids (sp : list nat) (ax : nat) (c : comm) : list nat := local_piece sp ax c (seq 0 (prod sp)).
Definition point_ids (nxyz nv size r : nat) : list nat := own_points nxyz nv size r (seq 0 (nxyz * nv)).

Lemma local_piece_map {A B} (f : A -> B) sp ax c row : ax < length sp -> local_piece sp ax c (map f row) = map f (local_piece sp ax c row).
Proof.
  intros Hax. destruct c as [[size rank]|]; [|reflexivity]. unfold local_piece. destruct (blockdist (nth ax sp 0) size rank) as [n s].
  unfold slice_axis. cbn [flat shape]. symmetry. apply slice_flat_map.
Qed.
Lemma map_nth_seq {A} (zero : A) row : map (fun i => nth i row zero) (seq 0 (length row)) = row.
Proof.
  apply nth_ext with (d := zero) (d' := zero); [now rewrite map_length, seq_length|].
  intros i Hi. rewrite map_length, seq_length in Hi. now rewrite (nth_map_seq0 (fun i => nth i row zero)) by assumption.
Qed.
Lemma local_piece_pick {A} (zero : A) sp ax c row : ax < length sp -> length row = prod sp ->
  local_piece sp ax c row = picks zero (axis_ids sp ax c) row.
Proof.
  intros Hax Hr. rewrite <- (map_nth_seq zero row) at 1. rewrite local_piece_map by assumption. unfold picks, axis_ids. now rewrite Hr.
Qed.
Lemma own_points_pick {A} (zero : A) nxyz nv size r row : length row = nxyz * nv ->
  own_points nxyz nv size r row = picks zero (point_ids nxyz nv size r) row.
Proof.
  intros Hr. rewrite <- (map_nth_seq zero row) at 1. unfold picks, point_ids, own_points. rewrite Hr.
  destruct (blockdist nxyz size r) as [n s]. now rewrite map_window.
Qed.
Lemma axis_ids_length sp ax c : comm_ok c -> ax < length sp ->
  length (axis_ids sp ax c) = match c with None => prod sp | Some (size, rank) => prod (upd_nth ax (fst (blockdist (nth ax sp 0) size rank)) sp) end.
Proof. intros. unfold axis_ids. apply local_piece_length; try assumption. now rewrite seq_length. Qed.
Lemma point_ids_concat nxyz nv size : 0 < size -> concat (map (point_ids nxyz nv size) (seq 0 size)) = seq 0 (nxyz * nv).
Proof. intros. apply own_points_cover; [assumption|]. now rewrite seq_length. Qed.
Lemma pick_length {A} (zero : A) ids row : length (picks zero ids row) = length ids.
Proof. unfold picks. apply map_length. Qed.
Lemma pick_map {A B} (f : A -> B) a b ids row : f a = b -> map f (picks a ids row) = picks b ids (map f row).
Proof. intros E. unfold picks. rewrite map_map. apply map_ext. intros i. rewrite <- E. now rewrite map_nth. Qed.

(* cutting an array of shape sp ++ [1] is cutting one of shape sp *)
Lemma slice_trailing_one {A} sp ax s n (l : list A) : ax < length sp ->
  flat (slice_axis ax s n (Nd (sp ++ [1]) l)) = flat (slice_axis ax s n (Nd sp l)).
Proof.
  intros Hax. destruct (split_at_axis _ Hax) as (sh1 & N & sh2 & -> & <- & _).
  rewrite <- app_assoc, <- app_comm_cons, !slice_axis_split. cbn [flat]. rewrite prod_app. cbn [prod fold_right]. f_equal. lia.
Qed.

(* ---------- what a process holds ---------- *)
Definition represents {B} (d : held B) (rows : list (list B)) : Prop :=
  match d with
  | Array r => r = rows
  | Chunks st => tiling 0 (ranges st) (length rows) /\ holds rows st /\ b_v (snd (last st (0, Block 0 0 []))) <> []
  end.
Lemma last_rev {A} (x : A) l d : rev l = x :: rev (removelast l) -> last l d = x.
Proof.
  intros H. destruct (rev l) as [|y r] eqn:E; [discriminate|]. injection H as -> E2.
  rewrite <- (rev_involutive l), E. cbn [rev]. now rewrite last_last.
Qed.
Lemma last_block_row_eq {A} (st : list (nat * block A)) :
  last_block_row st = match st with [] => Err ValueError
                      | _ => match b_v (snd (last st (0, Block 0 0 []))) with [] => Err ValueError | r :: _ => Ok r end end.
Proof.
  unfold last_block_row. destruct st as [|x st]; [reflexivity|].
  destruct (@exists_last _ (x :: st)) as (l & y & ->); [discriminate|].
  rewrite rev_app_distr, last_last. cbn [rev app]. destruct y as [k b]. cbn [snd].
  destruct (l ++ [(k, b)]) eqn:E; [destruct l; discriminate|reflexivity].
Qed.
Lemma entries_rep {B} (d : held B) rows m : represents d rows -> rows <> [] -> (forall row, In row rows -> length row = m) -> entries d = Ok m.
Proof.
  intros Hr Hne Hm. destruct d as [r|st]; cbn [represents entries] in *.
  - subst r. destruct rows as [|row rows]; [congruence|]. f_equal. apply Hm. now left.
  - destruct Hr as (Ht & Hh & Hl). rewrite last_block_row_eq. destruct st as [|x st]; [cbn in Hl; congruence|].
    set (y := last (x :: st) (0, Block 0 0 [])) in *.
    assert (Hin : In y (x :: st)) by (apply last_In; discriminate).
    destruct y as [k b]. cbn [snd] in *. pose proof (Hh k b Hin) as E.
    destruct (b_v b) as [|r rs]; [congruence|]. cbn [bind]. f_equal. apply Hm. apply (@In_window _ (b_s b) (b_e b - b_s b)). rewrite <- E. now left.
Qed.
Lemma starts_eq nt n_dft n_ov nb : n_ov < n_dft -> check_feasible (Z.of_nat nt) (Z.of_nat n_dft) (Z.of_nat n_ov) = Ok nb ->
  starts nt n_dft n_ov (Z.to_nat nb) = map (fun i => i * (n_dft - n_ov)) (seq 0 (Z.to_nat nb)) /\ 2 <= Z.to_nat nb /\ 4 <= n_dft /\
  (forall i, i < Z.to_nat nb -> i * (n_dft - n_ov) + n_dft <= nt).
Proof.
  intros Ho Hf. pose proof (@blocks_spec nat (repeat 0 nt) (Z.of_nat n_dft) (Z.of_nat n_ov) nb ltac:(lia)) as H.
  rewrite repeat_length in H. destruct (H Hf) as (H2 & Hb & _). split; [|split; [lia|split]].
  - unfold starts. apply map_ext_in. intros i Hi. apply in_seq in Hi. destruct (Hb (Z.of_nat i) ltac:(lia)) as (E & _). rewrite E. nia.
  - clear - Hf. unfold check_feasible in Hf. destruct (Z.ltb_spec (Z.of_nat n_dft) 4); [discriminate|lia].
  - intros i Hi. destruct (Hb (Z.of_nat i) ltac:(lia)) as (_ & E & _). nia.
Qed.
Lemma blocks_rep {B} (d : held B) rows n_dft n_ov nb : represents d rows -> n_ov < n_dft ->
  check_feasible (Z.of_nat (length rows)) (Z.of_nat n_dft) (Z.of_nat n_ov) = Ok nb ->
  blocks_of n_dft (starts (length rows) n_dft n_ov (Z.to_nat nb)) d
  = Ok (map (fun i => window (i * (n_dft - n_ov)) n_dft rows) (seq 0 (Z.to_nat nb))).
Proof.
  intros Hr Ho Hf. destruct (@starts_eq _ _ _ _ Ho Hf) as (-> & H2 & H4 & Hfit).
  destruct d as [r|st]; cbn [blocks_of represents] in *.
  - subst r. rewrite map_map. f_equal. apply map_ext_in. intros i Hi. apply in_seq in Hi. unfold get_block_array. f_equal. lia.
  - destruct Hr as (Ht & Hh & Hl). apply (@run_blocks_spec _ rows n_dft (n_dft - n_ov) _ st 0 0); try assumption; try lia.
    intros i Hi. apply Hfit. lia.
Qed.
Lemma map_store_ranges {B V} (g : list B -> V) st : ranges (map_store g st) = ranges st.
Proof. unfold ranges, map_store. rewrite map_map. reflexivity. Qed.
Lemma map_store_holds {B V} (g : list B -> V) rows st : holds rows st -> holds (map g rows) (map_store g st).
Proof.
  intros H k b Hin. unfold map_store in Hin. apply in_map_iff in Hin as ([k' b'] & E & Hin). cbn [fst snd] in E. injection E as <- <-.
  cbn [b_s b_e b_v]. rewrite (H k' b' Hin). apply map_window.
Qed.
Lemma mean_rep {B V} (vzero : V) add divn (g : list B -> V) nb d rows :
  (forall a b c, add a (add b c) = add (add a b) c) -> (forall a, add vzero a = a) -> (forall a, add a vzero = a) -> 0 < nb ->
  represents d rows -> mean_of vzero add divn g (length rows) nb d = divn (fold_right add vzero (map g rows)) (length rows).
Proof.
  intros H1 H2 H3 Hb Hr. destruct d as [r|st]; cbn [mean_of represents] in *.
  - subst r. unfold long_t_mean. f_equal. rewrite <- (map_length g rows). now apply (@long_t_sum_all V vzero add).
  - destruct Hr as (Ht & Hh & _). unfold long_t_mean_dict. f_equal. rewrite (@long_t_sum_dict_eq V vzero add) by assumption.
    destruct (@tiling_concat V (map g rows) (map_store g st) 0) as [_ ->].
    + rewrite map_length. change (tiling 0 (ranges (map_store g st)) (length rows)). now rewrite map_store_ranges.
    + exact (@map_store_holds _ _ g rows st Hh).
    + rewrite Nat.sub_0_r. now rewrite window_all.
Qed.

(* ---------- the in-memory reader on every process ---------- *)
Definition set_comm {A} (rd : @reader1 A) (c : comm) : reader1 :=
  Reader1 (rd_list rd) (rd_nt rd) (rd_nx rd) (rd_shape rd) (rd_xshape rd) (rd_is_real rd) (rd_max_axis rd) c.
Lemma init_any_comm {A} isreal (ds : list (nd A)) nv xdim c c' r : reader1_init isreal ds xdim nv c = Ok r -> reader1_init isreal ds xdim nv c' = Ok (set_comm r c').
Proof.
  unfold reader1_init. destruct (check_shapes None ds 0); [|discriminate]. cbn [bind]. destruct ds as [|d0 ds']; [discriminate|].
  destruct (nrows d0 =? 0); [discriminate|].
  set (x := if (nv =? 1) && negb (S (length (tl (shape d0))) =? xdim + 2) then tl (shape d0) ++ [1] else tl (shape d0)).
  destruct ((length x =? 0) || (last x 0 =? 0)); [discriminate|]. destruct (argmax x); [|discriminate]. cbn [bind].
  intros E. injection E as <-. reflexivity.
Qed.
Lemma record_row_length {A} (ds : list (nd A)) sp row : well_formed ds -> (forall d, In d ds -> tl (shape d) = sp) -> In row (record ds) -> length row = prod sp.
Proof.
  intros Hw Hg H. unfold record in H. apply in_concat in H as (rs & Hrs & Hin). apply in_map_iff in Hrs as (d & <- & Hd).
  destruct (Hw d Hd) as [Hwf Hne]. pose proof (Hg d Hd) as Et. unfold snapshots in Hin. unfold wf in Hwf. destruct (shape d) as [|nt sp']; [congruence|].
  cbn [tl] in Et. subst sp'. apply in_map_iff in Hin as (t & <- & Ht). apply in_seq in Ht. apply window_length_le. rewrite Hwf. cbn [prod fold_right].
  fold (prod sp). nia.
Qed.
Section Init.
Context {A : Type}.
Variables (isreal : A -> bool) (ds : list (nd A)) (xs sp : list nat) (nv : nat).
(* the datasets have the axes time, space xs and, unless there is one variable, the variable *)
Hypothesis Hsp : sp = xs ++ [nv] \/ nv = 1 /\ sp = xs.
Hypothesis Hgrid : forall d, In d ds -> tl (shape d) = sp.
Hypothesis Hne : sp <> [].
Hypothesis Hpos : 0 < prod sp.
Lemma init_shape c r : reader1_init isreal ds (length xs) nv c = Ok r -> rd_xshape r = xs.
Proof using Hsp Hgrid Hne Hpos.
  intros H. destruct (init_inv isreal ds _ _ _ H) as (d0 & ds' & E & Hn & Hall & ax & Hax & _ & _ & ->). cbn [rd_xshape].
  assert (Es : tl (shape d0) = sp) by (apply Hgrid; rewrite E; now left). rewrite Es.
  destruct Hsp as [-> | [-> ->]].
  - rewrite app_length. cbn [length]. replace (S (length xs + 1) =? length xs + 2) with true by (symmetry; apply Nat.eqb_eq; lia).
    rewrite andb_false_r. apply removelast_last.
  - replace (S (length xs) =? length xs + 2) with false by (symmetry; apply Nat.eqb_neq; lia). cbn [Nat.eqb andb negb]. apply removelast_last.
Qed.
Lemma sp_prod : prod sp = prod (xs ++ [nv]).
Proof using Hsp Hgrid Hne Hpos. destruct Hsp as [-> | [-> ->]]; [reflexivity|]. rewrite prod_app. cbn. lia. Qed.
Lemma axis_ids_shape ax c : ax < length sp -> axis_ids sp ax c = axis_ids (xs ++ [nv]) ax c.
Proof using Hsp Hgrid Hne Hpos.
  intros Hax. destruct Hsp as [-> | [-> ->]]; [reflexivity|]. unfold axis_ids. replace (prod (xs ++ [1])) with (prod xs) by (rewrite prod_app; cbn; lia).
  unfold local_piece. destruct c as [[size rank]|]; [|reflexivity]. rewrite app_nth1 by assumption.
  destruct (blockdist (nth ax xs 0) size rank) as [n s]. now rewrite slice_trailing_one.
Qed.
Lemma load_rep {B} (cast : A -> B) (zero : B) c rd : well_formed ds -> comm_ok c ->
  reader1_init isreal ds (length xs) nv c = Ok rd ->
  let ax := rd_max_axis rd in
  ax < length (xs ++ [nv]) /\ rd_nt rd = length (record ds) /\
  load_array cast zero isreal ds (length xs) nv c
  = Ok (rd, Array (map (fun row => picks zero (axis_ids (xs ++ [nv]) ax c) (map cast row)) (record ds))).
Proof using Hsp Hgrid Hne Hpos.
  intros Hw Hc Hi ax. destruct (reader_axis isreal ds _ _ _ Hi Hgrid Hne Hpos) as (Hax & Hlt & _). fold ax in Hax, Hlt.
  destruct (@get_data_all _ _ cast zero isreal ds _ _ _ _ sp ax Hw Hc Hi Hgrid Hax) as [Hnt Hd].
  split; [|split; [exact Hnt|]].
  - destruct Hsp as [-> | [-> ->]]; [exact Hlt|]. rewrite app_length. cbn [length]. lia.
  - unfold load_array. rewrite Hi. cbn [bind]. rewrite Hd. cbn [bind]. do 3 f_equal. apply map_ext_in. intros row Hrow.
    rewrite <- local_piece_map by assumption.
    rewrite (@local_piece_pick _ zero) by (try assumption; rewrite map_length; eapply record_row_length; eauto). now rewrite axis_ids_shape.
Qed.
End Init.

(* ---------- weights ---------- *)
(* the values the user's argument stands for on a grid xs with nv variables *)
Definition weights_of {B} (one : B) (user : weights_arg B) (xs : list nat) (nv : nat) : list B :=
  match user with WeightsDict w => flat w | _ => repeat one (prod (xs ++ [nv])) end.
Definition weights_ok {B} (user : weights_arg B) (xs : list nat) (nv : nat) : Prop :=
  match user with WeightsDict w => wf w /\ shape w = xs ++ [nv] | _ => True end.
Lemma weights_of_length {B} (one : B) user xs nv : weights_ok user xs nv -> length (weights_of one user xs nv) = prod (xs ++ [nv]).
Proof. destruct user as [|w|w]; cbn [weights_ok weights_of]; try (intros; apply repeat_length). intros [H E]. unfold wf in H. now rewrite H, E. Qed.
Lemma define_weights_eq {B} (one : B) user xs nv : weights_ok user xs nv ->
  define_weights one user xs nv = Ok (Nd (xs ++ [nv]) (weights_of one user xs nv)).
Proof.
  destruct user as [|w|w]; cbn [weights_ok weights_of define_weights]; try reflexivity. intros [H E]. unfold wf in H. rewrite H, E.
  rewrite prod_app. cbn [prod fold_right]. fold (prod xs). rewrite Nat.mul_1_r, Nat.eqb_refl. destruct w as [s l]. cbn [shape flat] in *. now subst s.
Qed.
Lemma rank_weights_array {B} (one zero : B) user xs nv ax c d rows m : weights_ok user xs nv -> ax < length (xs ++ [nv]) -> comm_ok c ->
  represents d rows -> rows <> [] -> (forall row, In row rows -> length row = m) -> m = length (axis_ids (xs ++ [nv]) ax c) ->
  rank_weights one user xs nv false ax c d = Ok (picks zero (axis_ids (xs ++ [nv]) ax c) (weights_of one user xs nv)).
Proof.
  intros Hu Hax Hc Hr Hne Hm Em. unfold rank_weights. rewrite (entries_rep _ Hr Hne Hm). cbn [bind]. unfold initialize_weights.
  rewrite define_weights_eq by assumption. cbn [bind flatten_weights]. unfold local_weights.
  set (W := weights_of one user xs nv).
  assert (E : distribute_dimension (Nd (xs ++ [nv]) W) ax c = Ok (Nd (match distribute_dimension (Nd (xs ++ [nv]) W) ax c with Ok a => shape a | _ => [] end) (local_piece (xs ++ [nv]) ax c W))).
  { destruct c as [[size rank]|]; [|reflexivity]. unfold distribute_dimension, local_piece. cbn [shape].
    replace (ax <? length (xs ++ [nv])) with true by (symmetry; now apply Nat.ltb_lt). destruct (blockdist _ size rank) as [n s]. reflexivity. }
  rewrite E. cbn [bind flat]. rewrite (@local_piece_pick _ zero) by (try assumption; now apply weights_of_length).
  rewrite pick_length, <- Em, Nat.eqb_refl. reflexivity.
Qed.
Lemma rank_weights_points {B} (one zero : B) user xs nv size r d rows m : weights_ok user xs nv -> r < size -> 0 < nv ->
  represents d rows -> rows <> [] -> (forall row, In row rows -> length row = m) -> m = length (point_ids (prod xs) nv size r) ->
  rank_weights one user xs nv true 0 (Some (size, r)) d = Ok (picks zero (point_ids (prod xs) nv size r) (weights_of one user xs nv)).
Proof.
  intros Hu Hs Hv Hr Hne Hm Em. unfold rank_weights. rewrite (entries_rep _ Hr Hne Hm). cbn [bind]. unfold initialize_weights.
  rewrite define_weights_eq by assumption. cbn [bind flatten_weights flat]. unfold local_weights.
  set (W := weights_of one user xs nv).
  assert (El : length W = prod xs * nv).
  { unfold W. rewrite weights_of_length by assumption. rewrite prod_app. cbn [prod fold_right]. lia. }
  rewrite El, Nat.div_mul by lia. unfold distribute_dimension. cbn [shape length Nat.ltb Nat.leb nth].
  assert (Eo : forall n s, flat (slice_axis 0 s n (Nd [prod xs; nv] W)) = window (s * nv) (n * nv) W).
  { intros n s. unfold slice_axis. cbn [shape flat firstn skipn nth prod fold_right]. unfold slice_flat. cbn [seq map concat].
    now rewrite app_nil_r, Nat.mul_1_r. }
  pose proof (@own_points_pick _ zero (prod xs) nv size r W El) as E. unfold own_points in E.
  destruct (blockdist (prod xs) size r) as [n s]. cbn [bind]. rewrite Eo, E, pick_length, <- Em, Nat.eqb_refl. reflexivity.
Qed.

(* ---------- the chunked store of a netCDF reader ---------- *)
Lemma files_rep {A} (zero : A) size nreaders nxyz nv ver nchunks nblks fs names dst orders :
  dst < size -> NoDup names -> 0 < nchunks -> 0 < nblks ->
  (forall k, In k names -> nc_ok nxyz nv (fs k) /\ NoDup (nc_labels (fs k))) ->
  (forall c : nat, Permutation (orders c) (seq 0 size)) ->
  (forall m, m <= length (nc_record zero nxyz fs names) -> 4 <= ver \/ ~ big_message size (nreaders_of nreaders size) nxyz nv m) ->
  nchunks * nblks <= length (nc_record zero nxyz fs names) ->
  exists st,
    get_data2 zero size (nreaders_of nreaders size) nxyz nv ver nchunks nblks fs names dst orders = Ok st /\
    represents (Chunks st) (map (picks zero (point_ids nxyz nv size dst)) (nc_record zero nxyz fs names)).
Proof.
  intros Hd Hn Hc Hb Hk Ho Hs Hle.
  assert (Hr : 0 < nreaders_of nreaders size <= size) by (apply nreaders_of_ok; lia).
  set (rec := nc_record zero nxyz fs names) in *.
  assert (Erows : map (own_points nxyz nv size dst) rec = map (picks zero (point_ids nxyz nv size dst)) rec).
  { apply map_ext_in. intros row Hrow. apply own_points_pick. eapply nc_record_row_length; [|exact Hrow]. intros k Hkk. now apply Hk. }
  destruct (@get_data2_spec A zero size (nreaders_of nreaders size) nxyz nv ver nchunks nblks fs names dst orders) as (x & Hx & E);
    try assumption.
  - intros k Hkk. destruct (Hk k Hkk) as [[H1 _] H2]. auto.
  - intros c _. apply Ho.
  - intros c Hcc. apply use_padding_small; [assumption|]. apply Hs. rewrite <- (nc_record_length zero nxyz). fold rec.
    pose proof (@bd_fits (length rec) nchunks c Hcc). lia.
  - fold rec in Hx, E. rewrite Erows in Hx. eexists. split; [exact E|].
    set (rows := map (picks zero (point_ids nxyz nv size dst)) rec) in *.
    assert (El : length rows = length rec) by apply map_length.
    destruct (@chunk_store_spec _ rows x (length rec) nchunks nblks Hc Hb El Hx) as (K1 & K2 & K3).
    destruct (@last_block_spec _ rows x (length rec) nchunks nblks Hc Hb El Hx) as [Hlast _]. destruct (Hlast Hle) as (r & Hr1 & _).
    cbn [represents]. rewrite El. split; [exact K2|]. split; [intros k b Hin; now apply (K3 k b)|].
    rewrite last_block_row_eq in Hr1. destruct (chunk_store (length rec) nchunks nblks x); [discriminate|].
    intros E0. rewrite E0 in Hr1. discriminate.
Qed.
