(* Property theorems C20-C30, C67, C80-C82: set-up of a fit. *)
From Coq Require Import QArith Qround Qcanon String.
From Verif Require Import Base_List Model_Parallel Spec_Array Proof_Parallel Model_Stat Spec_Stat
  Model_Reader2 Spec_Reader2 Model_Base Proof_Base Proof_Names Model_Weights Spec_Weights Proof_Weights.
Local Open Scope nat_scope.
Set Implicit Arguments.

(* ---- C20 ---- *)
Theorem C20_overlap_is_ceiling_and_hop_positive : forall n_dft overlap o,
  check_overlap n_dft overlap = Ok o ->
  (* smallest integer not below n_dft * overlap / 100 *)
  (inject_Z n_dft * overlap / 100 <= inject_Z o)%Q /\
  (forall z, inject_Z n_dft * overlap / 100 <= inject_Z z -> (o <= z)%Z)%Q /\
  (1 <= n_dft - o)%Z.
Proof. exact check_overlap_spec. Qed.
Print Assumptions C20_overlap_is_ceiling_and_hop_positive.
Theorem C20_rejected_iff : forall n_dft overlap,
  check_overlap n_dft overlap = Err ValueError <-> (inject_Z (n_dft - 1) < inject_Z n_dft * overlap / 100)%Q.
Proof. exact check_overlap_reject. Qed.
Print Assumptions C20_rejected_iff.
Example C20_nonvacuous : check_overlap 5 50 = Ok 3%Z /\ check_overlap 5 99 = Err ValueError.
Proof. split; reflexivity. Qed.

(* ---- C21 ---- *)
Theorem C21_blocks_tile_the_record : forall A (rec : list A) n_dft n_ov nb,
  (n_ov < n_dft)%Z -> check_feasible (Z.of_nat (length rec)) n_dft n_ov = Ok nb ->
  (2 <= nb)%Z /\
  (forall i, (0 <= i < nb)%Z ->
    let start := (i * (n_dft - n_ov))%Z in
    let off := block_offset (Z.of_nat (length rec)) n_dft n_ov i in
    off = start /\ (start + n_dft <= Z.of_nat (length rec))%Z /\
    get_block_array rec (Z.to_nat off) (Z.to_nat (off + n_dft)) = window (Z.to_nat start) (Z.to_nat n_dft) rec /\
    length (get_block_array rec (Z.to_nat off) (Z.to_nat (off + n_dft))) = Z.to_nat n_dft) /\
  (* one more block would not fit *)
  (Z.of_nat (length rec) < nb * (n_dft - n_ov) + n_dft)%Z.
Proof. exact @blocks_spec. Qed.
Print Assumptions C21_blocks_tile_the_record.
Theorem C21_accepted_iff_two_blocks_fit : forall nt n_dft n_ov, (n_ov < n_dft)%Z ->
  (exists nb, check_feasible nt n_dft n_ov = Ok nb) <-> (4 <= n_dft /\ n_dft + (n_dft - n_ov) <= nt)%Z.
Proof. exact feasible_iff. Qed.
Print Assumptions C21_accepted_iff_two_blocks_fit.
Example C21_nonvacuous : check_feasible 11 4 2 = Ok 4%Z /\
  map (block_offset 11 4 2) [0; 1; 2; 3]%Z = [0; 2; 4; 6]%Z /\ check_feasible 5 4 2 = Err ValueError.
Proof. repeat split; reflexivity. Qed.

(* ---- C22 ---- *)
(* snapshots live in any monoid (real or complex vectors with addition); divn v n is v / n *)
Theorem C22_long_time_mean_in_memory : forall V (zero : V) (add : V -> V -> V) (divn : V -> nat -> V),
  (forall a b c, add a (add b c) = add (add a b) c) -> (forall a, add zero a = a) -> (forall a, add a zero = a) ->
  forall nb data, 0 < nb ->
  long_t_mean zero add divn (length data) nb data = divn (fold_right add zero data) (length data).
Proof. intros V zero add divn H1 H2 H3 nb data Hb. unfold long_t_mean. f_equal. now apply (@long_t_sum_all V zero add). Qed.
Print Assumptions C22_long_time_mean_in_memory.
(* a store whose blocks tile the record (C15 shows the reader's store does) *)
Theorem C22_long_time_mean_chunked : forall V (zero : V) (add : V -> V -> V) (divn : V -> nat -> V),
  (forall a b c, add a (add b c) = add (add a b) c) -> (forall a, add zero a = a) -> (forall a, add a zero = a) ->
  forall (rows : list V) (st : list (nat * block V)),
  tiling 0 (map (fun e => (b_s (snd e), b_e (snd e))) st) (length rows) ->
  (forall k b, In (k, b) st -> b_v b = window (b_s b) (b_e b - b_s b) rows) ->
  long_t_mean_dict zero add divn (length rows) st = divn (fold_right add zero rows) (length rows).
Proof.
  intros V zero add divn H1 H2 H3 rows st Ht Hv. unfold long_t_mean_dict. f_equal.
  rewrite (@long_t_sum_dict_eq V zero add) by assumption.
  destruct (@tiling_concat V rows st 0 Ht Hv) as [_ ->]. rewrite Nat.sub_0_r. now rewrite window_all.
Qed.
Print Assumptions C22_long_time_mean_chunked.
(* the monoid laws hold for rationals; 7 snapshots, 3 blocks, remainder 1 *)
Example C22_nonvacuous :
  long_t_mean 0%Qc Qcplus (fun v n => (v / Q2Qc (qn n))%Qc) 7 3 (map (fun n => Q2Qc (qn n)) [1; 2; 3; 4; 5; 6; 14]) = Q2Qc 5.
Proof. apply Qc_is_canon. vm_compute. reflexivity. Qed.

(* ---- C23 ---- *)
Theorem C23_streaming_mean_is_first_snapshot_over_nt : forall V (zero : V) (add : V -> V -> V) (divn : V -> nat -> V),
  (forall a b c, add a (add b c) = add (add a b) c) -> (forall a, add zero a = a) -> (forall a, add a zero = a) ->
  forall nt nb x0, 0 < nb <= nt ->
  (* the data of a streaming fit at that point: the single snapshot 0 *)
  long_t_mean zero add divn nt nb [x0] = divn x0 nt.
Proof. intros V zero add divn H1 H2 H3 nt nb x0 H. unfold long_t_mean. f_equal. now apply (@long_t_sum_one V zero add). Qed.
Print Assumptions C23_streaming_mean_is_first_snapshot_over_nt.
(* so it is the mean only if the other snapshots sum to zero *)
Theorem C23_streaming_mean_refuted : exists (rec : list Qc) nb,
  0 < nb <= length rec /\
  long_t_mean 0%Qc Qcplus (fun v n => (v / Q2Qc (qn n))%Qc) (length rec) nb (window 0 1 rec)
  <> (fold_right Qcplus 0 rec / Q2Qc (qn (length rec)))%Qc.
Proof.
  exists (map (fun n => Q2Qc (qn n)) [1; 1; 1; 1]), 2. split; [cbn; lia|].
  intros H. apply (f_equal this) in H. vm_compute in H. discriminate.
Qed.
Print Assumptions C23_streaming_mean_refuted.

(* ---- C24 ---- *)
Theorem C24_one_sided_axis : forall n dt, 0 < n -> (0 < dt)%Q ->
  let f := get_freq_axis true false n dt in
  (* as many entries as a one-sided transform of n real samples has rows *)
  length f = n / 2 + 1 /\
  (forall k, k < length f -> (nth k f 0 == qn k / (qn n * dt))%Q) /\
  (forall k k', k < k' < length f -> (nth k f 0 < nth k' f 0)%Q) /\
  (forall k, k < length f -> (nth k f 0 <= 1 / (2 * dt))%Q) /\
  ((exists k, k < length f /\ (nth k f 0 == 1 / (2 * dt))%Q) <-> Nat.even n = true).
Proof.
  intros n dt Hn Hdt f. assert (Hl : length f = n / 2 + 1) by (apply one_sided_length; reflexivity).
  pose proof (Nat.div_mod_eq n 2) as Hd. pose proof (Nat.mod_upper_bound n 2 ltac:(lia)) as Hm.
  assert (Hk : forall k, k < length f -> (nth k f 0 == qn k / (qn n * dt))%Q)
    by (intros k H; unfold f; apply (@one_sided_nth n dt Hn Hdt k); lia).
  split; [exact Hl|]. split; [exact Hk|]. split; [|split].
  - intros k k' H. rewrite !Hk by lia. now apply (@f_lt n dt Hn Hdt).
  - intros k H. rewrite Hk by assumption. destruct (@f_cmp_nyq n dt Hn Hdt k) as (A & B & C).
    rewrite Hl in H. destruct (Nat.eq_dec (2 * k) n) as [E|E].
    + specialize (B E). rewrite <- B. apply Qle_refl.
    + apply Qlt_le_weak. apply A. lia.
  - rewrite Nat.even_spec. split.
    + intros (k & H & E). rewrite Hk in E by assumption. destruct (@f_cmp_nyq n dt Hn Hdt k) as (A & B & C).
      exists k. destruct (Nat.lt_trichotomy (2 * k) n) as [H1|[H1|H1]]; [|lia|].
      * specialize (A H1). rewrite E in A. now apply Qlt_irrefl in A.
      * specialize (C H1). rewrite E in C. now apply Qlt_irrefl in C.
    + intros [m Em]. exists m. assert (m < length f) by (rewrite Hl; lia). split; [assumption|].
      rewrite Hk by assumption. now apply (@f_cmp_nyq n dt Hn Hdt m).
Qed.
Print Assumptions C24_one_sided_axis.
Example C24_nonvacuous : map Qred (get_freq_axis true false 5 (1#2)) = [0; 2#5; 4#5]%Q.
Proof. reflexivity. Qed.

(* ---- C25 ---- *)
(* frequency of row k of an n-point DFT, Nyquist taken positive *)
Definition dft_frequency (n : nat) (dt : Q) (k : nat) : Q :=
  if 2 * k <=? n then (qn k / (qn n * dt))%Q else (qn k / (qn n * dt) - 1 / dt)%Q.
Theorem C25_dft_frequency_within_nyquist : forall n dt k, (0 < dt)%Q -> k < n ->
  (- (1 / (2 * dt)) < dft_frequency n dt k <= 1 / (2 * dt))%Q.
Proof. intros n dt k Hdt Hk. apply (@dft_freq_bound n dt ltac:(lia) Hdt k Hk). Qed.
Print Assumptions C25_dft_frequency_within_nyquist.
Theorem C25_two_sided_axis_even : forall n dt k, (0 < dt)%Q -> k < n -> Nat.even n = true ->
  (nth k (get_freq_axis false false n dt) 0 == dft_frequency n dt k)%Q.
Proof.
  intros n dt k Hdt Hk He. rewrite (@two_sided_nth n dt ltac:(lia) Hdt k Hk).
  apply Nat.even_spec in He as [m ->]. rewrite Nat.mul_comm, Nat.mod_mul by lia. reflexivity.
Qed.
Print Assumptions C25_two_sided_axis_even.
Theorem C25_two_sided_axis_odd_refuted : forall n dt, (0 < dt)%Q -> 3 <= n -> Nat.odd n = true ->
  let f := get_freq_axis false false n dt in
  let bad := (n + 1) / 2 in
  bad < n /\ (nth bad f 0 > 1 / (2 * dt))%Q /\ (nth bad f 0 == dft_frequency n dt bad + 1 / dt)%Q /\
  (forall k, k < n -> k <> bad -> (nth k f 0 == dft_frequency n dt k)%Q).
Proof.
  intros n dt Hdt Hn Ho f bad. apply Nat.odd_spec in Ho as [m Em].
  assert (Eb : bad = m + 1).
  { unfold bad. replace (n + 1) with ((m + 1) * 2) by lia. apply Nat.div_mul. lia. }
  assert (Hodd : (n mod 2 =? 0) = false).
  { apply Nat.eqb_neq. rewrite Em, Nat.add_comm, Nat.mul_comm, Nat.mod_add by lia. cbn. lia. }
  assert (Hb : bad < n) by lia.
  assert (Hv : (nth bad f 0 == qn bad / (qn n * dt))%Q).
  { unfold f. rewrite (@two_sided_nth n dt ltac:(lia) Hdt bad Hb), Hodd. fold bad. rewrite Nat.eqb_refl. reflexivity. }
  split; [exact Hb|]. split; [|split].
  - rewrite Hv. apply (@f_cmp_nyq n dt ltac:(lia) Hdt bad). lia.
  - rewrite Hv. unfold dft_frequency. replace (2 * bad <=? n) with false by (symmetry; apply Nat.leb_gt; lia). ring.
  - intros k Hk Hne. unfold f. rewrite (@two_sided_nth n dt ltac:(lia) Hdt k Hk), Hodd. fold bad.
    apply Nat.eqb_neq in Hne. rewrite Hne. reflexivity.
Qed.
Print Assumptions C25_two_sided_axis_odd_refuted.
Example C25_nonvacuous : map Qred (get_freq_axis false false 5 1) = [0; 1#5; 2#5; 3#5; -1#5]%Q.
Proof. reflexivity. Qed.

(* ---- C26 ---- *)
(* serial run (in-memory or file-based data): accepted iff the number of entries is nx*nv, and then
   the i-th weight used is the i-th flattened weight given *)
Theorem C26_accepted_iff_right_size : forall A (one : A) w xshape nv flattened ax l,
  initialize_weights one (WeightsDict w) xshape nv flattened ax None (prod xshape * nv) = Ok l
  <-> length (flat w) = prod xshape * nv /\ l = flat w.
Proof.
  intros. unfold initialize_weights. cbn [define_weights].
  destruct (Nat.eqb_spec (length (flat w)) (prod xshape * nv)) as [E|E]; cbn [bind].
  - unfold local_weights. cbn [distribute_dimension bind].
    replace (flat (flatten_weights flattened nv w)) with (flat w) by (destruct flattened; reflexivity).
    rewrite E, Nat.eqb_refl. split; [intros H; injection H as <-; auto|now intros [_ ->]].
  - split; [discriminate|]. intros [H _]. contradiction.
Qed.
Print Assumptions C26_accepted_iff_right_size.
Theorem C26_default_is_one : forall A (one : A) xshape nv,
  exists w, define_weights one NoWeights xshape nv = Ok w /\ wf w /\ shape w = xshape ++ [nv] /\
    length (flat w) = prod xshape * nv /\ forall x, In x (flat w) -> x = one.
Proof.
  intros. eexists. split; [reflexivity|]. cbn [flat shape]. split; [unfold wf; cbn [flat shape]; apply repeat_length|].
  split; [reflexivity|]. split; [rewrite repeat_length, prod_app; unfold prod at 2; cbn; lia|].
  intros x Hx. now apply repeat_spec in Hx.
Qed.
Print Assumptions C26_default_is_one.
(* parallel, flat weights, data cut along the first axis (N slices of inner entries): when every
   rank accepts, every rank has the weights of its own columns *)
Theorem C26_flat_weights_parallel_pairing : forall A (w : list A) N inner size,
  0 < size -> length w = N * inner ->
  let own r := fst (blockdist N size r) * inner in
  (forall r, r < size -> exists l, local_weights (Nd [N * inner] w) 0 (Some (size, r)) (own r) = Ok l) ->
  forall r, r < size -> local_weights (Nd [N * inner] w) 0 (Some (size, r)) (own r)
   = Ok (window (snd (blockdist N size r) * inner) (own r) w).
Proof. exact @flat_weights_paired. Qed.
Print Assumptions C26_flat_weights_parallel_pairing.
(* parallel, flat weights, data cut along another axis: always rejected *)
Theorem C26_flat_weights_other_axis_raises : forall A (w : list A) ax size r xvsize, 0 < ax ->
  local_weights (Nd [length w] w) ax (Some (size, r)) xvsize = Err IndexError.
Proof.
  intros. unfold local_weights, distribute_dimension. cbn [shape length].
  destruct (Nat.ltb_spec ax 1); [lia|reflexivity].
Qed.
Print Assumptions C26_flat_weights_other_axis_raises.
Example C26_nonvacuous :
  (forall r, r < 2 -> exists l, local_weights (Nd [4 * 3] (seq 0 12)) 0 (Some (2, r)) (fst (blockdist 4 2 r) * 3) = Ok l) /\
  local_weights (Nd [3 * 2] (seq 0 6)) 0 (Some (2, 0)) (fst (blockdist 3 2 0) * 2) = Err ValueError.
Proof. split; [|reflexivity]. intros [|[|r]] H; [eexists; reflexivity|eexists; reflexivity|lia]. Qed.

(* ---- C80 ---- *)
(* an array given directly (not in a dictionary) is accepted whatever its size, and every weight used is one *)
Theorem C80_array_weights_ignored : forall A (one : A) (w : nd A) xshape nv flattened ax,
  initialize_weights one (WeightsArray w) xshape nv flattened ax None (prod xshape * nv) = Ok (repeat one (prod xshape * nv)).
Proof.
  intros. unfold initialize_weights, local_weights. cbn [define_weights bind].
  unfold distribute_dimension. cbn [bind].
  assert (E : prod (xshape ++ [nv]) = prod xshape * nv) by (rewrite prod_app; unfold prod at 2; cbn; lia).
  destruct flattened; cbn [flatten_weights flat]; rewrite repeat_length, E, Nat.eqb_refl; reflexivity.
Qed.
Print Assumptions C80_array_weights_ignored.
Theorem C80_expectation_refuted : exists (w : nd nat) xshape nv,
  length (flat w) = prod xshape * nv /\
  initialize_weights 1 (WeightsArray w) xshape nv false 0 None (prod xshape * nv)
  <> initialize_weights 1 (WeightsDict w) xshape nv false 0 None (prod xshape * nv).
Proof. exists (Nd [2] [3; 4]), [2], 1. split; [reflexivity|]. vm_compute. discriminate. Qed.
Print Assumptions C80_expectation_refuted.

(* ---- C67 ---- *)
(* length data = k * nv: any number k > 0 of points and times, nv variables, variable axis last *)
Theorem C67_normalised_weight_times_variance : forall nv data sh (w : list Q) k,
  0 < nv -> 0 < k -> length data = k * nv -> last sh 0 = nv ->
  (forall i, i < nv -> ~ (variance (variable_values nv i data) == 0)%Q) ->
  exists w', apply_normalization_serial store_float true nv data (Nd sh (map Some w)) = Ok (Nd sh (map Some w')) /\
    length w' = length w /\
    forall p, p < length w -> (nth p w' 0 * variance (variable_values nv (p mod nv) data) == nth p w 0)%Q.
Proof. exact normalize_serial_spec. Qed.
Print Assumptions C67_normalised_weight_times_variance.
Theorem C67_parallel_equals_serial : forall nv (data : nd Q) ax (w : nd (option Q)) axw size (t : rtree (list Q)) r,
  0 < nv -> wf data -> S ax < length (shape data) -> last (shape data) 0 = nv ->
  0 < prod (shape data) -> 0 < size <= nth ax (shape data) 0 ->
  (* the reduction tree holds the local data of the ranks, in any order and bracketing *)
  Permutation (leaves t) (map (fun r => flat (slice_axis ax (snd (blockdist (nth ax (shape data) 0) size r))
                                         (fst (blockdist (nth ax (shape data) 0) size r)) data)) (seq 0 size)) ->
  wf w -> S axw < length (shape w) -> last (shape w) 0 = nv -> r < size ->
  exists wr ws wr', distribute_dimension w axw (Some (size, r)) = Ok wr /\
    apply_normalization_serial store_float true nv (flat data) w = Ok ws /\
    apply_normalization_parallel store_float true nv t wr = Ok wr' /\
    exists piece, distribute_dimension ws axw (Some (size, r)) = Ok piece /\
      shape wr' = shape piece /\ Forall2 oeq (flat wr') (flat piece).
Proof. exact normalize_parallel_serial. Qed.
Print Assumptions C67_parallel_equals_serial.
Theorem C67_other_methods_do_nothing : forall store nv data t w,
  apply_normalization_serial store false nv data w = Ok w /\ apply_normalization_parallel store false nv t w = Ok w.
Proof. split; reflexivity. Qed.
Print Assumptions C67_other_methods_do_nothing.
Definition reduced (r : res (nd (option Q))) : list (option Q) :=
  match r with Ok a => map (option_map Qred) (flat a) | Err _ => [] end.
Example C67_nonvacuous :
  let data := Nd [2; 2; 2] [0; 1; 2; 5; 2; 1; 0; 5]%Q in      (* variances 1 and 4 *)
  (forall i, i < 2 -> ~ (variance (variable_values 2 i (flat data)) == 0)%Q) /\
  reduced (apply_normalization_serial store_float true 2 (flat data) (Nd [2; 2] (map Some [1; 1; 1; 2]%Q)))
  = map Some [1; 1 # 4; 1; 1 # 2]%Q /\
  (* two ranks owning one point each *)
  reduced (apply_normalization_parallel store_float true 2 (Node (Leaf [2; 5; 0; 5]%Q) (Leaf [0; 1; 2; 1]%Q)) (Nd [1; 2] (map Some [1; 2]%Q)))
  = map Some [1; 1 # 2]%Q.
Proof.
  split; [|split; vm_compute; reflexivity].
  intros [|[|i]] H; [vm_compute; discriminate|vm_compute; discriminate|lia].
Qed.

(* ---- C27 ---- *)
(* n fits on the same data leave the caller's weights divided n times by the variance *)
Theorem C27_caller_weights_divided_at_every_fit : forall n nv data sh (w : list Q) k,
  0 < nv -> 0 < k -> length data = k * nv -> last sh 0 = nv ->
  (forall i, i < nv -> ~ (variance (variable_values nv i data) == 0)%Q) ->
  exists w', fits_weights n store_float nv data (Nd sh (map Some w)) = Ok (Nd sh (map Some w')) /\
    length w' = length w /\
    forall p, p < length w -> (nth p w' 0 * variance (variable_values nv (p mod nv) data) ^ Z.of_nat n == nth p w 0)%Q.
Proof. exact fits_spec. Qed.
Print Assumptions C27_caller_weights_divided_at_every_fit.
(* so with a variance other than 1 (and -1, impossible) the second fit uses other weights than the first *)
Theorem C27_refit_refuted : forall nv data sh (w w1 w2 : list Q) k p,
  0 < nv -> 0 < k -> length data = k * nv -> last sh 0 = nv ->
  (forall i, i < nv -> ~ (variance (variable_values nv i data) == 0)%Q) ->
  fits_weights 1 store_float nv data (Nd sh (map Some w)) = Ok (Nd sh (map Some w1)) ->
  fits_weights 2 store_float nv data (Nd sh (map Some w)) = Ok (Nd sh (map Some w2)) ->
  p < length w -> ~ (nth p w 0 == 0)%Q -> ~ (variance (variable_values nv (p mod nv) data) == 1)%Q ->
  ~ (nth p w1 0 == nth p w 0)%Q /\ ~ (nth p w2 0 == nth p w1 0)%Q.
Proof.
  intros nv data sh w w1 w2 k p Hv Hk Hl Hs Hvar E1 E2 Hp Hw H1.
  destruct (@fits_spec 1 nv data sh w k Hv Hk Hl Hs Hvar) as (u1 & F1 & _ & P1).
  destruct (@fits_spec 2 nv data sh w k Hv Hk Hl Hs Hvar) as (u2 & F2 & _ & P2).
  assert (Hi : forall a b : list Q, map Some a = map Some b -> a = b).
  { induction a as [|x a IH]; destruct b as [|y b]; cbn; intros E; try discriminate; [reflexivity|].
    injection E as -> E. f_equal. now apply IH. }
  rewrite E1 in F1. injection F1 as F1. apply Hi in F1. subst u1.
  rewrite E2 in F2. injection F2 as F2. apply Hi in F2. subst u2.
  specialize (P1 p Hp). specialize (P2 p Hp). set (v := variance _) in *.
  assert (Hm : p mod nv < nv) by (apply Nat.mod_upper_bound; lia).
  pose proof (Hvar _ Hm) as Hv0. fold v in Hv0.
  change (v ^ Z.of_nat 1)%Q with v in P1. change (v ^ Z.of_nat 2)%Q with (v * v)%Q in P2.
  clearbody v. set (a := nth p w 0%Q) in *. set (b := nth p w1 0%Q) in *. set (c := nth p w2 0%Q) in *.
  clearbody a b c. split; intros E.
  - rewrite E in P1. apply H1. apply (Qmult_inj_l _ _ a Hw). rewrite P1. ring.
  - assert (Hb : ~ (b == 0)%Q) by (intros E0; apply Hw; rewrite <- P1, E0; ring).
    rewrite E, <- P1 in P2. apply H1. apply (Qmult_inj_l _ _ (b * v)%Q).
    + intros E0. apply Qmult_integral in E0 as [E0|E0]; contradiction.
    + rewrite <- Qmult_assoc, P2. ring.
Qed.
Print Assumptions C27_refit_refuted.

(* ---- C81 ---- *)
(* integer weights: the quotient is truncated *)
Theorem C81_integer_weights_truncated : forall nv data sh (w : list Q) k,
  0 < nv -> 0 < k -> length data = k * nv -> last sh 0 = nv ->
  (* unit weights and variances above 1: every weight becomes zero *)
  (forall x, In x w -> x = 1%Q) ->
  (forall i, i < nv -> (1 < variance (variable_values nv i data))%Q) ->
  apply_normalization_serial store_int true nv data (Nd sh (map Some w)) = Ok (Nd sh (map (fun _ => Some 0%Q) w)).
Proof.
  intros nv data sh w k Hv Hk Hl Hs Hone Hvar. unfold apply_normalization_serial, last_dim. cbn [shape flat].
  rewrite Hs, normalize_map by assumption. cbn [bind]. do 2 f_equal.
  apply nth_error_ext. intros p. rewrite !nth_error_map, nth_error_combine, nth_error_map_seq, nth_error_map.
  rewrite map_length. cbn [plus]. destruct (Nat.ltb_spec p (length w)) as [Hp|Hp].
  - destruct (nth_error w p) as [x|] eqn:Ex; [|apply nth_error_None in Ex; lia]. cbn [option_map fst snd].
    rewrite (Hone x) by (eapply nth_error_In; eassumption).
    assert (Hm : p mod nv < nv) by (apply Nat.mod_upper_bound; lia). specialize (Hvar _ Hm).
    destruct (@nanvar_ok (last_axis 0%Q nv (p mod nv) data)) as (v & Ev & Hve).
    { apply last_axis_nonempty; nia. }
    rewrite (@variable_values_eq Q 0%Q nv (p mod nv) data k) in Hvar by assumption. rewrite <- Hve in Hvar.
    rewrite Ev. assert (H0 : (0 < v)%Q) by (eapply Qlt_trans; [|exact Hvar]; reflexivity).
    rewrite qdiv_some by (intros E; rewrite E in H0; now apply Qlt_irrefl in H0).
    cbn [store_int]. do 2 f_equal.
    assert (Hi : (0 < / v)%Q) by (now apply Qinv_lt_0_compat).
    assert (Hq0 : (0 <= 1 / v)%Q) by (unfold Qdiv; rewrite Qmult_1_l; now apply Qlt_le_weak).
    assert (Hq1 : (1 / v < 1)%Q) by (apply Qlt_shift_div_r; [assumption|now rewrite Qmult_1_l]).
    apply Qle_bool_iff in Hq0 as Hb. rewrite Hb. change 0%Q with (inject_Z 0). f_equal.
    pose proof (Qfloor_le (1 / v)) as F1. pose proof (Qlt_floor (1 / v)) as F2.
    assert (F3 : (inject_Z (Qfloor (1 / v)) < inject_Z 1)%Q) by (eapply Qle_lt_trans; eassumption).
    assert (F4 : (inject_Z 0 < inject_Z (Qfloor (1 / v) + 1))%Q) by (eapply Qle_lt_trans; eassumption).
    rewrite <- Zlt_Qlt in F3, F4. lia.
  - replace (nth_error w p) with (@None Q) by (symmetry; apply nth_error_None; lia). reflexivity.
Qed.
Print Assumptions C81_integer_weights_truncated.
(* single-variable data with weights that have no variable axis (shape sh, last length L > 1): only
   the entries with last index 0 are normalised *)
Theorem C81_weights_without_variable_axis : forall data sh (w : list Q), data <> [] -> 1 < last sh 0 ->
  exists w', apply_normalization_serial store_float true 1 data (Nd sh (map Some w)) = Ok (Nd sh w') /\
    forall p, p < length w -> p mod last sh 0 <> 0 -> nth_error w' p = Some (Some (nth p w 0%Q)).
Proof.
  intros data sh w Hd HL. unfold apply_normalization_serial, last_dim. cbn [shape flat].
  destruct (@normalize_seq store_float (last sh 0) (fun i => nanvar (last_axis 0%Q 1 i data)) 1 (map Some w) ltac:(lia))
    as (w' & E & El & En). rewrite E. exists w'. split; [reflexivity|].
  intros p Hp Hm. rewrite En. destruct (Nat.ltb_spec (p mod last sh 0) 1); [lia|].
  rewrite nth_error_map. erewrite nth_error_nth' by exact Hp. reflexivity.
Qed.
Print Assumptions C81_weights_without_variable_axis.
(* last axis shorter than the number of variables *)
Theorem C81_short_last_axis_raises : forall store nv data w, last (shape w) 0 < nv ->
  apply_normalization_serial store true nv data w = Err IndexError.
Proof. intros. unfold apply_normalization_serial, last_dim. now rewrite normalize_seq_err. Qed.
Print Assumptions C81_short_last_axis_raises.
Example C81_nonvacuous :
  reduced (apply_normalization_serial store_int true 1 [0; 4]%Q (Nd [2; 1] (map Some [1; 1]%Q))) = map Some [0; 0]%Q /\
  reduced (apply_normalization_serial store_float true 1 [0; 4]%Q (Nd [1; 2] (map Some [1; 1]%Q))) = map Some [1 # 4; 1]%Q.
Proof. split; vm_compute; reflexivity. Qed.

(* ---- C82 ---- *)
Theorem C82_file_based_fit_with_normalised_weights_raises : forall store nv st w,
  normalize_step true store nv (ChunkStore st) w = Err KeyError /\
  (* although the same values held in memory are accepted *)
  (last (shape w) 0 = nv -> 0 < nv -> exists w', normalize_step true store nv (InMemory (concat (map snd st))) w = Ok w').
Proof.
  intros. split; [reflexivity|]. intros Hs Hv. cbn [normalize_step]. unfold apply_normalization_serial, last_dim.
  rewrite Hs, normalize_map by assumption. cbn [bind]. eauto.
Qed.
Print Assumptions C82_file_based_fit_with_normalised_weights_raises.

(* ---- C28 ---- *)
Theorem C28_saved_modes_minimum_over_history : forall requested h,
  ms_attr (modes_run requested h) = fold_right Nat.min requested (fits_of h).
Proof. intros. now rewrite modes_run_min. Qed.
Print Assumptions C28_saved_modes_minimum_over_history.
Theorem C28_never_more_than_blocks_or_requested : forall requested h nb,
  ms_attr (modes_run requested (h ++ [Fit nb])) <= nb /\ ms_attr (modes_run requested (h ++ [Fit nb])) <= requested.
Proof.
  intros. rewrite modes_run_min. cbn [ms_attr]. unfold fits_of. rewrite flat_map_app. cbn [flat_map app].
  rewrite fold_right_app. cbn [fold_right]. generalize (flat_map (fun o => match o with Fit nb => [nb] | NewObject => [] end) h).
  intros l. assert (E : fold_right Nat.min (Nat.min nb requested) l <= Nat.min nb requested).
  { induction l as [|x l IH]; cbn [fold_right]; lia. } lia.
Qed.
Print Assumptions C28_never_more_than_blocks_or_requested.
(* a later fit with enough blocks does not get the modes requested, also on a new object built from
   the same parameter dictionary *)
Theorem C28_expectation_refuted : exists requested h nb,
  ms_attr (modes_run requested (h ++ [NewObject; Fit nb])) < Nat.min requested nb.
Proof. exists 5, [Fit 2], 10. cbn. lia. Qed.
Print Assumptions C28_expectation_refuted.

(* ---- C29 ---- *)
Theorem C29_result_folders_separate : forall n_dft ov nb n_dft' ov' nb',
  result_folder n_dft ov nb = result_folder n_dft' ov' nb' <-> n_dft = n_dft' /\ ov = ov' /\ nb = nb'.
Proof. intros. split; [apply result_folder_inj|]. now intros (-> & -> & ->). Qed.
Print Assumptions C29_result_folders_separate.
Example C29_nonvacuous : result_folder 64 32 10 = "nfft64_novlp32_nblks10"%string.
Proof. reflexivity. Qed.

(* ---- C30 ---- *)
Theorem C30_storage_options : forall o s, fit_storage o = Ok s ->
  ~ (o_disk o = true /\ o_disk2 o = true) /\
  (s = PerMode <-> o_disk2 o = true) /\ (s = PerFrequency <-> o_disk o = true) /\
  (s = PerMode -> o_comm o = true /\ o_flat o = true) /\ (s = PerFrequency -> o_flat o = false).
Proof.
  intros [d d2 c f] s H. destruct d, d2, c, f; cbn in H; try discriminate; injection H as <-;
    repeat split; cbn; try tauto; intros; try discriminate; try tauto; intuition congruence.
Qed.
Print Assumptions C30_storage_options.
(* and every such consistent combination is accepted *)
Theorem C30_consistent_accepted : forall o, ~ (o_disk o = true /\ o_disk2 o = true) ->
  (o_disk2 o = true -> o_comm o = true /\ o_flat o = true) -> (o_disk o = true -> o_flat o = false) ->
  (o_flat o = true -> o_comm o = true) -> exists s, fit_storage o = Ok s.
Proof. intros [d d2 c f]. cbn. destruct d, d2, c, f; cbn; intros; eauto; exfalso; intuition congruence. Qed.
Print Assumptions C30_consistent_accepted.

(* ---- concrete cases for the theorems above ---- *)
Example C23_nonvacuous : long_t_mean 0%Qc Qcplus (fun v n => (v / Q2Qc (qn n))%Qc) 4 2 [Q2Qc 3] = (Q2Qc 3 / Q2Qc (qn 4))%Qc.
Proof. apply (C23_streaming_mean_is_first_snapshot_over_nt 0%Qc Qcplus); [apply Qcplus_assoc|apply Qcplus_0_l|apply Qcplus_0_r|lia]. Qed.
Example C27_nonvacuous :
  let data := [1; 0; 5; 4]%Q in
  last [1; 2] 0 = 2 /\ length data = 2 * 2 /\
  (forall i, i < 2 -> (variance (variable_values 2 i data) == 4)%Q) /\
  exists w1 w2, fits_weights 1 store_float 2 data (Nd [1; 2] (map Some [8; 3]%Q)) = Ok (Nd [1; 2] (map Some w1)) /\
    fits_weights 2 store_float 2 data (Nd [1; 2] (map Some [8; 3]%Q)) = Ok (Nd [1; 2] (map Some w2)) /\
    (nth 0 w1 0 == 2)%Q /\ (nth 0 w2 0 == 1 # 2)%Q.
Proof.
  cbn zeta. split; [reflexivity|split; [reflexivity|split]].
  - intros [|[|i]] Hi; [reflexivity|reflexivity|lia].
  - exists [256 # 128; 96 # 128]%Q, [8192 # 16384; 3072 # 16384]%Q. repeat split; vm_compute; reflexivity.
Qed.
Example C28_nonvacuous : ms_attr (modes_run 4 [Fit 6; Fit 3; NewObject; Fit 5]) = 3.
Proof. reflexivity. Qed.
Example C30_nonvacuous :
  fit_storage (Options false true true true) = Ok PerMode /\ fit_storage (Options true false true false) = Ok PerFrequency /\
  fit_storage (Options false false false false) = Ok NoFiles /\ (exists e, fit_storage (Options true false true true) = Err e) /\
  (exists e, fit_storage (Options false true false true) = Err e) /\ (exists e, fit_storage (Options false true true false) = Err e).
Proof. repeat split; try reflexivity; eexists; reflexivity. Qed.
Example C80_nonvacuous : initialize_weights 1 (WeightsArray (Nd [3] [5; 6; 7])) [2] 2 false 0 None 4 = Ok [1; 1; 1; 1].
Proof. reflexivity. Qed.
