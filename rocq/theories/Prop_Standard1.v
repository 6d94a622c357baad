(* Property theorems C31, C33, C39, C40, C42: data movement of the batch algorithm. *)
From Coq Require Import String.
From Verif Require Import Base_List Model_Parallel Spec_Array Proof_Parallel Proof_Npy2 Spec_Reader Proof_Reader1 Model_Reader2 Spec_Reader2
  Model_Base Proof_Base Proof_Names Proof_Weights Model_Standard Proof_Standard1 Proof_Standard2 Proof_Standard3.
Local Open Scope nat_scope.
Set Implicit Arguments.

Lemma Forall2_len {A B} (P : A -> B -> Prop) l l' : Forall2 P l l' -> length l = length l'.
Proof. induction 1; cbn; auto. Qed.
(* ---- C31 ---- *)
(* the store tiles the record (C15) and its last block is not empty (C17); nb blocks of n_dft rows, hop
   rows apart, all inside the record (C21) *)
Theorem C31_blocks_from_chunked_store : forall A (rows : list A) st n_dft hop nb,
  0 < n_dft ->
  tiling 0 (map (fun e => (b_s (snd e), b_e (snd e))) st) (length rows) ->
  (forall k b, In (k, b) st -> b_v b = window (b_s b) (b_e b - b_s b) rows) ->
  b_v (snd (last st (0, Block 0 0 []))) <> [] ->
  (forall i, i < nb -> i * hop + n_dft <= length rows) ->
  run_blocks st n_dft (map (fun i => i * hop) (seq 0 nb))
  = Ok (map (fun i => window (i * hop) n_dft rows) (seq 0 nb)).
Proof. intros. eapply run_blocks_spec; try eassumption. - intros i Hi. apply H3. lia. - lia. Qed.
Print Assumptions C31_blocks_from_chunked_store.
Example C31_nonvacuous :
  let rows := seq 10 7 in
  let st := [(0, Block 0 3 [10; 11; 12]); (1, Block 3 3 []); (2, Block 3 5 [13; 14]); (3, Block 5 7 [15; 16])] in
  tiling 0 (map (fun e => (b_s (snd e), b_e (snd e))) st) (length rows) /\
  (forall k b, In (k, b) st -> b_v b = window (b_s b) (b_e b - b_s b) rows) /\
  run_blocks st 3 [0; 2; 4] = Ok [[10; 11; 12]; [12; 13; 14]; [14; 15; 16]] /\
  (* the first two chunks are gone after the third block *)
  map fst (drop_old 4 st) = [2; 3].
Proof.
  cbn zeta. split; [cbn; lia|]. split; [|split; reflexivity].
  intros k b [E|[E|[E|[E|[]]]]]; injection E as <- <-; reflexivity.
Qed.

(* ---- C33 ---- *)
Theorem C33_each_file_written_once : forall size n_freq n_modes f m,
  0 < size -> f < n_freq -> m < n_modes ->
  exists! pr : nat * nat, fst pr < n_passes size n_freq n_modes /\ snd pr < size /\
    pass_write size n_freq n_modes (fst pr) (snd pr) = Some (f, m).
Proof.
  intros size n_freq n_modes f m Hs Hf Hm. set (i := f * n_modes + m).
  assert (Hi : i < n_freq * n_modes) by (unfold i; nia).
  pose proof (Nat.div_mod_eq i size) as E. pose proof (Nat.mod_upper_bound i size ltac:(lia)) as Hr.
  assert (Ei : i / size * size + i mod size = i) by lia.
  exists (i / size, i mod size). cbn [fst snd]. split.
  - split; [cbn [fst]; apply (proj2 (@passes_bound size n_freq n_modes Hs (i / size))); unfold total_files; lia|]. split; [assumption|].
    cbn [fst snd]. rewrite pass_write_eq by assumption. rewrite Ei. unfold total_files.
    replace (i <? n_freq * n_modes) with true by (symmetry; now apply Nat.ltb_lt).
    unfold i. rewrite Nat.div_add_l by lia. rewrite (Nat.div_small m) by lia. rewrite Nat.add_0_r.
    rewrite Nat.add_comm, Nat.mod_add by lia. rewrite Nat.mod_small by lia. reflexivity.
  - intros [p r] (Hp & Hrr & Hw). cbn [fst snd] in *. rewrite pass_write_eq in Hw by assumption.
    destruct (p * size + r <? total_files n_freq n_modes); [|discriminate]. injection Hw as E1 E2.
    assert (Ej : p * size + r = i).
    { rewrite (Nat.div_mod_eq (p * size + r) n_modes), E1, E2. unfold i. lia. }
    rewrite <- Ej. f_equal.
    + rewrite Nat.div_add_l by lia. rewrite Nat.div_small by lia. lia.
    + rewrite Nat.add_comm, Nat.mod_add by lia. now apply Nat.mod_small.
Qed.
Print Assumptions C33_each_file_written_once.
(* contents: the pieces of all ranks in rank order, whatever the order in which messages arrive *)
Theorem C33_file_contents : forall A (zero : A) size n_freq n_modes (phi : nat -> nat -> nat -> list A) pass rank order f m content,
  0 < size -> 0 < n_modes -> rank < size ->
  (* all modes of one rank have the same number of entries *)
  (forall r f m, r < size -> f < n_freq -> m < n_modes -> length (phi r f m) = length (phi r 0 0)) ->
  Permutation order (seq 0 size) ->
  pass_file zero size n_freq n_modes phi pass rank order = Some (f, m, content) ->
  f < n_freq /\ m < n_modes /\ content = concat (map (fun r => phi r f m) (seq 0 size)).
Proof.
  intros A zero size n_freq n_modes phi pass rank order f m content Hs Hm Hr Hphi Hperm H.
  rewrite pass_file_eq in H by assumption.
  destruct (Nat.ltb_spec (pass * size + rank) (total_files n_freq n_modes)) as [Hi|Hi]; [|discriminate].
  injection H as <- <- <-. assert (Hb : (pass * size + rank) / n_modes < n_freq /\ (pass * size + rank) mod n_modes < n_modes) by (eapply file_bounds; eassumption). tauto.
Qed.
Print Assumptions C33_file_contents.
(* every file that pass_write announces is written *)
Theorem C33_announced_files_are_written : forall A (zero : A) size n_freq n_modes (phi : nat -> nat -> nat -> list A) pass rank order fm,
  pass_write size n_freq n_modes pass rank = Some fm ->
  exists content, pass_file zero size n_freq n_modes phi pass rank order = Some (fm, content).
Proof. intros. unfold pass_file. rewrite H. eauto. Qed.
Print Assumptions C33_announced_files_are_written.
(* every message sent is received: as many receives from a source as messages sent by it *)
Theorem C33_no_message_left : forall A (zero : A) size n_freq n_modes (phi : nat -> nat -> nat -> list A) src dst,
  0 < size -> dst < size ->
  receives_before size n_freq n_modes (n_passes size n_freq n_modes) dst = length (channel zero size n_freq n_modes phi src dst).
Proof.
  intros A zero size n_freq n_modes phi src dst Hs Hd. unfold receives_before, channel.
  generalize (seq 0 (n_passes size n_freq n_modes)) as l. induction l as [|p l IH]; [reflexivity|].
  cbn [map flat_map sum fold_right]. rewrite app_length. unfold sum in IH. rewrite IH. f_equal.
  generalize (pass_range size n_freq n_modes p) as r. induction r as [|i r IHr]; [reflexivity|].
  cbn [filter flat_map]. rewrite (Nat.eqb_sym dst). destruct (i mod size =? dst); cbn [length app]; lia.
Qed.
Print Assumptions C33_no_message_left.
Example C33_nonvacuous :
  let phi := fun r f m => repeat (100 * f + 10 * m + r) (r + 1) in   (* pieces of lengths 1, 2, 3 *)
  pass_file 0 3 2 2 phi 0 2 [2; 0; 1] = Some (1, 0, [100; 101; 101; 102; 102; 102]) /\
  pass_file 0 3 2 2 phi 1 0 [1; 0; 2] = Some (1, 1, [110; 111; 111; 112; 112; 112]) /\
  pass_file 0 3 2 2 phi 1 1 [1; 0; 2] = None.
Proof. repeat split; reflexivity. Qed.

(* ---- C39 ---- *)
(* files: after the writing run (from any earlier state of the folder) the reusing run finds and loads
   exactly what was saved *)
Theorem C39_reuse_loads_what_was_saved : forall X n_blocks n_freq (mid : nat -> nat -> list X) qhat (m0 : fs X) other,
  let m := fs_run m0 (save_ops n_blocks n_freq mid qhat) in
  reuse_run m n_blocks n_freq other = Ok (map (fun bf => qhat (fst bf) (snd bf)) (expected n_blocks n_freq)).
Proof.
  intros X nb nf mid qhat m0 other m.
  assert (H : forall b f, b < nb -> f < nf -> m (block_file b f) = Some (Some (qhat b f))).
  { intros b f Hb Hf. apply (@run_all X mid qhat m0 (expected nb nf) (b, f)); [apply expected_NoDup|]. apply expected_In; lia. }
  unfold reuse_run. assert (Hp : are_blocks_present m nb nf = true).
  { apply present_iff. intros b f Hb Hf. rewrite H by assumption. discriminate. }
  rewrite Hp. now apply load_ok.
Qed.
Print Assumptions C39_reuse_loads_what_was_saved.
Theorem C39_files_never_shared : forall b f b' f', block_file b f = block_file b' f' -> b = b' /\ f = f'.
Proof. exact block_file_inj. Qed.
Print Assumptions C39_files_never_shared.
(* contents: saved by size1 ranks (c1) or serially, reloaded by any number of ranks (c2): every rank gets
   the piece of the realization q that it owns *)
Theorem C39_reload_on_any_number_of_ranks : forall A (q : list A) xshape ax size1 c2,
  length q = prod xshape -> ax < length xshape -> 0 < size1 -> comm_ok c2 ->
  exists pieces,
    Forall2 (fun r p => distribute_dimension (Nd xshape q) ax (Some (size1, r)) = Ok p) (seq 0 size1) pieces /\
    (* each rank can give its piece the shape it is saved with *)
    (forall p, In p pieces -> 0 < prod (firstn ax xshape) * prod (skipn (S ax) xshape) ->
       save_shape xshape ax (Some (size1, 0)) (length (flat p)) = Ok (shape p)) /\
    reload_block xshape ax c2 (concat_axis ax pieces) = Ok (local_piece xshape ax c2 q) /\
    reload_block xshape ax c2 (Nd xshape q) = Ok (local_piece xshape ax c2 q).
Proof.
  intros A q xshape ax size1 c2 Hl Hax Hs Hc.
  destruct (@distribute_reassemble A (Nd xshape q) ax size1 Hl Hax Hs) as (pieces & F & Ecat & _).
  exists pieces. split; [exact F|].
  assert (Hre : reload_block xshape ax c2 (Nd xshape q) = Ok (local_piece xshape ax c2 q)).
  { unfold reload_block. cbn [shape]. destruct (list_eq_dec Nat.eq_dec xshape xshape); [|congruence].
    unfold distribute_dimension, local_piece. destruct c2 as [[sz rk]|]; [|reflexivity]. cbn [shape].
    replace (ax <? length xshape) with true by (symmetry; now apply Nat.ltb_lt).
    destruct (blockdist (nth ax xshape 0) sz rk); reflexivity. }
  split; [|split; [rewrite Ecat; exact Hre|exact Hre]].
  intros p Hp Hpos. apply (In_nth _ _ (Nd [] [])) in Hp as (r & Hr & Hp).
  assert (Hlen : size1 = length pieces) by (rewrite <- (seq_length size1 0); eapply Forall2_len; exact F).
  assert (Hd : distribute_dimension (Nd xshape q) ax (Some (size1, r)) = Ok p).
  { assert (G : forall l l' j, Forall2 (fun r p => distribute_dimension (Nd xshape q) ax (Some (size1, r)) = Ok p) l l' ->
       j < length l' -> distribute_dimension (Nd xshape q) ax (Some (size1, nth j l 0)) = Ok (nth j l' (Nd [] []))).
    { clear. intros l l' j F. revert j. induction F as [|x y l l' Hxy F IH]; intros j Hj; [cbn in Hj; lia|].
      destruct j; cbn [nth]; [assumption|]. apply IH. cbn in Hj. lia. }
    specialize (G _ _ r F Hr). rewrite seq_nth in G by lia. cbn [plus] in G. now rewrite G, Hp. }
  unfold distribute_dimension in Hd. cbn [shape] in Hd.
  replace (ax <? length xshape) with true in Hd by (symmetry; now apply Nat.ltb_lt).
  pose proof (@bd_fits (nth ax xshape 0) size1 r ltac:(lia)) as Hf. unfold bd_n, bd_s in Hf.
  destruct (blockdist (nth ax xshape 0) size1 r) as [n s]. cbn [fst snd] in Hf. injection Hd as <-.
  unfold save_shape. replace (ax <? length xshape) with true by (symmetry; now apply Nat.ltb_lt).
  cbn [slice_axis flat shape].
  rewrite slice_flat_length; [|rewrite Hl; now apply prod_split|assumption].
  set (o := prod (firstn ax xshape)) in *. set (i := prod (skipn (S ax) xshape)) in *.
  replace (o * n * i) with (n * (o * i)) by lia. rewrite Nat.mod_mul, Nat.div_mul by lia. reflexivity.
Qed.
Print Assumptions C39_reload_on_any_number_of_ranks.
(* several variables: a serial run cannot save its blocks at all, a parallel run saves files that no run can reload *)
Theorem C39_several_variables_refuted : forall xshape ax nv,
  2 <= nv -> 0 < prod xshape -> ax < length xshape ->
  save_shape xshape ax None (prod xshape * nv) = Err ValueError /\
  forall size rank, 0 < size ->
    let local r := prod (firstn ax xshape) * fst (blockdist (nth ax xshape 0) size r) * prod (skipn (S ax) xshape) * nv in
    exists shapes, all_ok (map (fun r => save_shape xshape ax (Some (size, rank)) (local r)) (seq 0 size)) = Ok shapes /\
      forall A (l : list A) c, reload_block xshape ax c (Nd (global_shape ax shapes) l) = Err ValueError.
Proof.
  intros xshape ax nv Hv Hp Hax. split.
  { unfold save_shape. destruct (Nat.eqb_spec (prod xshape) (prod xshape * nv)); [nia|reflexivity]. }
  intros size rank Hs local.
  set (o := prod (firstn ax xshape)) in *. set (i := prod (skipn (S ax) xshape)) in *.
  pose proof (@prod_split xshape ax Hax) as Ep. fold o i in Ep.
  assert (Ho : 0 < o) by nia. assert (Hi : 0 < i) by nia. assert (HN : 0 < nth ax xshape 0) by nia.
  exists (map (fun r => upd_nth ax (bd_n (nth ax xshape 0) size r * nv) xshape) (seq 0 size)). split.
  - apply Proof_Reader2b.all_ok_map. intros r _. unfold save_shape.
    replace (ax <? length xshape) with true by (symmetry; now apply Nat.ltb_lt). fold o i.
    unfold local. replace (o * fst (blockdist (nth ax xshape 0) size r) * i * nv) with (bd_n (nth ax xshape 0) size r * nv * (o * i)) by (unfold bd_n; lia).
    rewrite Nat.mod_mul, Nat.div_mul by nia. reflexivity.
  - intros A l c. unfold reload_block. cbn [shape].
    destruct (list_eq_dec Nat.eq_dec _ xshape) as [E|E]; [|reflexivity]. exfalso.
    apply (f_equal (fun s => nth ax s 0)) in E. unfold global_shape in E.
    destruct size as [|size']; [lia|]. cbn [seq map] in E.
    assert (Hnu : forall k n (s : list nat), k < length s -> nth k (upd_nth k n s) 0 = n).
    { induction k as [|k IH]; intros n s Hk; (destruct s as [|x s]; [cbn in Hk; lia|]); cbn; [reflexivity|]. apply IH. cbn in Hk. lia. }
    assert (Hlu : forall k n (s : list nat), length (upd_nth k n s) = length s).
    { induction k as [|k IH]; intros n s; destruct s; cbn; auto. }
    rewrite Hnu in E by (rewrite Hlu; assumption).
    cbn [map] in E. rewrite Hnu in E by assumption.
    rewrite map_map in E.
    rewrite (map_ext_in _ (fun r => bd_n (nth ax xshape 0) (S size') r * nv)) in E by (intros r _; now apply Hnu).
    assert (Es : forall l, sum (map (fun r => bd_n (nth ax xshape 0) (S size') r * nv) l) = sum (map (bd_n (nth ax xshape 0) (S size')) l) * nv).
    { induction l0 as [|x l0 IH]; cbn [map sum fold_right]; [reflexivity|]. unfold sum in IH. rewrite IH. lia. }
    specialize (Es (seq 0 (S size'))). cbn [seq map] in Es. rewrite Es in E.
    pose proof (@bd_sum_all (nth ax xshape 0) (S size') ltac:(lia)) as Eb. cbn [seq map] in Eb. rewrite Eb in E. nia.
Qed.
Print Assumptions C39_several_variables_refuted.
Example C39_nonvacuous : reload_block [2; 3] 1 (Some (2, 1)) (Nd [2; 3] (seq 0 6)) = Ok [2; 5].
Proof. reflexivity. Qed.

(* ---- C40 ---- *)
Theorem C40_reuse_iff_all_files_exist : forall X (m : fs X) n_blocks n_freq,
  are_blocks_present m n_blocks n_freq = true <->
  forall b f, b < n_blocks -> f < n_freq -> m (block_file b f) <> None.
Proof. exact @present_iff. Qed.
Print Assumptions C40_reuse_iff_all_files_exist.
Theorem C40_missing_file_forces_recomputation : forall X (m : fs X) n_blocks n_freq qhat b f,
  b < n_blocks -> f < n_freq -> m (block_file b f) = None ->
  reuse_run m n_blocks n_freq qhat = Ok (map (fun bf => qhat (fst bf) (snd bf)) (expected n_blocks n_freq)).
Proof.
  intros X m nb nf qhat b f Hb Hf Hm. unfold reuse_run.
  destruct (are_blocks_present m nb nf) eqn:E; [|reflexivity].
  rewrite present_iff in E. exfalso. now apply (E b f Hb Hf).
Qed.
Print Assumptions C40_missing_file_forces_recomputation.
(* a folder that is accepted while one of its files is damaged is never used silently: the run stops *)
Theorem C40_damaged_file_raises : forall X (m : fs X) n_blocks n_freq qhat b f,
  b < n_blocks -> f < n_freq -> (forall b f, b < n_blocks -> f < n_freq -> m (block_file b f) <> None) ->
  m (block_file b f) = Some None -> reuse_run m n_blocks n_freq qhat = Err ValueError.
Proof.
  intros X m nb nf qhat b f Hb Hf Hp Hm. unfold reuse_run. rewrite (proj2 (present_iff m nb nf) Hp). unfold load_blocks.
  assert (Hin : In (b, f) (expected nb nf)) by (unfold expected; apply in_prod; apply in_seq; lia).
  assert (Hall : forall e, In e (expected nb nf) -> m (block_file (fst e) (snd e)) <> None).
  { intros [b' f'] He. unfold expected in He. apply in_prod_iff in He as [H1 H2]. apply in_seq in H1, H2. apply Hp; cbn [fst snd]; lia. }
  match goal with |- all_ok (map ?h _) = _ => set (g := h) end.
  assert (Hg : g (b, f) = Err ValueError) by (unfold g; cbn [fst snd]; now rewrite Hm).
  assert (Hv : forall e x, In e (expected nb nf) -> g e = Err x -> x = ValueError).
  { intros e x He. specialize (Hall e He). unfold g. destruct (m (block_file (fst e) (snd e))) as [[y|]|]; [discriminate|now intros [= <-]|now destruct Hall]. }
  clear Hall. clearbody g. revert Hin Hv. generalize (expected nb nf) as l. induction l as [|e l IH]; intros Hin Hv; [destruct Hin|].
  cbn [map all_ok]. destruct (g e) as [x|x] eqn:E.
  - destruct Hin as [->|Hin]; [congruence|]. cbn [bind]. rewrite (IH Hin (fun e' y H => Hv e' y (or_intror H))). reflexivity.
  - now rewrite (Hv e x (or_introl eq_refl) E).
Qed.
Print Assumptions C40_damaged_file_raises.
(* a crash after any number n of file operations, starting from an empty folder: if the state is accepted
   for reuse, at most the very last file can be incomplete *)
Theorem C40_crash_damages_at_most_the_last_file : forall X (mid : nat -> nat -> list X) qhat n n_blocks n_freq,
  let m := fs_run (fun _ => None) (firstn n (save_ops n_blocks n_freq mid qhat)) in
  are_blocks_present m n_blocks n_freq = true ->
  forall b f, b < n_blocks -> f < n_freq -> (b, f) <> (n_blocks - 1, n_freq - 1) -> m (block_file b f) = Some (Some (qhat b f)).
Proof. intros X mid qhat n nb nf. exact (@crash_accepted X mid qhat n nb nf). Qed.
Print Assumptions C40_crash_damages_at_most_the_last_file.
(* but for every number of blocks and frequencies some crash points are accepted with the last file
   unreadable, or readable with any of its incomplete contents *)
Theorem C40_incomplete_file_accepted_refuted : forall X (mid : nat -> nat -> list X) qhat n_blocks n_freq,
  0 < n_blocks -> 0 < n_freq ->
  (exists n, let m := fs_run (fun _ => None) (firstn n (save_ops n_blocks n_freq mid qhat)) in
     are_blocks_present m n_blocks n_freq = true /\ m (block_file (n_blocks - 1) (n_freq - 1)) = Some None) /\
  (forall x, In x (mid (n_blocks - 1) (n_freq - 1)) ->
   exists n, let m := fs_run (fun _ => None) (firstn n (save_ops n_blocks n_freq mid qhat)) in
     are_blocks_present m n_blocks n_freq = true /\ m (block_file (n_blocks - 1) (n_freq - 1)) = Some (Some x)).
Proof.
  intros X mid qhat nb nf Hb Hf. pose proof (expected_NoDup nb nf) as Hnd.
  assert (He : exists es1, expected nb nf = es1 ++ [(nb - 1, nf - 1)]).
  { assert (Hin : In (nb - 1, nf - 1) (expected nb nf)) by (apply expected_In; lia).
    destruct (@exists_last _ (expected nb nf)) as (es1 & e & E); [intros E; rewrite E in Hin; destruct Hin|].
    exists es1. rewrite E. do 2 f_equal.
    assert (El : last (expected nb nf) (0, 0) = e) by (rewrite E; apply last_last).
    rewrite <- El. unfold expected. destruct nb as [|nb']; [lia|]. destruct nf as [|nf']; [lia|].
    rewrite (seq_S nb' 0). cbn [plus].
    assert (Ea : forall (l : list nat) x (l' : list nat), list_prod (l ++ [x]) l' = list_prod l l' ++ map (fun y => (x, y)) l').
    { induction l as [|y l IHl]; intros x l'; cbn [list_prod app]; [now rewrite app_nil_r|]. rewrite IHl. now rewrite app_assoc. }
    rewrite Ea, (seq_S nf' 0), map_app, app_assoc. cbn [map plus]. rewrite last_last. f_equal; lia. }
  destruct He as [es1 He]. rewrite He in Hnd.
  assert (Hpre : forall k, k <= length (mid (nb - 1) (nf - 1)) ->
     let m := fs_run (fun _ => None) (firstn (length (flat_map (save_one mid qhat) es1) + S k) (save_ops nb nf mid qhat)) in
     are_blocks_present m nb nf = true /\
     m (block_file (nb - 1) (nf - 1)) = match k with 0 => Some None | S j => Some (nth_error (mid (nb - 1) (nf - 1)) j) end).
  { intros k Hk m. set (e := (nb - 1, nf - 1)) in *. set (m1 := fs_run (fun _ => None) (flat_map (save_one mid qhat) es1)).
    set (w := mid (nb - 1) (nf - 1)) in *. set (nm := block_file (nb - 1) (nf - 1)).
    assert (Em : m = fs_run (fs_step m1 (Create nm)) (map (Write nm) (firstn k w))).
    { unfold m, save_ops. rewrite He, flat_map_app. cbn [flat_map]. rewrite app_nil_r, firstn_app_2.
      rewrite run_app. fold m1. unfold save_one. cbn [fst snd e]. fold nm. fold w. cbn [firstn fs_run fold_left]. 
      unfold fs_run. f_equal. rewrite firstn_app, map_length. replace (k - length w) with 0 by lia.
      cbn [firstn]. rewrite app_nil_r. apply firstn_map. }
    assert (Ek : m nm = match k with 0 => Some None | S j => Some (nth_error w j) end).
    { rewrite Em. clear Em. destruct k as [|j]; [cbn; apply fs_set_same|].
      destruct (nth_error w j) as [x|] eqn:Ex; [|apply nth_error_None in Ex; lia].
      assert (Ew : firstn (S j) w = firstn j w ++ [x]).
      { clearbody w. clear -Ex. revert w Ex; induction j as [|j IH]; intros w Ex; destruct w as [|y w]; cbn in *; try discriminate; [congruence|].
        f_equal. now apply IH. }
      rewrite Ew, map_app, run_app. cbn. apply fs_set_same. }
    split; [|exact Ek]. apply present_iff. intros b f Hb' Hf'.
    destruct (in_dec (fun a b : nat * nat => ltac:(decide equality; apply Nat.eq_dec)) (b, f) es1) as [Hi|Hi].
    - rewrite Em. rewrite run_other.
      + cbn [fs_step]. rewrite fs_set_other.
        * change (block_file b f) with (name (b, f)). unfold m1.
          rewrite (@run_all X mid qhat (fun _ => None) es1 (b, f)); [discriminate| |assumption].
          now apply NoDup_app_l in Hnd.
        * intros E. apply block_file_inj in E as [-> ->]. apply NoDup_remove_2 in Hnd. rewrite app_nil_r in Hnd. contradiction.
      + intros o Ho. apply in_map_iff in Ho as (x & <- & _). cbn [op_name]. intros E. apply block_file_inj in E as [E1 E2].
        subst b f. apply NoDup_remove_2 in Hnd. rewrite app_nil_r in Hnd. contradiction.
    - assert (Hin : In (b, f) (expected nb nf)) by (apply expected_In; lia). rewrite He in Hin.
      apply in_app_or in Hin as [Hin|[Hin|[]]]; [contradiction|]. unfold e in Hin. injection Hin as <- <-. fold nm.
      rewrite Ek. destruct k; discriminate. }
  split.
  - eexists. exact (Hpre 0 ltac:(lia)).
  - intros x Hx. apply In_nth_error in Hx as [j Hj].
    assert (Hjl : j < length (mid (nb - 1) (nf - 1))) by (apply nth_error_Some; congruence).
    destruct (Hpre (S j) ltac:(lia)) as [H1 H2]. eexists. split; [exact H1|]. rewrite H2, Hj. reflexivity.
Qed.
Print Assumptions C40_incomplete_file_accepted_refuted.
(* blocks of other data left in the folder are taken as they are *)
Theorem C40_stale_blocks_reused_refuted : forall X (m : fs X) n_blocks n_freq (old new : nat -> nat -> X),
  (forall b f, b < n_blocks -> f < n_freq -> m (block_file b f) = Some (Some (old b f))) ->
  reuse_run m n_blocks n_freq new = Ok (map (fun bf => old (fst bf) (snd bf)) (expected n_blocks n_freq)).
Proof.
  intros X m nb nf old new H. unfold reuse_run.
  assert (Hp : are_blocks_present m nb nf = true).
  { apply present_iff. intros b f Hb Hf. rewrite H by assumption. discriminate. }
  rewrite Hp. now apply load_ok.
Qed.
Print Assumptions C40_stale_blocks_reused_refuted.

(* ---- C42 ---- *)
Theorem C42_single_local_entry_raises : forall xv n_blocks, 2 <= n_blocks ->
  (xv = 1 -> spod_matrix_shape xv n_blocks = Err ValueError) /\
  (xv <> 1 -> spod_matrix_shape xv n_blocks = Ok [n_blocks; n_blocks]).
Proof. intros xv nb H. split; [intros ->; now apply matrix_shape_err|now apply matrix_shape_ok]. Qed.
Print Assumptions C42_single_local_entry_raises.
(* so for every size of the distributed axis there is a number of ranks for which a fit of a 1-D
   single-variable record fails *)
Theorem C42_some_rank_count_fails : forall N n_blocks, 1 <= N -> 2 <= n_blocks ->
  exists size rank, rank < size <= N /\ spod_matrix_shape (fst (blockdist N size rank)) n_blocks = Err ValueError.
Proof.
  intros N nb HN Hb. exists N, 0. split; [lia|].
  replace (fst (blockdist N N 0)) with 1; [now apply matrix_shape_err|].
  unfold blockdist. destruct (Nat.ltb_spec 0 N); [|lia]. cbn [fst].
  rewrite Nat.div_same, Nat.mod_same by lia. reflexivity.
Qed.
Print Assumptions C42_some_rank_count_fails.
Example C42_nonvacuous : spod_matrix_shape 1 4 = Err ValueError /\ spod_matrix_shape 7 4 = Ok [4; 4] /\ spod_matrix_shape 4 4 = Ok [4; 4].
Proof. repeat split; reflexivity. Qed.
(* C40: 2 blocks x 2 frequencies with one intermediate content per file; a crash one operation before the
   end is accepted and the last file holds the intermediate content *)
Example C40_nonvacuous :
  let m := fs_run (fun _ => None) (firstn 11 (save_ops 2 2 (fun _ _ => [99]) (fun b f => 10 * b + f))) in
  are_blocks_present m 2 2 = true /\ load_blocks m 2 2 = Ok [0; 1; 10; 99].
Proof. split; vm_compute; reflexivity. Qed.
