(* Proofs about weights.npy and ltm_modes.npy *)
From Verif Require Import Base_List Model_Parallel Model_Reader1 Model_Reader2 Model_Base Model_Standard Model_Pipeline Spec_Array Spec_Reader Spec_Reader2
  Proof_Parallel Proof_Npy2 Proof_Reader1 Proof_Reader1b Proof_Reader2b Proof_Standard1 Proof_Pipeline Prop_Sizes.
From Coq Require Import List Lia Sorting.Permutation.
Import ListNotations.
Set Implicit Arguments.

(* the shape a process gives to its part *)
Definition part_shape (sh : list nat) (ax : nat) (cm : comm) : list nat :=
  match cm with None => sh | Some (size, r) => upd_nth ax (bd_n (nth ax sh 0) size r) sh end.
Lemma store_shape sh ax cm : ax < length sh -> 0 < Base_List.prod sh ->
  save_shape sh ax cm (Base_List.prod (part_shape sh ax cm)) = Ok (part_shape sh ax cm).
Proof.
  intros Hax Hp. destruct cm as [[size r]|]; cbn [part_shape save_shape]; [|now rewrite Nat.eqb_refl].
  replace (ax <? length sh)%nat with true by (symmetry; now apply Nat.ltb_lt).
  destruct (@prod_axis ax sh (bd_n (nth ax sh 0) size r) Hax) as [E1 E2].
  set (o := Base_List.prod (firstn ax sh) * Base_List.prod (skipn (S ax) sh)) in *. assert (0 < o) by (rewrite E2 in Hp; nia).
  rewrite E1. rewrite Nat.mod_mul by lia. cbn [Nat.eqb]. now rewrite Nat.div_mul by lia.
Qed.
Lemma owned_values {A} (zero : A) sh ax size r l : length l = Base_List.prod sh ->
  picks zero (axis_ids sh ax (Some (size, r))) l = flat (piece ax size (Nd sh l) r).
Proof.
  intros Hl. unfold axis_ids, local_piece, piece, bd_s, bd_n, slice_axis. cbn [shape flat].
  destruct (blockdist (nth ax sh 0) size r) as [n s]. cbn [fst snd]. unfold picks.
  rewrite slice_flat_map. f_equal. rewrite <- Hl. exact (map_nth_seq zero l).
Qed.
Lemma axis_ids_part sh ax cm : comm_ok cm -> ax < length sh -> length (axis_ids sh ax cm) = Base_List.prod (part_shape sh ax cm).
Proof.
  intros Hc Hax. rewrite axis_ids_length by assumption. destruct cm as [[size r]|]; reflexivity.
Qed.
(* the pieces of a flattened array *)
Lemma points_piece {A} (zero : A) nxyz nv size r l : length l = nxyz * nv ->
  picks zero (point_ids nxyz nv size r) l = flat (piece 0 size (Nd [nxyz; nv] l) r).
Proof.
  intros Hl. rewrite <- (@own_points_pick _ zero nxyz nv size r l Hl). unfold own_points, piece, bd_s, bd_n, slice_axis. cbn [shape flat nth].
  destruct (blockdist nxyz size r) as [n s]. cbn [fst snd firstn skipn prod fold_right]. unfold slice_flat. cbn [seq map concat].
  now rewrite app_nil_r, Nat.mul_1_r.
Qed.

From Coq Require Import QArith.
From mathcomp Require Import all_ssreflect all_algebra.
From Verif Require Import Model_Spod Model_SpodPar Proof_SpodPar Proof_Spod Model_PipelineNum Proof_PipelineNum Proof_PipelineFit Model_StoreFiles.
Unset Strict Implicit.
Unset Printing Implicit Defensive.
Import GRing.Theory Num.Theory.
Local Open Scope ring_scope.

Section Mean.
Variables (C : numClosedFieldType) (rec : list (list C)).
(* the average of entry i over all snapshots *)
Definition average (i : nat) : C := (\sum_(row <- rec) List.nth i row 0) / (length rec)%:R.
Lemma lt_mean_listE nb m ids d : (0 < nb)%coq_nat -> m = length ids -> represents d (List.map (picks 0 ids) rec) ->
  lt_mean_list (length rec) nb m d = List.map average ids.
Proof.
move=> Hb -> Hd; rewrite /lt_mean_list.
have Hl : length (List.map (picks 0 ids) rec) = length rec by rewrite List.map_length.
rewrite -{1}Hl mean_rep //; first last.
- by move=> a; rewrite addr0.
- by move=> a; rewrite add0r.
- by move=> a1 a2 a3; rewrite addrA.
rewrite Hl; transitivity (List.map (fun k => average (List.nth k ids 0%N)) (List.seq 0 (length ids))); last first.
  by rewrite -[in RHS](map_nth_seq 0%N ids) List.map_map.
have -> : List.seq 0 (length ids) = List.map val (enum 'I_(length ids)) by rewrite -[List.map _ _]/(map _ _) val_enum_ord iota_seq.
rewrite [RHS]List.map_map; apply: List.map_ext => i.
rewrite [LHS]mxE fold_right_sum mulrC; congr (_ / _).
rewrite List.map_map sum_list_map summxE; apply: eq_bigr => row _; exact: map_pick_nth.
Qed.
End Mean.

Section Datasets.
Variables (C : numClosedFieldType).
Variables (A : Type) (cast : A -> C) (isreal : A -> bool) (s : settings C) (ds : list (nd A)) (xs sp : list nat) (nv : nat) (user : weights_arg C) (ax : nat).
Hypothesis Hwf : well_formed ds.
Hypothesis Hne : ds <> nil.
Hypothesis Hfirst : (0 < List.hd 0%N (Model_Parallel.shape (List.hd (Nd nil nil) ds)))%N.
Hypothesis Hsp : sp = List.app xs (cons nv nil) \/ nv = 1%N /\ sp = xs.
Hypothesis Hgrid : forall d, List.In d ds -> List.tl (Model_Parallel.shape d) = sp.
Hypothesis Hspne : sp <> nil.
Hypothesis Hpos : (0 < Base_List.prod sp)%N.
Hypothesis Hax : argmax sp = Ok ax.
Hypothesis Hw : weights_ok user xs nv.
Let sh := List.app xs (cons nv nil).
Let rec := List.map (List.map cast) (record ds).
Variable nb : Z.
Hypothesis Hov : (s_novlp s < s_ndft s)%N.
Hypothesis Hnb : check_feasible (Z.of_nat (length (record ds))) (Z.of_nat (s_ndft s)) (Z.of_nat (s_novlp s)) = Ok nb.
Let W := weights_of 1 user xs nv.
Let M := List.map (average rec) (List.seq 0 (Base_List.prod sh)).

Lemma store_datasets np : (match np with Some size => 0 < size | None => true end)%N ->
  store_array cast isreal s ds (length xs) nv user np = Ok (Nd sh W, Nd sh M).
Proof.
move=> Hnp.
have Hpos' := elimT ltP Hpos.
have Hacc cm : exists rd, reader1_init isreal ds (length xs) nv cm = Ok rd.
  by apply: (@init_accepts _ isreal ds (length xs) nv cm sp) => //; apply/ltP.
have [rd0 Hrd0] := Hacc None.
have [Hax0 [Hltsp _]] := @reader_axis _ isreal ds (length xs) nv None rd0 sp Hrd0 Hgrid Hspne Hpos'.
have Eax : rd_max_axis rd0 = ax by move: Hax0; rewrite Hax => -[->].
have [Hlt [Hnt0 _]] := @load_rep _ isreal ds xs sp nv Hsp Hgrid Hspne Hpos' C cast 0 None rd0 Hwf I Hrd0.
rewrite Eax -/sh in Hlt.
have Exs : rd_xshape rd0 = xs by apply: (@init_shape _ isreal ds xs sp nv Hsp Hgrid Hspne Hpos' None).
have [c [[Hc Ent Edft Eov Enb] Hms]] := @configureE C s (length (record ds)) (rd_is_real rd0) nb Hnb.
have [_ [H2 [H4 Hfit]]] := @starts_eq (length (record ds)) (s_ndft s) (s_novlp s) nb (elimT ltP Hov) Hnb.
have Erec : length rec = length (record ds) by rewrite /rec List.map_length.
have Esh : Base_List.prod sh = Base_List.prod sp by rewrite (@sp_prod _ ds xs sp nv Hsp Hgrid Hspne Hpos').
have Hshpos : (0 < Base_List.prod sh)%coq_nat by rewrite Esh.
have HlW : length W = Base_List.prod sh by apply: weights_of_length.
have HlM : length M = Base_List.prod sh by rewrite List.map_length List.seq_length.
pose P cm := (Nd (part_shape sh ax cm) (picks 0 (axis_ids sh ax cm) W), Nd (part_shape sh ax cm) (List.map (average rec) (axis_ids sh ax cm))).
have Hrank cm : comm_ok cm ->
  (do rd_d <- load_array cast 0 isreal ds (length xs) nv cm;
      do wl <- rank_weights 1 user (rd_xshape rd_d.1) nv false (rd_max_axis rd_d.1) cm rd_d.2;
      do m <- entries rd_d.2;
      do w <- shape_array (rd_xshape rd_d.1) nv (rd_max_axis rd_d.1) cm wl;
      do l <- shape_array (rd_xshape rd_d.1) nv (rd_max_axis rd_d.1) cm (lt_mean_list (nt c) (n_blocks c) m rd_d.2);
      Ok (w, l)) = Ok (P cm).
  move=> Hcm.
  have Hrd : reader1_init isreal ds (length xs) nv cm = Ok (set_comm rd0 cm) by apply: init_any_comm Hrd0.
  have [_ [_ ->]] := @load_rep _ isreal ds xs sp nv Hsp Hgrid Hspne Hpos' C cast 0 cm (set_comm rd0 cm) Hwf Hcm Hrd.
  rewrite /= Exs Eax -/sh.
  have Em : List.map (fun row => picks 0 (axis_ids sh ax cm) (List.map cast row)) (record ds) = List.map (picks 0 (axis_ids sh ax cm)) rec.
    by rewrite /rec List.map_map.
  rewrite Em.
  have Hrecne : List.map (picks 0 (axis_ids sh ax cm)) rec <> nil.
    move/(f_equal (@length _)); rewrite List.map_length Erec /= => E0.
    by have := Hfit 0%N ltac:(lia); rewrite E0 /=; lia.
  have Hrl row : List.In row (List.map (picks 0 (axis_ids sh ax cm)) rec) -> length row = length (axis_ids sh ax cm).
    by move=> /List.in_map_iff [r0 [<- _]]; rewrite pick_length.
  rewrite (@rank_weights_array _ 1 0 user xs nv ax cm _ (List.map (picks 0 (axis_ids sh ax cm)) rec) (length (axis_ids sh ax cm))) //=.
  have := @entries_rep _ (Array (List.map (picks 0 (axis_ids sh ax cm)) rec)) _ (length (axis_ids sh ax cm)) erefl Hrecne Hrl.
  rewrite /= => -> /=.
  rewrite /shape_array -/sh -/W.
  have El := @axis_ids_part sh ax cm Hcm Hlt.
  rewrite pick_length El store_shape //=.
  rewrite Ent -Erec (@lt_mean_listE _ rec (n_blocks c) _ (axis_ids sh ax cm)) //; last by rewrite Enb; clear - H2; lia.
  by rewrite List.map_length El store_shape.
rewrite /store_array.
have [rdh Hrdh] := Hacc (List.hd None (comms np)); rewrite Hrdh.
have Erdh : rdh = set_comm rd0 (List.hd None (comms np)).
  by have := @init_any_comm _ isreal ds nv (length xs) None (List.hd None (comms np)) rd0 Hrd0; rewrite Hrdh => -[].
rewrite /= Erdh /= Hnt0 Hc /=.
have Hcms cm : List.In cm (comms np) -> comm_ok cm.
  by case: (np) => [size|] /=; [move=> /List.in_map_iff [r [<- /List.in_seq [_ Hr]]]|case=> // <-].
rewrite (@all_ok_map _ _ _ P) /=; last by move=> cm /Hcms; apply: Hrank.
rewrite !List.map_map Eax; case: np Hnp {Hrdh Erdh Hcms} => [size|] Hnp /=; last first.
  by rewrite /picks /axis_ids /= -/sh -HlW map_nth_seq HlW.
rewrite !List.map_map /=.
have Hs := elimT ltP Hnp.
have pc (l : list C) : length l = Base_List.prod sh ->
  concat_axis ax (List.map (fun r => Nd (upd_nth ax (bd_n (List.nth ax sh 0%N) size r) sh) (picks 0 (axis_ids sh ax (Some (size, r))) l)) (List.seq 0 size)) = Nd sh l.
  move=> Hl; rewrite -[RHS](@pieces_concat _ (Nd sh l) ax size) //; congr concat_axis; apply: List.map_ext => r.
  by rewrite owned_values.
rewrite pc //; congr (Ok (_, _)); rewrite -[RHS]pc //; congr concat_axis; apply: List.map_ext_in => r /List.in_seq [_ Hr]; congr Nd.
rewrite /picks; apply: List.map_ext_in => i Hi; rewrite /M (nth_map_seq0 (average rec)) //.
have E : axis_ids sh ax (Some (size, r)) = owned sh ax size r by rewrite /axis_ids /local_piece /owned; case: (blockdist _ _ _).
have Hi' : List.In i (owned sh ax size r) by rewrite -E; exact: Hi.
have Hin : List.In i (List.concat (List.map (owned sh ax size) (List.seq 0 size))).
  apply/List.in_concat; exists (owned sh ax size r); split; last exact: Hi'.
  by apply/List.in_map_iff; exists r; split=> //; apply/List.in_seq; split; [lia|].
by have /List.in_seq [_] := Permutation_in _ (owned_perm (introT ltP Hlt) Hnp) Hin.
Qed.
End Datasets.

Section Files.
Variables (C : numClosedFieldType).
Variables (s : settings C) (xs : list nat) (nv : nat) (real : bool) (fs : nat -> ncfile C) (names : list nat) (user : weights_arg C).
Variables (size : nat) (nreaders : option nat) (ver nchunks nblks : nat) (orders : nat -> nat -> list nat).
Let nxyz := Base_List.prod xs.
Let rec := nc_record 0 nxyz fs names.
Let sh := List.app xs (cons nv nil).
Hypothesis Hs : (0 < size)%N.
Hypothesis Hnd : List.NoDup names.
Hypothesis Hfiles : forall k, List.In k names -> nc_ok nxyz nv (fs k) /\ List.NoDup (nc_labels (fs k)).
Hypothesis Hch : (0 < nchunks)%N.
Hypothesis Hbl : (0 < nblks)%N.
Hypothesis Hfit : (nchunks * nblks <= length rec)%N.
Hypothesis Hsmall : forall m, (m <= length rec)%N -> (4 <= ver)%N \/ ~ big_message size (nreaders_of nreaders size) nxyz nv m.
Hypothesis Ho : forall r chunk, Permutation (orders r chunk) (List.seq 0 size).
Hypothesis Hv : (0 < nv)%N.
Hypothesis Hw : weights_ok user xs nv.
Hypothesis Hov : (s_novlp s < s_ndft s)%N.
Variable nb : Z.
Hypothesis Hnb : check_feasible (Z.of_nat (length rec)) (Z.of_nat (s_ndft s)) (Z.of_nat (s_novlp s)) = Ok nb.
Let W := weights_of 1 user xs nv.
Let M := List.map (average rec) (List.seq 0 (Base_List.prod sh)).
Lemma store_netcdf : store_files s xs nv real fs names user size nreaders ver nchunks nblks orders = Ok (Nd (cons nxyz (cons nv nil)) W, Nd (cons nxyz (cons nv nil)) M).
Proof.
have Hnt : total_steps fs names = length rec by rewrite /rec nc_record_length.
have [c [[Hc Ent Edft Eov Enb] Hms]] := @configureE C s (length rec) real nb Hnb.
have Esh : Base_List.prod sh = Nat.mul nxyz nv by rewrite /sh prod_app /= PeanoNat.Nat.mul_1_r.
have [_ [H2 [H4 Hfit']]] := @starts_eq (length rec) (s_ndft s) (s_novlp s) nb (elimT ltP Hov) Hnb.
have HlW : length W = Nat.mul nxyz nv by rewrite -Esh; apply: weights_of_length.
have HlM : length M = Nat.mul nxyz nv by rewrite List.map_length List.seq_length Esh.
have Hidlen r : (r < size)%N -> length (point_ids nxyz nv size r) = Nat.mul (blockdist nxyz size r).1 nv.
  by move=> /ltP Hr; rewrite /point_ids own_points_length // List.seq_length.
pose P r := (Nd (cons (blockdist nxyz size r).1 (cons nv nil)) (picks 0 (point_ids nxyz nv size r) W),
             Nd (cons (blockdist nxyz size r).1 (cons nv nil)) (List.map (average rec) (point_ids nxyz nv size r))).
have Hrank r : (r < size)%N ->
  (do st <- get_data2 0 size (nreaders_of nreaders size) (Base_List.prod xs) nv ver nchunks nblks fs names r (orders r);
      do wl <- rank_weights 1 user xs nv true 0 (Some (size, r)) (Chunks st);
      do m <- entries (Chunks st);
      let n := (blockdist (Base_List.prod xs) size r).1 in
      do w <- shape_flat n nv wl;
      do l <- shape_flat n nv (lt_mean_list (nt c) (n_blocks c) m (Chunks st));
      Ok (w, l)) = Ok (P r).
  move=> Hr.
  have [st [-> Hst]] := @files_rep C 0 size nreaders nxyz nv ver nchunks nblks fs names r (orders r) (elimT ltP Hr) Hnd (elimT ltP Hch) (elimT ltP Hbl)
    Hfiles (Ho r) (fun m Hm => match Hsmall (introT leP Hm) with or_introl h => or_introl (elimT leP h) | or_intror h => or_intror h end) (elimT leP Hfit).
  have Hrecne : List.map (picks 0 (point_ids nxyz nv size r)) rec <> nil.
    move/(f_equal (@length _)); rewrite List.map_length /= => E0.
    by have := Hfit' 0%N ltac:(lia); rewrite E0 /=; lia.
  have Hrl row : List.In row (List.map (picks 0 (point_ids nxyz nv size r)) rec) -> length row = length (point_ids nxyz nv size r).
    by move=> /List.in_map_iff [r0 [<- _]]; rewrite pick_length.
  rewrite [LHS]/= (@rank_weights_points _ 1 0 user xs nv size r _ (List.map (picks 0 (point_ids nxyz nv size r)) rec) (length (point_ids nxyz nv size r))) //; first last.
  - exact/ltP.
  - exact/ltP.
  have := @entries_rep _ (Chunks st) _ (length (point_ids nxyz nv size r)) Hst Hrecne Hrl.
  rewrite /= => -> /=.
  have Hm0 : (0 < n_blocks c)%coq_nat by rewrite Enb; clear - H2; lia.
  rewrite Ent (@lt_mean_listE _ rec (n_blocks c) _ (point_ids nxyz nv size r) (Chunks st) Hm0) //.
  by rewrite /shape_flat List.map_length pick_length (Hidlen r Hr) -/nxyz PeanoNat.Nat.eqb_refl.
rewrite /store_files Hnt Hc [LHS]/=.
rewrite (@all_ok_map _ _ _ P); last by move=> r /List.in_seq [_ Hr]; apply: Hrank; apply/ltP.
rewrite [LHS]/= !List.map_map.
have Hs' := elimT ltP Hs.
have pc (l : list C) : length l = Nat.mul nxyz nv ->
  concat_axis 0 (List.map (fun r => Nd (cons (blockdist nxyz size r).1 (cons nv nil)) (picks 0 (point_ids nxyz nv size r) l)) (List.seq 0 size)) = Nd (cons nxyz (cons nv nil)) l.
  move=> Hl; rewrite -[RHS](@pieces_concat _ (Nd (cons nxyz (cons nv nil)) l) 0 size) //; first last.
  - by rewrite /=; lia.
  - by rewrite /wf /= Hl PeanoNat.Nat.mul_1_r.
  by congr concat_axis; apply: List.map_ext => r; rewrite (@points_piece _ 0 nxyz nv size r l Hl).
rewrite pc //; congr (Ok (_, _)); rewrite -[RHS]pc //; congr concat_axis; apply: List.map_ext_in => r /List.in_seq [_ Hr]; congr Nd.
rewrite /picks; apply: List.map_ext_in => i Hi; rewrite /M (nth_map_seq0 (average rec)) //.
have Hin : List.In i (List.concat (List.map (point_ids nxyz nv size) (List.seq 0 size))).
  apply/List.in_concat; exists (point_ids nxyz nv size r); split; last exact: Hi.
  by apply/List.in_map_iff; exists r; split=> //; apply/List.in_seq; split; [lia|].
by move: Hin; rewrite point_ids_concat // -Esh => /List.in_seq [].
Qed.
End Files.
