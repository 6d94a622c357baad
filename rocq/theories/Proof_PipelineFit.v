(* Proofs about whole fits *)
From Coq Require Import QArith.
From Verif Require Import Base_List Model_Parallel Model_Reader1 Model_Reader2 Model_Base Model_Standard Model_Pipeline Spec_Array Spec_Reader Spec_Reader2
  Proof_Parallel Proof_Npy2 Proof_Reader1 Proof_Reader1b Proof_Reader2b Proof_Standard1 Proof_Pipeline Prop_Standard1.
From Coq Require Import Sorting.Permutation.
From mathcomp Require Import all_ssreflect all_algebra.
From Verif Require Import Model_Spod Spec_Spod Proof_Spod Model_SpodPar Proof_SpodPar Model_PipelineNum Proof_PipelineNum.
Set Implicit Arguments.
Unset Strict Implicit.
Unset Printing Implicit Defensive.
Import GRing.Theory Num.Theory.
Local Open Scope ring_scope.

Lemma all_ok_map T U (F : T -> res U) (G : T -> U) l : (forall x, List.In x l -> F x = Ok (G x)) -> all_ok (List.map F l) = Ok (List.map G l).
Proof. by elim: l => //= x l IH H; rewrite (H x) /=; [rewrite IH //= => y Hy; apply: H; right|left]. Qed.
Lemma configureE (C : numClosedFieldType) (s : settings C) nt real nb :
  check_feasible (Z.of_nat nt) (Z.of_nat (s_ndft s)) (Z.of_nat (s_novlp s)) = Ok nb ->
  exists c, [/\ configure s nt real = Ok c, Model_Spod.nt c = nt, n_dft c = s_ndft s, n_overlap c = s_novlp s
    & n_blocks c = Z.to_nat nb] /\ (n_modes_save c <= n_blocks c)%N.
Proof.
move=> H; rewrite /configure H /=; eexists; split; first by split.
by rewrite /=; case: ltnP => // /ltnW.
Qed.

(* ---- C121: in-memory datasets, one mode file per frequency ---- *)
(* no process owns exactly one entry (see C42) *)
Definition no_single_entry (sh : list nat) (ax : nat) (np : option nat) : Prop :=
  match np with
  | None => Base_List.prod sh <> 1%N
  | Some size => (0 < size)%N /\ forall r, (r < size)%N -> length (owned sh ax size r) <> 1%N
  end.
Section Datasets.
Variables (C : numClosedFieldType).
Variable eig : forall nb, 'M[C]_nb -> 'rV[C]_nb * 'M[C]_nb.
Variable argsort : forall nb, 'rV[C]_nb -> 'I_nb -> 'I_nb.
Variables (A : Type) (cast : A -> C) (isreal : A -> bool) (s : settings C) (ds : list (nd A)) (xs sp : list nat) (nv : nat) (user : weights_arg C) (ax : nat).
Hypothesis Hwf : well_formed ds.
Hypothesis Hne : ds <> nil.
Hypothesis Hfirst : (0 < List.hd 0%N (Model_Parallel.shape (List.hd (Nd nil nil) ds)))%N.
Hypothesis Hsp : sp = List.app xs (cons nv nil) \/ nv = 1%N /\ sp = xs.
Hypothesis Hgrid : forall d, List.In d ds -> List.tl (Model_Parallel.shape d) = sp.
Hypothesis Hspne : sp <> nil.
Hypothesis Hpos : (0 < Base_List.prod sp)%N.
Hypothesis Hax : argmax sp = Ok ax.
Hypothesis Hov : (s_novlp s < s_ndft s)%N.
Hypothesis Hw : weights_ok user xs nv.
Let sh := List.app xs (cons nv nil).
Let rec := List.map (List.map cast) (record ds).
Variable nb : Z.
Hypothesis Hnb : check_feasible (Z.of_nat (length (record ds))) (Z.of_nat (s_ndft s)) (Z.of_nat (s_novlp s)) = Ok nb.

Lemma axis_ids_owned size r : (ax < length sh)%N -> axis_ids sh ax (Some (size, r)) = owned sh ax size r.
Proof. by move=> _; rewrite /axis_ids /local_piece /owned; case: (blockdist _ _ _). Qed.
Lemma fit_datasets np : no_single_entry sh ax np ->
  exists c (H : (n_modes_save c <= n_blocks c)%N),
    [/\ configure s (length (record ds)) (List.forallb isreal (List.hd nil (record ds))) = Ok c &
    fit_array eig argsort cast isreal s ds (length xs) nv user np
    = Ok (List.map (fun f => List.map (fun k => serial_eigs (@eig _) (@argsort _) (@rec_X C rec (Base_List.prod sh)) (vec_w (weights_of 1 user xs nv) (Base_List.prod sh)) f 0 k) (enum 'I_(n_blocks c))) (List.seq 0 (n_freq c)),
          List.map (fun f => Nd (List.app sh (cons (n_modes_save c) nil)) (Model_SpodPar.ravel (serial_modes (@eig _) (@argsort _) (@rec_X C rec (Base_List.prod sh)) (vec_w (weights_of 1 user xs nv) (Base_List.prod sh)) ord0 f H))) (List.seq 0 (n_freq c)))].
Proof.
move=> Hnp.
have Hpos' := elimT ltP Hpos.
have Hacc cm : exists rd, reader1_init isreal ds (length xs) nv cm = Ok rd.
  by apply: (@init_accepts _ isreal ds (length xs) nv cm sp) => //; apply/ltP.
have [rd0 Hrd0] := Hacc None.
have [Hax0 [Hltsp _]] := @reader_axis _ isreal ds (length xs) nv None rd0 sp Hrd0 Hgrid Hspne Hpos'.
have Eax : rd_max_axis rd0 = ax by move: Hax0; rewrite Hax => -[->].
have [Hlt [Hnt0 _]] := @load_rep _ isreal ds xs sp nv Hsp Hgrid Hspne Hpos' C cast 0 None rd0 Hwf I Hrd0.
rewrite Eax in Hlt.
have Exs : rd_xshape rd0 = xs by apply: (@init_shape _ isreal ds xs sp nv Hsp Hgrid Hspne Hpos' None).
have Ereal : rd_is_real rd0 = List.forallb isreal (List.hd nil (record ds)).
  have [fst [oth [-> Hiff]]] := @first_snapshot_decides _ isreal ds (length xs) nv None rd0 Hwf Hrd0.
  by apply/idP/idP => /=; [move/Hiff => H; apply/List.forallb_forall|move/List.forallb_forall => H; apply/Hiff].
have [c [[Hc Ent Edft Eov Enb] Hms]] := @configureE C s (length (record ds)) (List.forallb isreal (List.hd nil (record ds))) nb Hnb.
exists c, Hms; split=> //.
(* every process *)
have Erec : length rec = length (record ds) by rewrite /rec List.map_length.
have Hrow row : List.In row rec -> length row = Base_List.prod sh.
  move=> /List.in_map_iff [r0 [<- Hr0]]; rewrite List.map_length (@record_row_length _ ds sp r0 Hwf Hgrid Hr0).
  exact: (@sp_prod _ ds xs sp nv Hsp Hgrid Hspne Hpos').
have Hrank cm : comm_ok cm -> length (axis_ids sh ax cm) <> 1%N ->
  (do dw <- (do rd_d <- load_array cast 0 isreal ds (length xs) nv cm;
             do wl <- rank_weights 1 user (rd_xshape rd_d.1) nv false (rd_max_axis rd_d.1) cm rd_d.2; Ok (rd_d.2, wl));
   rank_local c dw.1 dw.2) = Ok (ref_local c rec (weights_of 1 user xs nv) (axis_ids sh ax cm)).
  move=> Hcm Hone.
  have Hrd : reader1_init isreal ds (length xs) nv cm = Ok (set_comm rd0 cm) by apply: init_any_comm Hrd0.
  have [_ [_ ->]] := @load_rep _ isreal ds xs sp nv Hsp Hgrid Hspne Hpos' C cast 0 cm (set_comm rd0 cm) Hwf Hcm Hrd.
  rewrite /= Exs Eax -/sh.
  have Em : List.map (fun row => picks 0 (axis_ids sh ax cm) (List.map cast row)) (record ds) = List.map (picks 0 (axis_ids sh ax cm)) rec.
    by rewrite /rec List.map_map.
  rewrite Em.
  have Hrecne : List.map (picks 0 (axis_ids sh ax cm)) rec <> nil.
    move/(f_equal (@length _)); rewrite List.map_length Erec /= => E0.
    have := @starts_eq (length (record ds)) (s_ndft s) (s_novlp s) nb (elimT ltP Hov) Hnb.
    by move=> [_ [H2 [H4 Hfit]]]; have := Hfit 0%N ltac:(lia); rewrite E0 /=; lia.
  rewrite (@rank_weights_array _ 1 0 user xs nv ax cm _ (List.map (picks 0 (axis_ids sh ax cm)) rec) (length (axis_ids sh ax cm))) //=; last first.
    by move=> row /List.in_map_iff [r0 [<- _]]; rewrite pick_length.
  apply: (@rank_localE C c rec (weights_of 1 user xs nv) nb) => //; rewrite ?Erec ?Edft ?Eov //.
  exact/ltP.
rewrite /fit_array.
have [rdh Hrdh] := Hacc (List.hd None (comms np)); rewrite Hrdh.
have Erdh : rdh = set_comm rd0 (List.hd None (comms np)).
  by have := @init_any_comm _ isreal ds nv (length xs) None (List.hd None (comms np)) rd0 Hrd0; rewrite Hrdh => -[].
rewrite /= Erdh /= Hnt0 Ereal Hc /= Exs Eax -/sh.
rewrite /locals List.map_map.
case: np Hnp Hrdh Erdh => [size|] Hnp Hrdh Erdh.
- case: Hnp => Hs Hone.
  rewrite (@all_ok_map _ _ _ (fun cm => ref_local c rec (weights_of 1 user xs nv) (axis_ids sh ax cm))) /=; last first.
    move=> cm /List.in_map_iff [r [<- /List.in_seq [_ Hr]]]; apply: Hrank => //.
    by rewrite axis_ids_owned ?(introT ltP Hlt) //; apply: Hone; apply/ltP.
  have -> : List.map (fun cm => ref_local c rec (weights_of 1 user xs nv) (axis_ids sh ax cm)) (comms (Some size))
     = List.map (ref_local c rec (weights_of 1 user xs nv)) (List.map (owned sh ax size) (List.seq 0 size)).
    by rewrite /= !List.map_map; apply: List.map_ext => r; rewrite axis_ids_owned // (introT ltP Hlt).
  have Hp := owned_perm (introT ltP Hlt) Hs.
  congr (Ok (_, _)); apply: List.map_ext_in => f /List.in_seq [_ /ltP Hf].
    exact: fit_eigsE.
  by apply: freq_file_par => //; apply/ltP.
- rewrite (@all_ok_map _ _ _ (fun cm => ref_local c rec (weights_of 1 user xs nv) (axis_ids sh ax cm))) /=; last first.
    move=> cm [<-|//]; apply: Hrank => //=.
    by rewrite List.seq_length.
  have -> : [:: ref_local c rec (weights_of 1 user xs nv) (axis_ids sh ax None)] = List.map (ref_local c rec (weights_of 1 user xs nv)) [:: List.seq 0 (Base_List.prod sh)].
    by [].
  have Hp : Permutation (List.concat [:: List.seq 0 (Base_List.prod sh)]) (List.seq 0 (Base_List.prod sh)) by rewrite /= List.app_nil_r.
  congr (Ok (_, _)); apply: List.map_ext_in => f /List.in_seq [_ /ltP Hf].
    exact: fit_eigsE.
  exact: freq_file_serial.
Qed.
End Datasets.

(* ---- C122: netCDF files, one file per mode ---- *)
Section Files.
Variables (C : numClosedFieldType).
Variable eig : forall nb, 'M[C]_nb -> 'rV[C]_nb * 'M[C]_nb.
Variable argsort : forall nb, 'rV[C]_nb -> 'I_nb -> 'I_nb.
Variables (s : settings C) (xs : list nat) (nv : nat) (real : bool) (fs : nat -> ncfile C) (names : list nat) (user : weights_arg C).
Variables (size : nat) (nreaders : option nat) (ver nchunks nblks : nat) (orders : nat -> nat -> list nat) (order2 : nat -> nat -> list nat).
Let nxyz := Base_List.prod xs.
Let rec := nc_record 0 nxyz fs names.
Let sh := List.app xs (cons nv nil).
Hypothesis Hs : (0 < size)%N.
Hypothesis Hnd : List.NoDup names.
Hypothesis Hfiles : forall k, List.In k names -> nc_ok nxyz nv (fs k) /\ List.NoDup (nc_labels (fs k)).
Hypothesis Hch : (0 < nchunks)%N.
Hypothesis Hbl : (0 < nblks)%N.
Hypothesis Hfit : (nchunks * nblks <= length rec)%N.
Hypothesis Hsmall : forall m, (m <= length rec)%N -> (4 <= ver)%N \/ ~ big_message size (nreaders_of nreaders size) nxyz nv m.
Hypothesis Ho : forall r chunk, Permutation (orders r chunk) (List.seq 0 size).
Hypothesis Ho2 : forall pass r, Permutation (order2 pass r) (List.seq 0 size).
Hypothesis Hv : (0 < nv)%N.
Hypothesis Hw : weights_ok user xs nv.
Hypothesis Hov : (s_novlp s < s_ndft s)%N.
Hypothesis Hmod : (0 < s_modes s)%N.
Hypothesis Hone : forall r, (r < size)%N -> ((blockdist nxyz size r).1 * nv)%N <> 1%N.
Variable nb : Z.
Hypothesis Hnb : check_feasible (Z.of_nat (length rec)) (Z.of_nat (s_ndft s)) (Z.of_nat (s_novlp s)) = Ok nb.

Lemma in_mode_files (c : config C) ls f m x : length ls = size ->
  (forall r f m, (r < size)%coq_nat -> (f < n_freq c)%coq_nat -> (m < n_modes_save c)%coq_nat ->
     length (mode_column eig argsort ls r f m) = length (@mode_column C eig argsort c ls r 0 0)) -> (0 < n_modes_save c)%N ->
  List.In (f, m, x) (@mode_files C eig argsort c ls order2) <->
  [/\ (f < n_freq c)%N, (m < n_modes_save c)%N & x = List.concat (List.map (fun r => mode_column eig argsort ls r f m) (List.seq 0 size))].
Proof.
move=> Hl Hlen Hm; rewrite /mode_files Hl.
have Hs' := elimT ltP Hs; have Hm' := elimT ltP Hm.
split.
- move=> /List.in_flat_map [pass [/List.in_seq [_ Hp] /List.in_flat_map [rank [/List.in_seq [_ Hr] Hin]]]].
  case E: (pass_file _ _ _ _ _ _ _ _) Hin => [y|//] [Ey|//]; subst y.
  have [H1 [H2 H3]] := @C33_file_contents C 0 size (n_freq c) (n_modes_save c) _ pass rank (order2 pass rank) f m x Hs' Hm' Hr Hlen (Ho2 pass rank) E.
  by split; [apply/ltP|apply/ltP|].
- move=> [/ltP Hf /ltP Hmm ->].
  have [[pass rank] [[Hp [Hr Hpw]] _]] := @C33_each_file_written_once size (n_freq c) (n_modes_save c) f m Hs' Hf Hmm.
  have [x' Ex] := @C33_announced_files_are_written C 0 size (n_freq c) (n_modes_save c) (@mode_column C eig argsort c ls) pass rank (order2 pass rank) (f, m) Hpw.
  apply/List.in_flat_map; exists pass; split; first by apply/List.in_seq; split; [lia|].
  apply/List.in_flat_map; exists rank; split; first by apply/List.in_seq; split; [lia|].
  rewrite Ex; left; congr (_, _).
  by have [_ [_ ->]] := @C33_file_contents C 0 size (n_freq c) (n_modes_save c) _ pass rank (order2 pass rank) f m x' Hs' Hm' Hr Hlen (Ho2 pass rank) Ex.
Qed.
Lemma fit_netcdf :
  exists c (H : (n_modes_save c <= n_blocks c)%N) files,
    [/\ configure s (length rec) real = Ok c,
    fit_files eig argsort s xs nv real fs names user size nreaders ver nchunks nblks orders order2
    = Ok (List.map (fun f => List.map (fun k => serial_eigs (@eig _) (@argsort _) (@rec_X C rec (Base_List.prod sh)) (vec_w (weights_of 1 user xs nv) (Base_List.prod sh)) f 0 k) (enum 'I_(n_blocks c))) (List.seq 0 (n_freq c)),
          files) &
    forall f m x, List.In (f, m, x) files <->
      (f < n_freq c)%N /\ exists Hm : (m < n_modes_save c)%N,
        x = List.map (fun i => serial_modes (@eig _) (@argsort _) (@rec_X C rec (Base_List.prod sh)) (vec_w (weights_of 1 user xs nv) (Base_List.prod sh)) ord0 f H i (Ordinal Hm)) (enum 'I_(Base_List.prod sh))].
Proof.
have Hnt : total_steps fs names = length rec by rewrite /rec nc_record_length.
have [c [[Hc Ent Edft Eov Enb] Hms]] := @configureE C s (length rec) real nb Hnb.
set W := weights_of 1 user xs nv.
have Esh : Base_List.prod sh = Nat.mul nxyz nv by rewrite /sh prod_app /= PeanoNat.Nat.mul_1_r.
have Hrow row : List.In row rec -> length row = Nat.mul nxyz nv.
  by move=> Hr; apply: (@nc_record_row_length _ 0 nxyz nv fs names row _ Hr) => k Hk; have [[]] := Hfiles Hk.
have Hidlen r : (r < size)%N -> length (point_ids nxyz nv size r) = Nat.mul (blockdist nxyz size r).1 nv.
  by move=> /ltP Hr; rewrite /point_ids own_points_length // List.seq_length.
have Hrank r : (r < size)%N ->
  (do dw <- (do st <- get_data2 0 size (nreaders_of nreaders size) (Base_List.prod xs) nv ver nchunks nblks fs names r (orders r);
             do wl <- rank_weights 1 user xs nv true 0 (Some (size, r)) (Chunks st); Ok (Chunks st, wl));
   rank_local c dw.1 dw.2) = Ok (ref_local c rec W (point_ids nxyz nv size r)).
  move=> Hr.
  have [st [-> Hst]] := @files_rep C 0 size nreaders nxyz nv ver nchunks nblks fs names r (orders r) (elimT ltP Hr) Hnd (elimT ltP Hch) (elimT ltP Hbl)
    Hfiles (Ho r) (fun m Hm => match Hsmall (introT leP Hm) with or_introl h => or_introl (elimT leP h) | or_intror h => or_intror h end) (elimT leP Hfit).
  rewrite /=.
  have Hrecne : List.map (picks 0 (point_ids nxyz nv size r)) rec <> nil.
    move/(f_equal (@length _)); rewrite List.map_length /= => E0.
    have := @starts_eq (length rec) (s_ndft s) (s_novlp s) nb (elimT ltP Hov) Hnb.
    by move=> [_ [H2 [H4 Hfit']]]; have := Hfit' 0%N ltac:(lia); rewrite E0 /=; lia.
  rewrite (@rank_weights_points _ 1 0 user xs nv size r _ (List.map (picks 0 (point_ids nxyz nv size r)) rec) (length (point_ids nxyz nv size r))) //=; first last.
  - by move=> row /List.in_map_iff [r0 [<- _]]; rewrite pick_length.
  - exact/ltP.
  - exact/ltP.
  apply: (@rank_localE C c rec W nb) => //; rewrite ?Edft ?Eov //; first exact/ltP.
  by rewrite Hidlen //; apply: Hone.
pose idss := List.map (point_ids nxyz nv size) (List.seq 0 size).
pose ls := List.map (ref_local c rec W) idss.
have Els : all_ok (List.map (fun r => do dw <- (do st <- get_data2 0 size (nreaders_of nreaders size) (Base_List.prod xs) nv ver nchunks nblks fs names r (orders r);
             do wl <- rank_weights 1 user xs nv true 0 (Some (size, r)) (Chunks st); Ok (Chunks st, wl)); rank_local c dw.1 dw.2) (List.seq 0 size)) = Ok ls.
  rewrite (@all_ok_map _ _ _ (fun r => ref_local c rec W (point_ids nxyz nv size r))); last by move=> r /List.in_seq [_ /ltP Hr]; apply: Hrank.
  by rewrite /ls /idss List.map_map.
have Hcat : List.concat idss = List.seq 0 (Base_List.prod sh) by rewrite /idss point_ids_concat ?Esh //; apply/ltP.
have Hp : Permutation (List.concat idss) (List.seq 0 (Base_List.prod sh)) by rewrite Hcat.
have Hidss : length idss = size by rewrite /idss List.map_length List.seq_length.
have Hlsl : length ls = size by rewrite /ls List.map_length.
exists c, Hms, (@mode_files C eig argsort c ls order2); split=> //.
  rewrite /fit_files Hnt Hc /= /locals List.map_map Els /=; congr (Ok (_, _)).
  by apply: List.map_ext_in => f /List.in_seq [_ /ltP Hf]; apply: fit_eigsE.
move=> f m x.
have Hnfreq r f' m' : (r < size)%N -> (f' < n_freq c)%N -> length (mode_column eig argsort ls r f' m') = length (List.nth r idss nil).
  by move=> Hr Hf; rewrite (mode_columnE rec W eig argsort Hp Hf Hms) ?Hidss // List.map_length.
have Hm0 : (0 < n_modes_save c)%N.
  have [H2 H3] : (2 <= n_blocks c)%N /\ n_modes_save c = if (n_blocks c < s_modes s)%N then n_blocks c else s_modes s.
    split; last by move: Hc; rewrite /configure Hnb /= => -[<-] /=.
    by rewrite Enb; apply/leP; have [_ []] := @starts_eq (length rec) (s_ndft s) (s_novlp s) nb (elimT ltP Hov) Hnb.
  by rewrite H3; case: ifP => // _; apply: leq_trans H2.
rewrite in_mode_files //; last first.
  by move=> r f' m' /ltP Hr /ltP Hf' _; rewrite !Hnfreq //; apply: leq_ltn_trans Hf'.
have Hcol (Hf : (f < n_freq c)%N) (Hm : (m < n_modes_save c)%N) : List.concat (List.map (fun r => mode_column eig argsort ls r f m) (List.seq 0 size))
   = List.map (fun i => serial_modes (@eig _) (@argsort _) (@rec_X C rec (Base_List.prod sh)) (vec_w W (Base_List.prod sh)) ord0 f Hms i (Ordinal Hm)) (enum 'I_(Base_List.prod sh)).
  rewrite (List.map_ext_in _ (fun r => List.map (fun y => List.nth m (rowlist (serial_modes (@eig _) (@argsort _) (@rec_X C rec (Base_List.prod sh)) (vec_w W (Base_List.prod sh)) ord0 f Hms) y) 0) (List.nth r idss nil))); last first.
    by move=> r /List.in_seq [_ /ltP Hr]; rewrite (mode_columnE rec W eig argsort Hp Hf Hms) ?Hidss.
  rewrite -(List.map_map (fun r => List.nth r idss nil) (List.map _)) -List.concat_map -{1}Hidss map_nth_seq Hcat.
  have -> : List.seq 0 (Base_List.prod sh) = List.map val (enum 'I_(Base_List.prod sh)) by rewrite -[List.map _ _]/(map _ _) val_enum_ord iota_seq.
  rewrite List.map_map; apply: List.map_ext => i; rewrite rowlist_val.
  have E1 : List.map (fun j => serial_modes (@eig _) (@argsort _) (@rec_X C rec (Base_List.prod sh)) (vec_w W (Base_List.prod sh)) ord0 f Hms i j) (enum 'I_(n_modes_save c))
    = [seq serial_modes (@eig _) (@argsort _) (@rec_X C rec (Base_List.prod sh)) (vec_w W (Base_List.prod sh)) ord0 f Hms i j | j <- enum 'I_(n_modes_save c)] by [].
  rewrite E1 nth_List (nth_map (Ordinal Hm)) ?size_enum_ord //; congr (serial_modes _ _ _ _ _ _ _ _ _).
  by apply: val_inj; rewrite /= nth_enum_ord.
split.
- by move=> [Hf Hm ->]; split=> //; exists Hm; apply: Hcol.
- by move=> [Hf [Hm ->]]; split=> //; rewrite Hcol.
Qed.
End Files.
