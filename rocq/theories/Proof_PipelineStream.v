From Coq Require Import QArith.
From Verif Require Import Base_List Model_Parallel Model_Reader1 Model_Reader2 Model_Base Model_Standard Model_Pipeline Model_Streaming Model_StreamShape Spec_Array Spec_Reader Spec_Reader2
  Proof_Parallel Proof_Npy2 Proof_Reader1 Proof_Reader1b Proof_Reader2b Proof_Standard1 Proof_Pipeline Proof_Streaming Proof_StreamShape.
From Coq Require Import Sorting.Permutation.
From mathcomp Require Import all_ssreflect all_algebra.
From Verif Require Import Model_Spod Spec_Spod Proof_Spod Model_SpodPar Proof_SpodPar Model_StreamNum Proof_StreamNum Proof_StreamNum2 Proof_StreamNum3
  Model_PipelineNum Proof_PipelineNum Proof_PipelineFit Model_PipelineStream.
Set Implicit Arguments.
Unset Strict Implicit.
Unset Printing Implicit Defensive.
Import GRing.Theory Num.Theory.
Local Open Scope ring_scope.

(* the algorithm does not depend on the order in which the entries of a snapshot are numbered *)
Section Reindex.
Variables (C : numClosedFieldType) (c : config C) (n n' : nat) (s : 'I_n' -> 'I_n).
Hypothesis Hs : bijective s.
Notation k := (n_modes_save c).
Variables (w : 'cV[C]_n) (w' : 'cV[C]_n') (X : nat -> 'cV[C]_n) (X' : nat -> 'cV[C]_n').
Variable svd : 'M[C]_(k + 1) -> 'M[C]_(k + 1) * 'rV[C]_(k + 1).
Hypothesis Hw : forall i, w' i 0 = w (s i) 0.
Hypothesis HX : forall t i, X' t i 0 = X t (s i) 0.
Lemma avg_reindex N i : Proof_StreamNum.avg X' N i 0 = Proof_StreamNum.avg X N (s i) 0.
Proof. by rewrite /Proof_StreamNum.avg !mxE !summxE; congr (_ * _); apply: eq_bigr => t _. Qed.
Lemma bhat_reindex st f i : bhat c X' st f i 0 = bhat c X st f (s i) 0.
Proof.
rewrite /bhat mxE [RHS]mxE !summxE; congr (_ * _); apply: eq_bigr => t _.
by rewrite mxE [RHS]mxE; congr (_ * _); rewrite mxE [RHS]mxE HX [X in _ + X]mxE [X in _ = _ + X]mxE avg_reindex.
Qed.
Lemma xw_reindex st f i : xw c w' X' st f i 0 = xw c w X st f (s i) 0.
Proof. by rewrite /xw mxE [RHS]mxE bhat_reindex Hw. Qed.
Section G.
Variables (b : nat) (x : 'cV[C]_n) (x' : 'cV[C]_n') (U : 'M[C]_(n, k)) (U' : 'M[C]_(n', k)) (S : 'rV[C]_k).
Hypothesis Hx : forall i, x' i 0 = x (s i) 0.
Hypothesis HU : forall i j, U' i j = U (s i) j.
Lemma sum_reindex (F : 'I_n -> C) : \sum_i F (s i) = \sum_i F i.
Proof. by rewrite [RHS](reindex s) //; apply: onW_bij. Qed.
Lemma gUx_reindex : gUx x' U' = gUx x U.
Proof.
apply/matrixP => j z; rewrite /gUx mxE [RHS]mxE -(sum_reindex (fun i => adj U j i * x i z)).
by apply: eq_bigr => i _; rewrite [z]ord1 Hx; congr (_ * _); rewrite !mxE HU.
Qed.
Lemma gup_reindex i : gup x' U' i 0 = gup x U (s i) 0.
Proof. by rewrite /gup gUx_reindex !mxE Hx; congr (_ - _); apply: eq_bigr => j _; rewrite HU. Qed.
Lemma gabs_reindex : gabs x' U' = gabs x U.
Proof.
rewrite /gabs; congr sqrtC; rewrite mxE [RHS]mxE -(sum_reindex (fun i => adj (gup x U) 0 i * gup x U i 0)).
by apply: eq_bigr => i _; rewrite gup_reindex; congr (_ * _); rewrite [LHS]mxE [RHS]mxE gup_reindex.
Qed.
Lemma gun_reindex i : gun x' U' i 0 = gun x U (s i) 0.
Proof. by rewrite /gun mxE [RHS]mxE gup_reindex gabs_reindex. Qed.
Lemma gupdate_reindex : gupdate svd b x' U' S = omap (fun us : 'M[C]_(n, k) * 'rV[C]_k => (\matrix_(i, j) us.1 (s i) j, us.2)) (gupdate svd b x U S).
Proof.
rewrite /gupdate gabs_reindex; case: eqP => // _ /=; congr (Some (_, _)); last by rewrite /gS gUx_reindex gabs_reindex.
apply/matrixP => i j; rewrite !mxE gUx_reindex gabs_reindex; apply: eq_bigr => l _; congr (_ * _).
case: (splitP l) => l' El.
  by have -> : l = lshift _ l' by [apply: val_inj]; rewrite !row_mxEl HU.
by have -> : l = rshift _ l' by [apply: val_inj]; rewrite !row_mxEr ord1 gun_reindex.
Qed.
End G.
Lemma gbasis_reindex f K : gbasis w' svd X' f K = omap (fun us : 'M[C]_(n, k) * 'rV[C]_k => (\matrix_(i, j) us.1 (s i) j, us.2)) (gbasis w svd X f K).
Proof.
elim: K => [|K IH]; first by congr (Some (_, _)); apply/matrixP => i j; rewrite !mxE.
rewrite /= IH; case: (gbasis _ _ _ _ _) => [us|] //=.
by apply: gupdate_reindex => [i|i j]; [apply: xw_reindex|rewrite mxE].
Qed.
End Reindex.

(* ---- all processes together ---- *)
Section Assemble.
Variables (C : numClosedFieldType) (c : config C) (n : nat) (rec : list (list C)) (W : list C) (ids : nat -> list nat).
Variable svd : forall k, 'M[C]_(k + 1) -> 'M[C]_(k + 1) * 'rV[C]_(k + 1).
Notation k := (n_modes_save c).
Variable ls : list (slocal C).
Notation size := (length ls).
Hypothesis Hperm : Permutation (List.concat (List.map ids (List.seq 0 size))) (List.seq 0 n).
Hypothesis Hls : forall r, (r < size)%N -> List.nth r ls (sl_none C) = SLocal (length (ids r)) (List.map (picks 0 (ids r)) rec) (picks 0 (ids r) W).
Hypothesis Hsize : (0 < size)%N.
Hypothesis Hov : (n_overlap c < n_dft c)%N.
Definition rX (t : nat) : 'cV[C]_n := \col_i List.nth i (List.nth t rec nil) 0.
Definition rw : 'cV[C]_n := \col_i List.nth i W 0.
Lemma sl_nE (r : 'I_size) : sl_n r = length (ids r).
Proof. by rewrite /sl_n /sl_at Hls. Qed.
Lemma own_lt (r : 'I_size) (i : 'I_(sl_n r)) : (List.nth i (ids r) 0 < n)%N.
Proof.
have : List.In (List.nth i (ids r) 0%N) (List.seq 0 n).
  apply: (Permutation_in _ Hperm); apply/List.in_concat; exists (ids r); split; first by apply: List.in_map; apply/List.in_seq; split; [lia|apply/ltP].
  by apply: List.nth_In; apply/ltP; rewrite -sl_nE.
by move/List.in_seq => [_ /ltP].
Qed.
Definition own_rec (r : 'I_size) (i : 'I_(sl_n r)) : 'I_n := Ordinal (own_lt i).
Lemma own_recE (r : 'I_size) : [seq val (own_rec i) | i <- enum 'I_(sl_n r)] = ids r.
Proof.
have -> : [seq val (own_rec i) | i <- enum 'I_(sl_n r)] = [seq List.nth i (ids r) 0%N | i <- map val (enum 'I_(sl_n r))] by rewrite -[RHS]map_comp; apply: eq_map => i.
rewrite val_enum_ord iota_seq -[map _ _]/(List.map _ _) sl_nE.
exact: map_nth_seq.
Qed.
Lemma own_rec_partition : partition_of own_rec.
Proof. exact: (own_partition Hperm own_recE). Qed.
Lemma st_own_partition : partition_of (@st_own C ls).
Proof.
have := @tagnat.rank_bij size (@sl_n C ls) => -[g H1 H2]; exists g => x.
  have -> : st_own (tagged x) = tagnat.rank x by case: x.
  exact: H1.
rewrite -[RHS]H2; by case: (g x).
Qed.
Definition sg (x : 'I_(\sum_(r < size) sl_n r)) : 'I_n := own_rec (tagnat.sig2 x).
Lemma sg_bij : bijective sg.
Proof.
have -> : sg = (fun p : {r : 'I_size & 'I_(sl_n r)} => own_rec (tagged p)) \o (@tagnat.sig size (@sl_n C ls)) by [].
apply: bij_comp; [exact: own_rec_partition|exact: tagnat.sig_bij].
Qed.
Lemma sg_own r (i : 'I_(sl_n r)) : sg (st_own i) = own_rec i.
Proof.
have E : own_rec (tagged (tagnat.sig (tagnat.rank (Tagged _ i)))) = own_rec i by rewrite (@tagnat.rankK size (@sl_n C ls) (Tagged _ i)).
exact: E.
Qed.
Lemma pick_nth (ids' : list nat) (row : list C) i : (i < length ids')%N -> List.nth i (picks 0 ids' row) 0 = List.nth (List.nth i ids' 0%N) row 0.
Proof.
move=> Hi; rewrite /picks nth_List -[List.map _ _]/(map _ _) (nth_map 0%N) -?nth_List //.
Qed.
Lemma st_wE x : st_w ls x 0 = rw (sg x) 0.
Proof.
rewrite /st_w /rw !mxE /sl_at Hls // pick_nth //=.
by rewrite -sl_nE; apply: ltn_ord.
Qed.
Lemma st_XE t x : st_X ls t x 0 = rX t (sg x) 0.
Proof.
rewrite /st_X /rX !mxE /sl_at Hls //=.
case: (ltnP t (length rec)) => Ht.
  rewrite (List.nth_indep _ _ (picks 0 (ids (tagnat.sig1 x)) nil)) ?List.map_length; last exact/ltP.
  by rewrite List.map_nth pick_nth // -sl_nE; apply: ltn_ord.
have -> : List.nth t rec nil = nil by apply: List.nth_overflow; apply/leP.
rewrite (List.nth_overflow (List.map _ rec)); last by rewrite List.map_length; apply/leP.
have Hnil (m : nat) : List.nth m (nil : list C) 0 = 0 by case: m.
by rewrite !Hnil.
Qed.
Lemma st_NE : st_N ls = length rec.
Proof.
rewrite /st_N; have := Hls Hsize; case: (ls) Hsize => // l l' _ /= ->.
by rewrite /= List.map_length.
Qed.
Let X := rX.
Lemma eigs_all f (r : 'I_size) : stream_eigs (c := c) (@st_own C ls) (st_w ls) (@svd _) (st_X ls) (st_N ls) r f
  = serial_stream_eigs rw (@svd _) X (length rec) f.
Proof.
have [K HK] := due_exists Hov (length rec).
rewrite st_NE /serial_stream_eigs (eigsE _ _ _ st_own_partition Hov _ _ HK) (eigsE _ _ _ (id_partition n) Hov _ _ HK).
rewrite (gbasis_reindex sg_bij (@svd _) st_wE st_XE) -/X; by case: (gbasis _ _ _ _ _).
Qed.
Lemma modes_all f (r : 'I_size) : stream_modes (c := c) (@st_own C ls) (st_w ls) (@svd _) (st_X ls) (st_N ls) r f
  = omap (fun P : 'M_(n, k) => \matrix_(i, j) P (own_rec i) j) (serial_stream_modes rw (@svd _) X (length rec) f).
Proof.
have [K HK] := due_exists Hov (length rec).
rewrite st_NE /serial_stream_modes (modesE _ _ _ st_own_partition Hov _ _ HK) (modesE _ _ _ (id_partition n) Hov _ _ HK).
rewrite (gbasis_reindex sg_bij (@svd _) st_wE st_XE) -/X; case: (gbasis _ _ _ _ _) => [us|] //=; congr Some.
by apply/matrixP => i j; rewrite [LHS]mxE [RHS]mxE [RHS]mxE [X in X / _]mxE st_wE sg_own.
Qed.
Lemma all_opt_map T (F : 'I_size -> option T) (o : option (forall r : 'I_size, T)) :
  (forall r, F r = omap (fun g => g r) o) -> all_opt (List.map F (enum 'I_size)) = omap (fun g => List.map g (enum 'I_size)) o.
Proof.
move=> H; case: o H => [g|] /= H.
  by elim: (enum 'I_size) => //= r l ->; rewrite H.
have : (0 < seq.size (enum 'I_size))%N by rewrite size_enum_ord.
by case: (enum 'I_size) => //= r l _; rewrite H.
Qed.
Definition row_list (e : 'rV[C]_k) : list C := List.map (fun j => e 0 j) (enum 'I_k).
Lemma st_eigsE f : st_eigs svd c ls f = omap row_list (serial_stream_eigs rw (@svd _) rX (length rec) f).
Proof.
rewrite /st_eigs; case: insubP => [r _ _|]; last by rewrite Hsize.
by rewrite eigs_all; case: (serial_stream_eigs _ _ _ _ _).
Qed.
Lemma st_file_par sh ax f : n = Base_List.prod sh -> (ax < length sh)%N -> (forall r, (r < size)%N -> ids r = owned sh ax size r) ->
  st_file svd c ls true sh ax f = omap (fun P : 'M_(n, k) => Nd (List.app sh (cons k nil)) (ravel P)) (serial_stream_modes rw (@svd _) rX (length rec) f).
Proof.
move=> Hn Hax Hids; rewrite /st_file.
rewrite (@all_opt_map _ _ (omap (fun (P : 'M_(n, k)) (r : 'I_size) => mode_piece sh ax size r (\matrix_(i, j) P (own_rec (r := r) i) j)) (serial_stream_modes rw (@svd _) rX (length rec) f))); last first.
  by move=> r; rewrite modes_all; case: (serial_stream_modes _ _ _ _ _).
case: (serial_stream_modes _ _ _ _ _) => [P|] //=; congr Some.
apply: (@modes_file _ n size sh ax (@sl_n C ls) own_rec Hn) => //.
- by move=> r; rewrite own_recE; apply: Hids.
- by move=> r i j; rewrite mxE.
Qed.
Lemma st_file_serial sh ax f : size = 1%N -> ids 0 = List.seq 0 n ->
  st_file svd c ls false sh ax f = omap (fun P : 'M_(n, k) => Nd (List.app sh (cons k nil)) (ravel P)) (serial_stream_modes rw (@svd _) rX (length rec) f).
Proof.
move=> H1 H0; rewrite /st_file.
rewrite (@all_opt_map _ _ (omap (fun (P : 'M_(n, k)) (r : 'I_size) => Nd (List.app sh (cons k nil)) (ravel (\matrix_(i, j) P (own_rec (r := r) i) j))) (serial_stream_modes rw (@svd _) rX (length rec) f))); last first.
  by move=> r; rewrite modes_all; case: (serial_stream_modes _ _ _ _ _).
case: (serial_stream_modes _ _ _ _ _) => [P|] //=; congr Some.
have : (0 < seq.size (enum 'I_size))%N by rewrite size_enum_ord.
case: (enum 'I_size) => //= r _ _; congr Nd.
rewrite [RHS]ravel_rows -H0.
have Er : ids 0 = ids r by have := ltn_ord r; rewrite {2}H1; case: (val r).
rewrite Er -(own_recE r) -[map _ _]/(List.map _ _) flat_map_map; apply: flat_map_ext' => i; rewrite rowlist_val.
by apply: List.map_ext => j; rewrite mxE.
Qed.
End Assemble.

(* ---- from the caller's datasets ---- *)
Section Datasets.
Variables (C : numClosedFieldType).
Variable svd : forall k, 'M[C]_(k + 1) -> 'M[C]_(k + 1) * 'rV[C]_(k + 1).
Variables (A : Type) (cast : A -> C) (isreal : A -> bool) (s : settings C) (ds : list (nd A)) (xs sp : list nat) (nv : nat) (user : weights_arg C) (ax : nat).
Hypothesis Hwf : well_formed ds.
Hypothesis Hne : ds <> nil.
Hypothesis Hfirst : (0 < List.hd 0%N (Model_Parallel.shape (List.hd (Nd nil nil) ds)))%N.
Hypothesis Hsp : sp = List.app xs (cons nv nil) \/ nv = 1%N /\ sp = xs.
Hypothesis Hgrid : forall d, List.In d ds -> List.tl (Model_Parallel.shape d) = sp.
Hypothesis Hspne : sp <> nil.
Hypothesis Hpos : (0 < Base_List.prod sp)%N.
Hypothesis Hax : argmax sp = Ok ax.
Hypothesis Hov : (s_novlp s < s_ndft s)%N.
Hypothesis Hw : weights_ok user xs nv.
Hypothesis Hmodes : s_modes s <> 1%N.
Let sh := List.app xs (cons nv nil).
Variable nb : Z.
Hypothesis Hnb : check_feasible (Z.of_nat (length (record ds))) (Z.of_nat (s_ndft s)) (Z.of_nat (s_novlp s)) = Ok nb.
(* what the stream delivers *)
Variable strm : list (list A).
Hypothesis Hstrm : forall cm rd, comm_ok cm -> reader1_init isreal ds (length xs) nv cm = Ok rd ->
  stream_from cast 0 rd 0 (S (rd_nt rd)) = List.map (fun row => List.map cast (local_piece sp ax cm row)) strm.
Hypothesis Hstrmne : strm <> nil.
Hypothesis Hstrmrow : forall row, List.In row strm -> length row = Base_List.prod sp.
Let rec := List.map (List.map cast) strm.
Let W := weights_of 1 user xs nv.
Lemma fit_stream_gen np : no_single_entry sh ax np ->
  exists c,
    [/\ configure s (length (record ds)) (List.forallb isreal (List.hd nil (record ds))) = Ok c &
    fit_stream_array svd cast isreal s ds (length xs) nv user np
    = Ok (both (all_opt (List.map (fun f => omap (@row_list C c) (serial_stream_eigs (@rw C (Base_List.prod sh) W) (@svd _) (@rX C (Base_List.prod sh) rec) (length rec) f)) (List.seq 0 (n_freq c))))
                (all_opt (List.map (fun f => omap (fun P => Nd (List.app sh (cons (n_modes_save c) nil)) (Model_SpodPar.ravel P))
                   (serial_stream_modes (c := c) (@rw C (Base_List.prod sh) W) (@svd _) (@rX C (Base_List.prod sh) rec) (length rec) f)) (List.seq 0 (n_freq c)))))].
Proof.
move=> Hnp.
have Hpos' := elimT ltP Hpos.
have Hacc cm : exists rd, reader1_init isreal ds (length xs) nv cm = Ok rd.
  by apply: (@init_accepts _ isreal ds (length xs) nv cm sp) => //; apply/ltP.
have [rd0 Hrd0] := Hacc None.
have [Hax0 [Hltsp _]] := @reader_axis _ isreal ds (length xs) nv None rd0 sp Hrd0 Hgrid Hspne Hpos'.
have Eax : rd_max_axis rd0 = ax by move: Hax0; rewrite Hax => -[->].
rewrite Eax in Hltsp.
have [Hlt [Hnt0 _]] := @load_rep _ isreal ds xs sp nv Hsp Hgrid Hspne Hpos' C cast 0 None rd0 Hwf I Hrd0.
rewrite Eax in Hlt.
have Exs : rd_xshape rd0 = xs by apply: (@init_shape _ isreal ds xs sp nv Hsp Hgrid Hspne Hpos' None).
have Ereal : rd_is_real rd0 = List.forallb isreal (List.hd nil (record ds)).
  have [fst [oth [-> Hiff]]] := @first_snapshot_decides _ isreal ds (length xs) nv None rd0 Hwf Hrd0.
  by apply/idP/idP => /=; [move/Hiff => H; apply/List.forallb_forall|move/List.forallb_forall => H; apply/Hiff].
have [c [[Hc Ent Edft Eov Enb] Hms]] := @configureE C s (length (record ds)) (List.forallb isreal (List.hd nil (record ds))) nb Hnb.
exists c; split=> //.
have Hov' : (n_overlap c < n_dft c)%N by rewrite Edft Eov.
have Hk1 : n_modes_save c <> 1%N.
  have H2 : (2 <= n_blocks c)%N by rewrite Enb; apply/leP; have [_ []] := @starts_eq (length (record ds)) (s_ndft s) (s_novlp s) nb (elimT ltP Hov) Hnb.
  have -> : n_modes_save c = if (n_blocks c < s_modes s)%N then n_blocks c else s_modes s by move: Hc; rewrite /configure Hnb /= => -[<-] /=.
  by case: ifP => // _ E; rewrite E in H2.
have Hpr : Base_List.prod sp = Base_List.prod sh := @sp_prod _ ds xs sp nv Hsp Hgrid Hspne Hpos'.
(* every process *)
have Hrank cm : comm_ok cm -> length (axis_ids sh ax cm) <> 1%N ->
  stream_rank cast isreal c ds (length xs) nv user cm
  = Ok (SLocal (length (axis_ids sh ax cm)) (List.map (picks 0 (axis_ids sh ax cm)) rec) (picks 0 (axis_ids sh ax cm) W)).
  move=> Hcm Hone.
  have Hrd : reader1_init isreal ds (length xs) nv cm = Ok (set_comm rd0 cm) by apply: init_any_comm Hrd0.
  have Est := Hstrm Hcm Hrd.
  have Erows : List.map (fun row => List.map cast (local_piece sp ax cm row)) strm = List.map (picks 0 (axis_ids sh ax cm)) rec.
    rewrite /rec List.map_map; apply: List.map_ext_in => row Hrow.
    rewrite -local_piece_map //.
    rewrite (@local_piece_pick _ 0) //; last by rewrite List.map_length Hstrmrow.
    by rewrite (@axis_ids_shape _ ds xs sp nv Hsp Hgrid Hspne Hpos').
  rewrite Erows in Est.
  rewrite /stream_rank Hrd; cbn [bind].
  have Hhd : exists row0 rest, rec = row0 :: rest by rewrite /rec; case: (strm) Hstrmne => // r0 l _; exists (List.map cast r0), (List.map (List.map cast) l).
  have [row0 [rest Erec]] := Hhd.
  have Eget : get_data cast 0 (set_comm rd0 cm) (Some 0%N) = Ok (Some (picks 0 (axis_ids sh ax cm) row0 :: nil)).
    move: Est; rewrite Erec /=; case: (get_data_for_time cast 0 (set_comm rd0 cm) 0 1) => [o|e] //; case: o => [l|] //; case: l => [|row l] //; case: l => [|r1 l] //=; by move=> [->].
  rewrite Eget; cbn [bind]; rewrite [rd_xshape _]Exs [rd_max_axis _]Eax.
  rewrite (@rank_weights_array _ 1 0 user xs nv ax cm _ (picks 0 (axis_ids sh ax cm) row0 :: nil) (length (axis_ids sh ax cm))) //; last first.
    by move=> row [<-|//]; rewrite pick_length.
  cbn [bind]; rewrite Est pick_length.
  by have [_ /(_ (conj Hone (or_introl Hk1))) [u ->]] := fit_ok_iff (length (axis_ids sh ax cm)) (n_modes_save c) (completed_blocks (n_dft c) (n_overlap c) (length (List.map (picks 0 (axis_ids sh ax cm)) rec))).
rewrite /fit_stream_array.
have [rdh Hrdh] := Hacc (List.hd None (comms np)); rewrite Hrdh.
have Erdh : rdh = set_comm rd0 (List.hd None (comms np)).
  by have := @init_any_comm _ isreal ds nv (length xs) None (List.hd None (comms np)) rd0 Hrd0; rewrite Hrdh => -[].
rewrite /= Erdh /= Hnt0 Ereal Hc /= Exs Eax -/sh.
case: np Hnp Hrdh Erdh => [size|] Hnp Hrdh Erdh.
- case: Hnp => Hs Hone.
  rewrite (@all_ok_map _ _ _ (fun cm => SLocal (length (axis_ids sh ax cm)) (List.map (picks 0 (axis_ids sh ax cm)) rec) (picks 0 (axis_ids sh ax cm) W))) /=; last first.
    move=> cm /List.in_map_iff [r [<- /List.in_seq [_ Hr]]]; apply: Hrank => //.
    by rewrite axis_ids_owned ?(introT ltP Hlt) //; apply: Hone; apply/ltP.
  rewrite List.map_map.
  set ls := List.map _ (List.seq 0 size).
  have Hlen : length ls = size by rewrite /ls List.map_length List.seq_length.
  pose ids := owned sh ax size.
  have Hp : Permutation (List.concat (List.map ids (List.seq 0 (length ls)))) (List.seq 0 (Base_List.prod sh)).
    by rewrite Hlen; apply: owned_perm => //; apply/ltP.
  have Hls r : (r < length ls)%N -> List.nth r ls (sl_none C) = SLocal (length (ids r)) (List.map (picks 0 (ids r)) rec) (picks 0 (ids r) W).
    rewrite Hlen => /ltP Hr; rewrite /ls (nth_map_seq0 _ _ Hr) axis_ids_owned //; exact/ltP.
  have Hs' : (0 < length ls)%N by rewrite Hlen.
  congr (Ok (both (all_opt _) (all_opt _))); apply: List.map_ext => f.
    exact: (@st_eigsE _ c _ rec W ids svd ls Hp Hls Hs' Hov').
  apply: (@st_file_par _ c _ rec W ids svd ls Hp Hls Hs' Hov') => //; first exact/ltP.
  by move=> r _; rewrite Hlen.
- rewrite /= (Hrank None I) /=; last by rewrite List.seq_length.
  set ls := [:: _].
  pose ids (r : nat) := List.seq 0 (Base_List.prod sh).
  have Hp : Permutation (List.concat (List.map ids (List.seq 0 (length ls)))) (List.seq 0 (Base_List.prod sh)).
    by rewrite /= List.app_nil_r.
  have Hls r : (r < length ls)%N -> List.nth r ls (sl_none C) = SLocal (length (ids r)) (List.map (picks 0 (ids r)) rec) (picks 0 (ids r) W).
    by case: r.
  congr (Ok (both (all_opt _) (all_opt _))); apply: List.map_ext => f.
    exact: (@st_eigsE _ c _ rec W ids svd ls Hp Hls isT Hov').
  exact: (@st_file_serial _ c _ rec W ids svd ls Hp Hls isT Hov').
Qed.
End Datasets.
