From Verif Require Import Base_List Model_Parallel Model_Reader1 Model_Reader2 Model_Base Model_Standard Model_Pipeline Model_PodShape Spec_Array Spec_Reader Spec_Reader2
  Proof_Parallel Proof_Npy2 Proof_Reader1 Proof_Reader1b Proof_Reader2b Proof_Standard1 Proof_Pipeline Prop_PodShape.
From Coq Require Import Sorting.Permutation.
(* ---- lists only ---- *)
Lemma upd_app_l (l l' : list nat) ax n : ax < length l -> upd_nth ax n (l ++ l') = upd_nth ax n l ++ l'.
Proof.
  revert ax. induction l as [|x l IH]; intros ax H; cbn [length] in H; [lia|].
  destruct ax as [|ax]; cbn [upd_nth app]; [reflexivity|]. f_equal. apply IH. lia.
Qed.
Lemma prod_upd ax n sh : ax < length sh -> prod (upd_nth ax n sh) = n * prod (upd_nth ax 1 sh).
Proof. intros H. rewrite !upd_nth_split by exact H. rewrite !prod_app. cbn. fold (prod (skipn (S ax) sh)). lia. Qed.
Lemma prod_upd_pos ax sh : 0 < prod sh -> ax < length sh -> 0 < prod (upd_nth ax 1 sh).
Proof.
  intros H Hax. destruct (split_at_axis _ Hax) as (sh1 & N & sh2 & -> & <- & _). rewrite axis_upd.
  rewrite prod_app in *. cbn in *. fold (prod sh2) in *. nia.
Qed.
Lemma record_length {A} (ds : list (nd A)) : length (record ds) = fold_right Nat.add 0 (map (fun s => hd 0 s) (map (@shape A) ds)).
Proof.
  unfold record. induction ds as [|d ds IH]; [reflexivity|]. cbn [map concat fold_right]. rewrite app_length, IH. f_equal.
  rewrite snapshots_length. unfold nrows. now destruct (shape d).
Qed.
Lemma sum_div (l : list nat) nt k : k <> 0 -> (forall b, In b l -> (b * nt) mod k = 0) -> sum (map (fun b => b * nt / k) l) = sum l * nt / k.
Proof.
  intros Hk. induction l as [|b l IH]; intros H; [cbn; now rewrite Nat.div_0_l|].
  cbn [map]. change (sum (?x :: ?y)) with (x + sum y). rewrite IH by (intros; apply H; now right).
  assert (Hb : (b * nt) mod k = 0) by (apply H; now left). pose proof (Nat.div_mod (b * nt) k Hk) as E. rewrite Hb in E.
  change (sum (b :: l)) with (b + sum l).
  rewrite Nat.mul_add_distr_r. replace (b * nt + sum l * nt) with (sum l * nt + (b * nt / k) * k) by lia. rewrite Nat.div_add by assumption. lia.
Qed.
Lemma upd_upd (l : list nat) ax a b : upd_nth ax a (upd_nth ax b l) = upd_nth ax a l.
Proof. revert ax. induction l as [|x l IH]; intros [|ax]; cbn; try reflexivity. f_equal. apply IH. Qed.
Lemma div_lt N nt k : nt < k -> 0 < N -> N * nt / k < N.
Proof. intros. apply Nat.div_lt_upper_bound; nia. Qed.
Lemma nth_pos l ax : 0 < prod l -> ax < length l -> 0 < nth ax l 0.
Proof.
  intros H Hax. destruct (split_at_axis _ Hax) as (sh1 & N & sh2 & -> & <- & _). rewrite app_nth2, Nat.sub_diag by lia. cbn.
  rewrite prod_app in H. cbn in H. fold (prod sh2) in H. nia.
Qed.
Lemma pod_check_ok {A} (ds : list (nd A)) xs : (forall d, In d ds -> tl (shape d) = xs) -> pod_check xs (map (@shape A) ds) = Ok (length (record ds)).
Proof.
  intros H. unfold pod_check. rewrite (proj2 (forallb_forall _ (map (@shape A) ds))); [now rewrite record_length|].
  intros s Hs. apply in_map_iff in Hs as (d & <- & Hd). rewrite (H d Hd). destruct (list_eq_dec Nat.eq_dec xs xs); congruence.
Qed.
From mathcomp Require Import all_ssreflect all_algebra.
From Verif Require Import Model_Spod Spec_Spod Proof_Spod Model_SpodPar Proof_SpodPar Model_Pod Proof_Pod Proof_StreamNum3 Model_PipelineNum Proof_PipelineNum Proof_PipelineFit Model_PipelinePod Prop_Pod.
Set Implicit Arguments.
Unset Strict Implicit.
Unset Printing Implicit Defensive.
Import GRing.Theory Num.Theory.
Local Open Scope ring_scope.

(* only the entries a process holds matter *)
Section Ext.
Variables (C : numClosedFieldType) (size n n' nt : nat) (nloc : 'I_size -> nat).
Variables (own : forall r : 'I_size, 'I_(nloc r) -> 'I_n) (own' : forall r : 'I_size, 'I_(nloc r) -> 'I_n').
Variables (w : 'cV[C]_n) (w' : 'cV[C]_n') (data : 'M[C]_(nt, n)) (data' : 'M[C]_(nt, n')) (longtime : bool).
Variable eig : 'M[C]_nt -> 'rV[C]_nt * 'M[C]_nt.
Hypothesis Hw : forall r (i : 'I_(nloc r)), w (own i) 0 = w' (own' i) 0.
Hypothesis Hd : forall t r (i : 'I_(nloc r)), data t (own i) = data' t (own' i).
Lemma d_mat_ext r : d_mat own data longtime r = d_mat own' data' longtime r.
Proof.
have Hb t (i : 'I_(nloc r)) : buf own data t i = buf own' data' t i by rewrite /buf; case: insub => // s; rewrite Hd.
apply/matrixP => i t; rewrite !mxE Hb /t_mean_pod; case: longtime => //; rewrite /long_t_mean.
by congr (_ - (_ + _ + _) / _); rewrite ?(eq_bigr _ (fun s _ => Hb s i)).
Qed.
Lemma pod_Q_ext : pod_Q own w data longtime = pod_Q own' w' data' longtime.
Proof.
rewrite /pod_Q; apply: eq_bigr => r _; rewrite d_mat_ext; congr (_ *m wmul _ _).
by apply/matrixP => i j; rewrite !mxE Hw.
Qed.
Lemma pod_w_ext : pod_w own w data longtime eig = pod_w own' w' data' longtime eig.
Proof. by rewrite /pod_w pod_Q_ext. Qed.
Lemma pod_phi_ext r (i : 'I_(nloc r)) j : pod_phi own w data longtime eig i j = pod_phi own' w' data' longtime eig i j.
Proof. by rewrite /pod_phi /pod_w /pod_v pod_Q_ext d_mat_ext. Qed.
End Ext.

Section Assemble.
Variables (C : numClosedFieldType) (n : nat) (rec : list (list C)) (W : list C) (ids : nat -> list nat).
Variable eig : forall n, 'M[C]_n -> 'rV[C]_n * 'M[C]_n.
Variables (longtime : bool) (k : nat).
Notation nt := (length rec).
Variable ls : list (plocal C).
Notation size := (length ls).
Hypothesis Hperm : Permutation (List.concat (List.map ids (List.seq 0 size))) (List.seq 0 n).
Hypothesis Hls : forall r, (r < size)%N -> List.nth r ls (pl_none C) = PLocal (length (ids r)) (List.map (picks 0 (ids r)) rec) (picks 0 (ids r) W).
Hypothesis Hsize : (0 < size)%N.
Hypothesis Hk : (k <= nt)%N.
Definition prec : 'M[C]_(nt, n) := \matrix_(t, i) List.nth i (List.nth t rec nil) 0.
Definition pw : 'cV[C]_n := \col_i List.nth i W 0.
Lemma pl_nE (r : 'I_size) : pl_n r = length (ids r).
Proof. by rewrite /pl_n /pl_at Hls. Qed.
Lemma pown_lt (r : 'I_size) (i : 'I_(pl_n r)) : (List.nth i (ids r) 0 < n)%N.
Proof.
have : List.In (List.nth i (ids r) 0%N) (List.seq 0 n).
  apply: (Permutation_in _ Hperm); apply/List.in_concat; exists (ids r); split; first by apply: List.in_map; apply/List.in_seq; split; [lia|apply/ltP].
  by apply: List.nth_In; apply/ltP; rewrite -pl_nE.
by move/List.in_seq => [_ /ltP].
Qed.
Definition pown (r : 'I_size) (i : 'I_(pl_n r)) : 'I_n := Ordinal (pown_lt i).
Lemma pownE (r : 'I_size) : [seq val (pown i) | i <- enum 'I_(pl_n r)] = ids r.
Proof.
have -> : [seq val (pown i) | i <- enum 'I_(pl_n r)] = [seq List.nth i (ids r) 0%N | i <- map val (enum 'I_(pl_n r))] by rewrite -[RHS]map_comp; apply: eq_map => i.
rewrite val_enum_ord iota_seq -[map _ _]/(List.map _ _) pl_nE.
exact: map_nth_seq.
Qed.
Lemma pown_partition : partition_of pown.
Proof. exact: (own_partition Hperm pownE). Qed.
Lemma pick_nth (ids' : list nat) (row : list C) i : (i < length ids')%N -> List.nth i (picks 0 ids' row) 0 = List.nth (List.nth i ids' 0%N) row 0.
Proof. by move=> Hi; rewrite /picks nth_List -[List.map _ _]/(map _ _) (nth_map 0%N) -?nth_List. Qed.
Lemma tag_at (F : forall r : 'I_size, 'I_(pl_n r) -> C) r (i : 'I_(pl_n r)) : F (tagnat.sig1 (pl_own i)) (tagnat.sig2 (pl_own i)) = F r i.
Proof.
have E : (fun p : {r : 'I_size & 'I_(pl_n r)} => F (tag p) (tagged p)) (tagnat.sig (tagnat.rank (Tagged _ i))) = F r i by rewrite (@tagnat.rankK size (@pl_n C ls) (Tagged _ i)).
exact: E.
Qed.
Lemma pl_wE r (i : 'I_(pl_n r)) : pl_wv ls (pl_own i) 0 = pw (pown i) 0.
Proof.
rewrite /pl_wv mxE (tag_at (fun r i => List.nth i (pl_w (pl_at r)) 0)) /pw mxE /pl_at Hls //= pick_nth //.
by rewrite -pl_nE; apply: ltn_ord.
Qed.
Lemma pl_dataE t r (i : 'I_(pl_n r)) : pl_data nt ls t (pl_own i) = prec t (pown i).
Proof.
rewrite /pl_data mxE (tag_at (fun r i => List.nth i (List.nth t (pl_rows (pl_at r)) nil) 0)) /prec mxE /pl_at Hls //=.
rewrite (List.nth_indep _ _ (picks 0 (ids r) nil)) ?List.map_length; last by apply/ltP; apply: ltn_ord.
by rewrite List.map_nth pick_nth // -pl_nE; apply: ltn_ord.
Qed.
Lemma pl_eigsE : pl_eigs eig longtime nt ls = List.map (fun j => pod_w (size := 1) (fun _ (i : 'I_n) => i) pw prec longtime (@eig _) 0 j) (enum 'I_nt).
Proof.
rewrite /pl_eigs (pod_w_ext longtime (@eig _) pl_wE pl_dataE).
by have [-> _] := C59_rank_independence pw prec longtime (@eig _) pown_partition.
Qed.
Definition smodes : 'M[option C]_(n, k) := \matrix_(i, j) serial_pod_saved pw prec longtime (@eig _) Hk i j.
Definition lmodes (r : 'I_size) : 'M[option C]_(pl_n r, k) := \matrix_(i, j) smodes (pown i) j.
Lemma pl_phiE r : pl_phi eig longtime nt k (ls := ls) r = ravel (lmodes r).
Proof.
rewrite /pl_phi /ravel; apply: flat_map_ext' => i.
pose g (j : nat) := if insub j is Some j' then pod_phi (@pl_own C ls) (pl_wv ls) (pl_data nt ls) longtime (@eig nt) i j' else None.
have Eg (j : 'I_nt) : pod_phi (@pl_own C ls) (pl_wv ls) (pl_data nt ls) longtime (@eig nt) i j = g j by rewrite /g valK.
rewrite (List.map_ext _ _ Eg) (firstn_enum g Hk); apply: List.map_ext => j.
rewrite -[val j]/(val (widen_ord Hk j)) -Eg (pod_phi_ext longtime (@eig _) pl_wE pl_dataE).
have [_ [H _]] := C59_rank_independence pw prec longtime (@eig _) pown_partition.
by rewrite [RHS]mxE [RHS]mxE -(H _ Hk).
Qed.
Lemma ravel_length T m q (M : 'M[T]_(m, q)) : length (ravel M) = (m * q)%N.
Proof.
have G l : length (List.flat_map (fun i : 'I_m => List.map (fun j => M i j) (enum 'I_q)) l) = (length l * q)%N.
  elim: l => //= i l IH; by rewrite List.app_length IH List.map_length -[length (enum _)]/(seq.size _) size_enum_ord.
by rewrite /ravel G -[length _]/(seq.size _) size_enum_ord.
Qed.
Lemma pl_file_par xs ax : (0 < k)%N -> n = Base_List.prod xs -> (0 < n)%N -> (ax < length xs)%N ->
  (forall r, (r < size)%N -> ids r = owned (List.app xs (cons 1%N nil)) ax size r) ->
  pl_file eig longtime nt k ls true xs 1 ax = Ok (Nd (List.app xs (cons 1%N (cons k nil))) (ravel smodes)).
Proof.
move=> Hk0 Hn Hn0 Hax Hids; rewrite /pl_file.
set sh := List.app xs (cons 1%N nil).
have Hax' : (ax < length sh)%N by rewrite /sh List.app_length; apply/ltP; move/ltP: Hax => /=; lia.
have Hnth : List.nth ax sh 0%N = List.nth ax xs 0%N by rewrite /sh List.app_nth1 //; apply/ltP.
rewrite (@all_ok_map _ _ _ (fun r : 'I_size => mode_piece sh ax size r (lmodes r))); last first.
  move=> r _; rewrite /set_shape pl_phiE ravel_length /mode_piece.
  have Em : pl_n r = ((blockdist (List.nth ax sh 0) size r).1 * Base_List.prod (upd_nth ax 1%N xs))%N.
    rewrite pl_nE Hids // -(@axis_ids_owned xs 1%N ax size r Hax').
    rewrite axis_ids_length; [|exact/ltP|exact/ltP].
    rewrite /sh -/sh; set b := (blockdist _ _ _).1.
    rewrite /sh upd_app_l; last exact/ltP.
    rewrite prod_app prod_upd; last exact/ltP.
    rewrite /= -!multE; lia.
  have Hr0 : Base_List.prod (List.app (upd_nth ax 1%N xs) [:: 1%N; k]) = (Base_List.prod (upd_nth ax 1%N xs) * k)%N.
    by rewrite prod_app /= -!multE; lia.
  have Hp : (0 < Base_List.prod (upd_nth ax 1%N xs))%coq_nat by apply: prod_upd_pos; [rewrite -Hn; exact/ltP|exact/ltP].
  have Hrk : (Base_List.prod (upd_nth ax 1%N xs) * k)%N <> 0%N by apply/eqP; rewrite muln_eq0 negb_or -!lt0n Hk0 andbT; apply/ltP.
  have EL : (pl_n r * k)%N = Nat.mul (blockdist (List.nth ax sh 0%N) size r).1 (Base_List.prod (upd_nth ax 1%N xs) * k)%N by rewrite Em -mulnA.
  rewrite Hr0 (introF (Nat.eqb_spec _ _) Hrk) EL Nat.mod_mul // Nat.div_mul //=.
  rewrite /sh upd_app_l; last exact/ltP.
  by rewrite -[cat _ [:: k]]/(List.app _ [:: k]) List.app_assoc_reverse.
cbn [bind]; congr Ok.
have -> : List.app xs [:: 1%N; k] = List.app sh [:: k] by rewrite /sh List.app_assoc_reverse.
have Hn' : n = Base_List.prod sh by rewrite Hn /sh prod_app /=; lia.
apply: (@modes_file _ n size sh ax (@pl_n C ls) pown Hn') => //.
- by move=> r; rewrite pownE; apply: Hids.
- by move=> r i j; rewrite mxE.
Qed.
Lemma pl_file_serial xs ax : n = Base_List.prod xs -> size = 1%N -> ids 0 = List.seq 0 n ->
  pl_file eig longtime nt k ls false xs 1 ax = Ok (Nd (List.app xs (cons 1%N (cons k nil))) (ravel smodes)).
Proof.
move=> Hn H1 H0; rewrite /pl_file.
rewrite (@all_ok_map _ _ _ (fun r : 'I_size => Nd (List.app xs [:: 1%N; k]) (ravel (lmodes r)))); last first.
  move=> r _; rewrite /set_shape pl_phiE ravel_length.
  have -> : (pl_n r * k)%N = Base_List.prod (List.app xs [:: 1%N; k]).
    rewrite pl_nE; have -> : ids r = ids 0%N by have := ltn_ord r; rewrite {2}H1; case: (val r).
    by rewrite H0 List.seq_length prod_app /= -Hn -!multE; lia.
  by rewrite Nat.eqb_refl.
cbn [bind]; congr Ok.
have : (0 < seq.size (enum 'I_size))%N by rewrite size_enum_ord.
case: (enum 'I_size) => //= r _ _; congr Nd.
rewrite [RHS]ravel_rows -H0.
have Er : ids 0 = ids r by have := ltn_ord r; rewrite {2}H1; case: (val r).
rewrite Er -(pownE r) -[map _ _]/(List.map _ _) flat_map_map; apply: flat_map_ext' => i; rewrite rowlist_val.
by apply: List.map_ext => j; rewrite mxE.
Qed.
End Assemble.

(* ---- from the caller's datasets ---- *)
Section Datasets.
Variables (C : numClosedFieldType).
Variable eig : forall n, 'M[C]_n -> 'rV[C]_n * 'M[C]_n.
Variables (A : Type) (cast : A -> C) (longtime : bool) (ds : list (nd A)) (xs : list nat) (xdim : nat) (user : weights_arg C) (ax : nat).
Hypothesis Hwf : well_formed ds.
Hypothesis Hne : ds <> nil.
Hypothesis Hrows : forall d, List.In d ds -> (0 < List.hd 0%N (Model_Parallel.shape d))%N.
Hypothesis Hgrid : forall d, List.In d ds -> List.tl (Model_Parallel.shape d) = xs.
Hypothesis Hxd : length xs <> (xdim + 1)%N.
Hypothesis Hpos : (0 < Base_List.prod xs)%N.
Hypothesis Hax : argmax xs = Ok ax.
Hypothesis Hw : weights_ok user xs 1.
Let rec := List.map (List.map cast) (record ds).
Let W := weights_of 1 user xs 1.
Let sh := List.app xs (cons 1%N nil).
Lemma gather_localE cm l : comm_ok cm -> l <> nil -> (forall d, List.In d l -> List.In d ds) ->
  gather_local cast cm l = Ok (List.map (fun row => List.map cast (local_piece xs ax cm row)) (record l), ax).
Proof.
move=> Hcm; elim: l => // d l IH _ Hin.
have Hd := Hin d (or_introl erefl); have [Hwd Hsd] := Hwf Hd.
have Es : Model_Parallel.shape d = List.hd 0%N (Model_Parallel.shape d) :: xs by have := Hgrid Hd; case: (Model_Parallel.shape d) Hsd => //= a l' _ ->.
have [d' [E [En Er]]] := @distribute_data_rows _ d _ xs ax cm Hcm Hwd Es (elimT ltP (Hrows Hd)) Hax.
have Hs' : Model_Parallel.shape d' <> nil by move=> E'; move: En; rewrite /nrows E' /= => E0; have := Hrows Hd; rewrite -E0.
have Er' : snapshots d' = List.map (local_piece xs ax cm) (snapshots d) by rewrite -(rows_snapshots _ Hs') Er rows_snapshots.
have Hrec : record (d :: l) = List.app (snapshots d) (record l) by [].
rewrite /= E; cbn [bind].
case: l IH Hin Hrec => [|d2 l] IH Hin Hrec.
  by rewrite /= Er' Hrec !List.app_nil_r List.map_map.
rewrite IH //; last by move=> x Hx; apply: Hin; right.
by cbn [bind fst snd]; rewrite Er' Hrec List.map_app List.map_map.
Qed.
Lemma pod_rankE cm : comm_ok cm ->
  pod_rank cast ds xdim 1 user cm
  = Ok (PLocal (length (axis_ids sh ax cm)) (List.map (picks 0 (axis_ids sh ax cm)) rec) (picks 0 (axis_ids sh ax cm) W), (xs, length rec, ax)).
Proof.
move=> Hcm.
have [Hlt _] := argmax_spec _ Hax.
have Hg := gather_localE Hcm Hne (fun d H => H).
have Hlt' : (ax < length sh)%coq_nat by rewrite /sh List.app_length /=; lia.
have Hids : axis_ids xs ax cm = axis_ids sh ax cm by apply: (@axis_ids_shape _ ds xs xs 1 (or_intror (conj erefl erefl)) Hgrid) => //; [by move=> E; move: Hlt; rewrite E /=; lia|exact/ltP].
have Erows : List.map (fun row => List.map cast (local_piece xs ax cm row)) (record ds) = List.map (picks 0 (axis_ids sh ax cm)) rec.
  rewrite /rec List.map_map; apply: List.map_ext_in => row Hrow.
  rewrite -local_piece_map // (@local_piece_pick _ 0) // ?Hids //.
  by rewrite List.map_length (@record_row_length _ ds xs row).
rewrite Erows in Hg; rewrite /pod_rank.
have Hne' : rec <> nil.
  rewrite /rec => /(f_equal (@length _)); rewrite List.map_length record_length /=.
  case: (ds) Hne Hrows => // d l _ H; have := H d (or_introl erefl); rewrite /=; case: (List.hd _ _) => //.
have Hlrec : length rec = length (record ds) by rewrite /rec List.map_length.
case Eds: ds Hne => [//|first rest] _.
have Hf : List.In first ds by rewrite Eds; left.
have Es : Model_Parallel.shape first = List.hd 0%N (Model_Parallel.shape first) :: xs.
  have [_ Hsd] := Hwf Hf; have := Hgrid Hf; by case: (Model_Parallel.shape first) Hsd => //= a l' _ ->.
have -> : Nat.eqb (List.hd 0%N (Model_Parallel.shape first)) 0 = false by have := Hrows Hf; case: (List.hd _ _).
rewrite {1}Es xshape_one //; cbn [bind].
rewrite -Eds pod_check_ok //.
cbn [bind]; rewrite -Hlrec define_weights_eq // Hg; cbn [bind].
have Em : length (List.hd nil (List.map (picks 0 (axis_ids sh ax cm)) rec)) = length (axis_ids sh ax cm).
  by case: (rec) Hne' => //= row l _; rewrite pick_length.
rewrite Em.
have HW := @rank_weights_array _ 1 0 user xs 1 ax cm (Array (cons (picks 0 (axis_ids sh ax cm) nil) nil)) (cons (picks 0 (axis_ids sh ax cm) nil) nil) (length (axis_ids sh ax cm)) Hw Hlt' Hcm erefl (ltac:(done)).
move: HW; rewrite /rank_weights /= pick_length /initialize_weights define_weights_eq //=.
move=> -> //.
by move=> row [<-|//]; rewrite pick_length.
Qed.
Variable k : nat.
Hypothesis Hk : (k <= length rec)%N.
Lemma pod_fit_gen np : match np with Some size => (0 < size)%N /\ (0 < k)%N | None => True end ->
  pod_fit_array eig cast longtime ds xdim 1 user k np
  = Ok (List.map (fun j => pod_w (size := 1) (fun _ (i : 'I_(Base_List.prod xs)) => i) (@pw C _ W) (@prec C _ rec) longtime (@eig _) 0 j) (enum 'I_(length rec)),
        Nd (List.app xs (cons 1%N (cons k nil))) (ravel (@smodes C (Base_List.prod xs) rec W eig longtime k Hk))).
Proof.
move=> Hnp; rewrite /pod_fit_array.
have [Hlt _] := argmax_spec _ Hax.
have Hlt' : (ax < length sh)%N by apply/ltP; rewrite /sh List.app_length /=; lia.
have Hpr : Base_List.prod sh = Base_List.prod xs by rewrite /sh prod_app /=; lia.
pose G cm := (PLocal (length (axis_ids sh ax cm)) (List.map (picks 0 (axis_ids sh ax cm)) rec) (picks 0 (axis_ids sh ax cm) W), (xs, length rec, ax)).
case: np Hnp => [size [Hs Hk0]|_].
- rewrite (@all_ok_map _ _ _ G); last by move=> cm /List.in_map_iff [r [<- /List.in_seq [_ Hr]]]; apply: pod_rankE.
  cbn [bind comms].
  have -> : List.hd (pl_none C, (nil, 0%N, 0%N)) (List.map G (List.map (fun r => Some (size, r)) (List.seq 0 size))) = G (Some (size, 0%N)) by case: (size) Hs.
  rewrite [snd _]/= [List.map fst _]List.map_map [List.map _ (List.map _ (List.seq _ _))]List.map_map; cbn [fst snd G].
  set ls := List.map _ (List.seq 0 size).
  have Hlen : length ls = size by rewrite /ls List.map_length List.seq_length.
  pose ids := owned sh ax size.
  have Hp : Permutation (List.concat (List.map ids (List.seq 0 (length ls)))) (List.seq 0 (Base_List.prod xs)).
    by rewrite Hlen -Hpr; apply: owned_perm.
  have Hls r : (r < length ls)%N -> List.nth r ls (pl_none C) = PLocal (length (ids r)) (List.map (picks 0 (ids r)) rec) (picks 0 (ids r) W).
    by rewrite Hlen => /ltP Hr; rewrite /ls (nth_map_seq0 _ _ Hr) /G /fst /ids -(@axis_ids_owned xs 1%N ax size r Hlt').
  have Hs' : (0 < length ls)%N by rewrite Hlen.
  rewrite (pl_eigsE eig longtime k Hp Hls).
  rewrite (@pl_file_par _ _ rec W ids eig longtime k ls Hp Hls Hs' Hk xs ax Hk0 erefl Hpos (introT ltP Hlt)); last by move=> r _; rewrite Hlen.
  by [].
- cbn [comms List.map all_ok]; rewrite (pod_rankE (cm := None) I); cbn [bind all_ok List.map List.hd fst snd].
  set ls := [:: _].
  pose ids (r : nat) := List.seq 0 (Base_List.prod sh).
  have Hp : Permutation (List.concat (List.map ids (List.seq 0 (length ls)))) (List.seq 0 (Base_List.prod xs)).
    by rewrite /= List.app_nil_r /ids Hpr.
  have Hls r : (r < length ls)%N -> List.nth r ls (pl_none C) = PLocal (length (ids r)) (List.map (picks 0 (ids r)) rec) (picks 0 (ids r) W).
    by case: r.
  rewrite (pl_eigsE eig longtime k Hp Hls).
  by rewrite (@pl_file_serial _ _ rec W ids eig longtime k ls Hp Hls isT Hk xs ax erefl erefl) // /ids Hpr.
Qed.
End Datasets.
