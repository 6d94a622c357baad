(* Property theorems C165: the weights and the long-time mean stored by a fit, and who can use them. *)
From Coq Require Import QArith.
From Verif Require Import Base_List Model_Parallel Model_Reader1 Model_Reader2 Model_Select Model_Base Model_Standard Model_Pipeline Spec_Array Spec_Reader Spec_Reader2
  Proof_Parallel Proof_Npy2 Proof_Reader1 Proof_Reader1b Proof_Reader2b Proof_Pipeline Prop_Sizes Proof_StoreFiles.
From Coq Require Import Lia Sorting.Permutation List.
Import ListNotations.
Local Open Scope nat_scope.

(* when the processes cut unequal shares of n1 points and of an axis of N points with inner points each *)
Lemma uneven N inner size : 0 < size -> 2 <= inner -> N mod size <> 0 ->
  exists r, r < size /\ bd_n N size r * inner <> bd_n (N * inner) size r.
Proof.
  intros Hs Hi Hr. set (q := N / size). set (p := N mod size) in *.
  assert (EN : N = q * size + p) by (unfold q, p; rewrite (Nat.div_mod N size) at 1; lia).
  assert (Hp : p < size) by (apply Nat.mod_upper_bound; lia).
  set (Q := (N * inner) / size). set (P := (N * inner) mod size).
  assert (EQ : N * inner = Q * size + P) by (unfold Q, P; rewrite (Nat.div_mod (N * inner) size) at 1; lia).
  assert (HP : P < size) by (apply Nat.mod_upper_bound; lia).
  assert (E0 : bd_n N size 0 = q + 1).
  { rewrite bd_n_eq by lia. fold q p. destruct (Nat.ltb_spec 0 p); lia. }
  assert (E1 : bd_n N size (size - 1) = q).
  { rewrite bd_n_eq by lia. fold q p. destruct (Nat.ltb_spec (size - 1) p); lia. }
  assert (F0 : bd_n (N * inner) size 0 <= Q + 1) by (rewrite bd_n_eq by lia; fold Q P; destruct (0 <? P); lia).
  assert (F1 : bd_n (N * inner) size (size - 1) = Q).
  { rewrite bd_n_eq by lia. fold Q P. destruct (Nat.ltb_spec (size - 1) P); lia. }
  destruct (Nat.eq_dec ((q + 1) * inner) (bd_n (N * inner) size 0)) as [D|D]; [|exists 0; rewrite E0; auto].
  exists (size - 1). split; [lia|]. rewrite E1, F1. intros D1.
  assert (Q = q * inner) by lia. nia.
Qed.
(* the number of entries a process cuts out of the axis ax of the record, and of the flattened weights *)
Definition data_share (sp : list nat) (ax size r : nat) : nat := Base_List.prod (upd_nth ax (bd_n (nth ax sp 0) size r) sp).
Definition weight_share (n1 nv ax size r : nat) : nat := Base_List.prod (upd_nth ax (bd_n (nth ax [n1; nv] 0) size r) [n1; nv]).
Definition unusable (sp : list nat) (n1 nv ax size : nat) : Prop :=
  2 <= ax \/ (ax = 1 /\ nv < size <= nth 1 sp 0) \/ (ax = 0 /\ 2 * nv <= Base_List.prod (tl sp) /\ nth 0 sp 0 mod size <> 0).
Lemma unusable_shares sp n1 nv ax size : 0 < size -> 0 < nv -> 0 < Base_List.prod sp -> ax < length sp -> (n1 * nv = Base_List.prod sp)%nat ->
  (exists inner, Base_List.prod (tl sp) = inner * nv) \/ ax <> 0 ->
  unusable sp n1 nv ax size -> ax < 2 -> exists r, r < size /\ data_share sp ax size r <> weight_share n1 nv ax size r.
Proof.
  intros Hs Hv Hp Hax E Hin Hu H2. destruct Hu as [Hu|[[-> [Hu1 Hu2]]|[-> [Hu1 Hu2]]]]; [lia| |].
  - exists (size - 1). split; [lia|]. unfold data_share, weight_share. destruct (@prod_axis 1 sp (bd_n (nth 1 sp 0) size (size - 1)) Hax) as [-> E2].
    assert (Z1 : bd_n nv size (size - 1) = 0) by (rewrite bd_n_eq by lia; rewrite Nat.div_small, Nat.mod_small by lia; destruct (Nat.ltb_spec (size - 1) nv); lia).
    assert (Z2 : 0 < bd_n (nth 1 sp 0) size (size - 1)).
    { rewrite bd_n_eq by lia. assert (1 <= nth 1 sp 0 / size) by (apply Nat.div_le_lower_bound; lia). lia. }
    cbn [upd_nth nth]. rewrite Z1. cbn [Base_List.prod fold_right]. rewrite E2 in Hp. nia.
  - destruct sp as [|N tl']; [cbn in Hax; lia|]. cbn [tl nth] in *. destruct Hin as [[inner Hin]|Hin]; [|lia].
    cbn [Base_List.prod fold_right] in E. fold (Base_List.prod tl') in E.
    assert (2 <= inner) by nia.
    assert (En : n1 = N * inner) by nia.
    destruct (@uneven N inner size Hs H Hu2) as (r & Hr & D). exists r. split; [exact Hr|]. unfold data_share, weight_share. cbn [upd_nth nth].
    cbn [Base_List.prod fold_right]. fold (Base_List.prod tl'). rewrite Hin, En. intros X. apply D. nia.
Qed.

Lemma inner_exists xs nv sp ax n1 size : sp = xs ++ [nv] \/ nv = 1 /\ sp = xs -> 0 < nv -> unusable sp n1 nv ax size ->
  (exists inner, Base_List.prod (tl sp) = inner * nv) \/ ax <> 0.
Proof.
  intros [->|[-> ->]] Hv Hu.
  - destruct xs as [|x xs].
    + destruct Hu as [Hu|[[-> _]|[-> [Hu _]]]]; [right; lia|right; lia|]. cbn in Hu. lia.
    + left. exists (Base_List.prod xs). cbn [app tl]. rewrite prod_app. cbn [Base_List.prod fold_right]. lia.
  - left. exists (Base_List.prod (tl xs)). lia.
Qed.

(* equal shares *)
Lemma even_share k q size r : 0 < size -> r < size -> blockdist (q * size * k) size r = (q * k, r * (q * k)).
Proof.
  intros Hs Hr. unfold blockdist. replace (q * size * k) with (q * k * size) by lia. rewrite Nat.div_mul, Nat.mod_mul by lia.
  rewrite (proj2 (Nat.ltb_lt r size) Hr). cbn [Nat.ltb Nat.leb]. rewrite Nat.min_0_r. f_equal; lia.
Qed.
Lemma table_share A (w : list A) q size rest nv r : 0 < size -> r < size ->
  exists a b, distribute_dimension (Nd [q * size * Base_List.prod rest; nv] w) 0 (Some (size, r)) = Ok a
    /\ distribute_dimension (Nd (q * size :: rest ++ [nv]) w) 0 (Some (size, r)) = Ok b /\ flat a = flat b.
Proof.
  intros Hs Hr. unfold distribute_dimension. cbn [shape length Nat.ltb Nat.leb nth].
  rewrite (even_share (Base_List.prod rest) q size r Hs Hr). pose proof (even_share 1 q size r Hs Hr) as E. rewrite Nat.mul_1_r in E. rewrite E.
  do 2 eexists. split; [reflexivity|]. split; [reflexivity|]. unfold slice_axis, slice_flat. cbn [flat shape firstn skipn nth Base_List.prod fold_right seq map].
  rewrite prod_app. cbn [Base_List.prod fold_right]. f_equal. f_equal. f_equal; lia.
Qed.

From mathcomp Require Import all_ssreflect all_algebra.
From Verif Require Import Model_Spod Model_SpodPar Model_PipelineNum Proof_PipelineNum Proof_PipelineFit Prop_Pipeline Model_Coeffs Model_PipelineCoef Proof_PipelineCoef
  Model_StoreFiles.
Set Implicit Arguments.
Unset Strict Implicit.
Unset Printing Implicit Defensive.
Import Order.TTheory GRing.Theory Num.Theory.
Local Open Scope ring_scope.

(* the long-time mean of the record: for every entry the average over all snapshots *)
Definition long_time_mean (C : numClosedFieldType) (n : nat) (rec : list (list C)) : list C :=
  List.map (fun i => (\sum_(row <- rec) List.nth i row 0) / (length rec)%:R) (List.seq 0 n).

(* In-memory data, any number of processes, any type of mean: weights.npy holds the weights on the grid and ltm_modes.npy the long-time mean of the
   record (also when the mean that is subtracted is zero or that of the block). *)
Theorem C165_stored_arrays : forall (C : numClosedFieldType) (A : Type) (cast : A -> C) isreal s ds xs nv user np,
  valid_arrays s ds xs nv user np ->
  store_array cast isreal s ds (length xs) nv user np
  = Ok (Nd (List.app xs [:: nv]) (weights_of 1 user xs nv),
        Nd (List.app xs [:: nv]) (long_time_mean (Base_List.prod (List.app xs [:: nv])) (List.map (List.map cast) (record ds)))).
Proof.
move=> C A cast isreal s ds xs nv user np [sp [ax [nb [[H1 H2 H3 H4 H5] [[H6 H7 H8 H9 H10] [H11 H12]]]]]].
apply: (@store_datasets C A cast isreal s ds xs sp nv user ax H1 H2 H3 H4 H5 H6 H7 H8 H10 nb H9 H11).
by case: (np) H12 => [size []|].
Qed.
Print Assumptions C165_stored_arrays.
(* netCDF files: the same values, but as a table of points and variables *)
Theorem C165_stored_netcdf : forall (C : numClosedFieldType) s xs nv real fs names user size nreaders ver nchunks nblks orders order2,
  @valid_files C s xs nv fs names user size nreaders ver nchunks nblks orders order2 ->
  store_files s xs nv real fs names user size nreaders ver nchunks nblks orders
  = Ok (Nd [:: Base_List.prod xs; nv] (weights_of 1 user xs nv),
        Nd [:: Base_List.prod xs; nv] (long_time_mean (Base_List.prod (List.app xs [:: nv])) (nc_record 0 (Base_List.prod xs) fs names))).
Proof.
move=> C s xs nv real fs names user size nreaders ver nchunks nblks orders order2 [nb [[H1 H2 H3 [H4 H5] H6] [[H7 H8 H9 H10 H11] [[H12 H13 H14] H15]]]].
exact: (@store_netcdf C s xs nv real fs names user size nreaders ver nchunks nblks orders H1 H2 H3 H4 H5 H6 H7 H8 H10 H11 H12 nb H15).
Qed.
Print Assumptions C165_stored_netcdf.

(* a results folder with other weights *)
Definition with_weights (C : Type) (fo : folder C) (w : nd C) : folder C := Folder (rf_xdim fo) (rf_nv fo) (rf_freq fo) (rf_nfreq fo) (rf_nm fo) w (rf_modes fo).
(* One process without communicator does not notice the difference: the coefficients, the stored modes and the stored mean depend on the values of
   weights.npy only, not on its shape. *)
Theorem C165_serial_coefficients_from_a_table : forall (C : numClosedFieldType) svd (tol : C) (A : Type) (cast : A -> C) fo T_lb T_ub freq_idx data sh1 sh2 w,
  coef_array svd tol cast (with_weights fo (Nd sh1 w)) T_lb T_ub freq_idx data None = coef_array svd tol cast (with_weights fo (Nd sh2 w)) T_lb T_ub freq_idx data None.
Proof. by []. Qed.
Print Assumptions C165_serial_coefficients_from_a_table.

Lemma no_result (X Y : Type) (f : X -> res Y) l x e : List.In x l -> f x = Err e -> forall ys, all_ok (List.map f l) <> Ok ys.
Proof.
elim: l => [|y l IH] //= [->|Hin] Hx ys; first by rewrite Hx.
by case: (f y) => //= z; case E: (all_ok _) => [zs|] //=; move: (IH Hin Hx zs); rewrite E.
Qed.
Lemma rows_entries (A : Type) (d : nd A) nt sh : wf d -> Model_Parallel.shape d = cons nt sh -> length (flat d) = Nat.mul nt (Base_List.prod sh).
Proof. by rewrite /wf => -> ->. Qed.

(* On several processes the table that a fit of netCDF files leaves cannot be used to compute coefficients of the same record held in memory, whenever
   the longest axis of a snapshot is not the first one but the third or later; or is the second one and there are more processes than variables; or is
   the first one, with at least two points at every position of it, and its length is not a multiple of the number of processes. *)
Theorem C165_parallel_coefficients_from_a_table_refuted : forall (C : numClosedFieldType) svd (tol : C) (A : Type) (cast : A -> C) fo T_lb T_ub freq_idx
    (data : nd A) nt xs sp nv ax w size,
  wf data -> Model_Parallel.shape data = cons nt sp -> (0 < nt)%N -> sp = List.app xs [:: nv] \/ nv = 1%N /\ sp = xs -> (0 < Base_List.prod sp)%N ->
  argmax sp = Ok ax -> (0 < size)%N ->
  let n1 := Base_List.prod xs in length w = (n1 * nv)%N -> unusable sp n1 nv ax size ->
  forall r, coef_array svd tol cast (with_weights fo (Nd [:: n1; nv] w)) T_lb T_ub freq_idx data (Some size) <> Ok r.
Proof.
move=> C svd tol A cast fo T_lb T_ub freq_idx data nt xs sp nv ax w size Hwf Hsh /ssrnat.ltP Hnt Hsp /ssrnat.ltP Hp Hax /ssrnat.ltP Hs n1 Hlw Hu r.
have [Hlt _] := argmax_spec _ Hax.
have Ep : Nat.mul n1 nv = Base_List.prod sp by case: Hsp => [->|[-> ->]]; rewrite ?prod_app /= ?PeanoNat.Nat.mul_1_r // -/n1 PeanoNat.Nat.mul_1_r.
have Hv : (0 < nv)%coq_nat by case: (nv) Ep Hp => [|k]; [rewrite PeanoNat.Nat.mul_0_r => <-|]; lia.
rewrite /coef_array; case: (select_freqs _ _ _ _ _) => // s /=; case: (alloc_coeffs _ _ _) => //= _.
suff [rk [Hrk [e He]]] : exists rk, (rk < size)%coq_nat /\ exists e, coef_rank cast (with_weights fo (Nd [:: n1; nv] w)) s data (Some (size, rk)) = Err e.
  case E: (all_ok _) => [ls|] //=; case: (@no_result _ _ _ _ _ e _ He ls E).
  by apply/List.in_map_iff; exists rk; split=> //; apply/List.in_seq; split; [lia|].
case: (PeanoNat.Nat.lt_ge_cases ax 2) => [Hax2|Hax2]; last first.
  exists 0%N; split=> //; have [d' [Ed _]] := @distribute_data_all _ data nt sp ax (Some (size, 0%N)) Hs Hwf Hsh Hnt Hax.
  rewrite /coef_rank Ed /= /distribute_dimension /=.
  have -> : Nat.ltb ax 2 = false by apply/PeanoNat.Nat.ltb_ge.
  by exists IndexError.
have Hin := @inner_exists xs nv sp ax n1 size Hsp Hv Hu.
have [rk [Hrk D]] := @unusable_shares sp n1 nv ax size Hs Hv Hp Hlt Ep Hin Hu Hax2.
exists rk; split=> //; exists ValueError.
have [d' [Ed [Hwd [Hsd _]]]] := @distribute_data_all _ data nt sp ax (Some (size, rk)) Hrk Hwf Hsh Hnt Hax.
rewrite /coef_rank Ed; cbn [bind]; rewrite [rf_weights _]/= distribute_dimension_piece //; cbn [bind].
rewrite (rows_entries Hwd Hsd) Hsh [List.hd _ _]/=.
have -> : length (flat (piece ax size (Nd [:: n1; nv] w) rk)) = weight_share n1 nv ax size rk.
  have Hwp : wf (piece ax size (Nd [:: n1; nv] w) rk).
    refine (proj1 (slice_axis_spec _ _ _ _ _)); rewrite /wf //=; last exact: bd_fits.
    by rewrite Hlw PeanoNat.Nat.mul_1_r.
  by rewrite Hwp.
have -> : Nat.eqb (Nat.mul nt (Base_List.prod (upd_nth ax (blockdist (List.nth ax sp 0%N) size rk).1 sp))) (Nat.mul nt (weight_share n1 nv ax size rk)) = false.
  by apply/PeanoNat.Nat.eqb_neq => E; apply: D; rewrite /data_share /bd_n; move: E; clear -Hnt; nia.
by [].
Qed.
Print Assumptions C165_parallel_coefficients_from_a_table_refuted.

(* In the remaining case several processes can use it: the longest axis of a snapshot of the data is the first one and the number of processes divides the
   length of the first axis of the grid.  The table then gives what the same weights give in their own shape. *)
Theorem C165_parallel_coefficients_from_a_table_even : forall (C : numClosedFieldType) svd (tol : C) (A : Type) (cast : A -> C) fo T_lb T_ub freq_idx
    (data : nd A) N rest nv w size,
  argmax (List.tl (Model_Parallel.shape data)) = Ok 0%N -> (0 < size)%N -> (size %| N)%N ->
  coef_array svd tol cast (with_weights fo (Nd [:: Base_List.prod (N :: rest); nv] w)) T_lb T_ub freq_idx data (Some size)
  = coef_array svd tol cast (with_weights fo (Nd (List.app (N :: rest) [:: nv]) w)) T_lb T_ub freq_idx data (Some size).
Proof.
move=> C svd tol A cast fo T_lb T_ub freq_idx data N rest nv w size Hax /ssrnat.ltP Hs /dvdnP [q ->].
have Hr s rk : (rk < size)%coq_nat -> coef_rank cast (with_weights fo (Nd [:: Base_List.prod ((q * size)%N :: rest); nv] w)) s data (Some (size, rk))
    = coef_rank cast (with_weights fo (Nd (List.app ((q * size)%N :: rest) [:: nv]) w)) s data (Some (size, rk)).
  move=> Hrk; rewrite /coef_rank; case E: (distribute_data _ _) => [[[d ax] g]|] //; cbn [bind].
  have Eax : ax = 0%N.
    move: E Hax; rewrite /distribute_data; case: (Model_Parallel.shape data) => [|[|n] sp] //= H1 H2.
    by move: H1; rewrite H2; cbn [bind]; case: (if _ then _ else _) => //= ? [_ <- _].
  have [a [b [Ea [Eb Eab]]]] := @table_share _ w q size rest nv rk Hs Hrk.
  rewrite Eax [rf_weights _]/= [X in bind (distribute_dimension X _ _)]/= Ea; cbn [bind].
  rewrite [rf_weights (with_weights _ _)]/= [X in bind (distribute_dimension X _ _)]/= Eb; cbn [bind].
  by rewrite Eab.
rewrite /coef_array; case: (select_freqs _ _ _ _ _) => //= s; case: (alloc_coeffs _ _ _) => //= _.
by congr (bind (all_ok _) _); apply: List.map_ext_in => cm /List.in_map_iff [rk [<- /List.in_seq [_ Hrk]]]; exact: Hr.
Qed.
Print Assumptions C165_parallel_coefficients_from_a_table_even.

Section Nonvacuous.
Variable C : numClosedFieldType.
(* the hypotheses of the last theorem: two snapshots on grids of 3 x 2, 2 x 3 and 2 x 2 x 3 points, two processes *)
Let data xs : nd C := Nd (2%N :: List.app xs [:: 1%N]) (List.repeat 0 (2 * Base_List.prod xs)).
Let w xs : list C := List.repeat 1 (Base_List.prod xs).
Example C165_nonvacuous : forall xs ax, List.In (xs, ax) [:: ([:: 3; 2], 0); ([:: 2; 3], 1); ([:: 2; 2; 3], 2)]%N ->
  [/\ wf (data xs), argmax (List.app xs [:: 1%N]) = Ok ax, (0 < Base_List.prod (List.app xs [:: 1%N]))%N, length (w xs) = (Base_List.prod xs * 1)%N
    & unusable (List.app xs [:: 1%N]) (Base_List.prod xs) 1 ax 2].
Proof.
move=> xs ax /= [[<- <-]|[[<- <-]|[[<- <-]|//]]]; split=> //; rewrite /unusable /=.
- by right; right; split; [|split; [lia|]].
- by right; left; split; [|split; lia].
- by left; lia.
Qed.
(* of the one on equal shares: a grid of 4 x 2 points, one, two or four processes; and the two tables of weights are then really cut *)
Example C165_even_nonvacuous : forall size, List.In size [:: 1; 2; 4]%N ->
  [/\ argmax (List.tl (Model_Parallel.shape (data [:: 4; 2]%N))) = Ok 0%N, (0 < size)%N, (size %| 4)%N &
      forall r, (r < size)%N -> exists a, distribute_dimension (Nd [:: 8; 1]%N (w [:: 4; 2]%N)) 0 (Some (size, r)) = Ok a /\ length (flat a) = (8 %/ size)%N].
Proof. by move=> size /= [<-|[<-|[<-|//]]]; split=> // -[|[|[|[|r]]]] // _; eexists. Qed.
(* the hypotheses of the first two theorems are those of C121 and C122 *)
Example C165_fits_nonvacuous np : np \in [:: None; Some 1%N; Some 2%N] ->
  (exists w m, store_array (fun x : C => x) (fun _ => true) (ex_settings C) (ex_ds C) 1 1 NoWeights np = Ok (w, m)) /\
  (exists w m, store_files (ex_settings C) [:: 4%N] 1 true (ex_fs C) [:: 0%N; 1%N] NoWeights 2 None 3 2 2 (fun _ _ => [:: 1; 0]%N) = Ok (w, m)).
Proof.
move=> Hnp; split.
- by rewrite (C165_stored_arrays (fun x : C => x) (fun _ => true) (C121_nonvacuous C Hnp)); do 2!eexists.
- by rewrite (C165_stored_netcdf true (C122_nonvacuous C)); do 2!eexists.
Qed.
End Nonvacuous.
