From Coq Require Import QArith.
From Verif Require Import Base_List Model_Parallel Model_Reader1 Model_Reader2 Model_Select Model_Base Model_Standard Model_Pipeline Spec_Array Spec_Reader Spec_Reader2
  Proof_Parallel Proof_Npy2 Proof_Reader1 Proof_Reader1b Proof_SliceMap Proof_Pipeline Prop_Select.
From Coq Require Import Sorting.Permutation.
Local Open Scope nat_scope.
(* ---- lists only ---- *)
Lemma upd_app_l' (l l' : list nat) ax n : ax < length l -> upd_nth ax n (l ++ l') = upd_nth ax n l ++ l'.
Proof.
  revert ax. induction l as [|x l IH]; intros ax H; cbn [length] in H; [lia|].
  destruct ax as [|ax]; cbn [upd_nth app]; [reflexivity|]. f_equal. apply IH. lia.
Qed.
(* what one process cuts out of the record: shape and rows *)
Lemma distribute_data_all {A} (d : nd A) nt sp ax c : comm_ok c -> wf d -> shape d = nt :: sp -> 0 < nt -> argmax sp = Ok ax ->
  exists d', distribute_data d c = Ok (d', ax, sp) /\ wf d' /\
    shape d' = nt :: match c with None => sp | Some (size, rank) => upd_nth ax (fst (blockdist (nth ax sp 0) size rank)) sp end /\
    rows d' = map (local_piece sp ax c) (rows d).
Proof.
  intros Hc Hwf Hs Hnt Hax. destruct (@distribute_data_rows _ _ _ _ _ c Hc Hwf Hs Hnt Hax) as (d' & E & En & Er).
  exists d'. split; [exact E|]. destruct (argmax_spec _ Hax) as (Hlt & _ & _).
  unfold distribute_data in E. rewrite Hs, Hax in E. destruct nt as [|nt']; [lia|]. cbn [bind] in E.
  destruct c as [[size rank]|].
  - rewrite distribute_dimension_piece in E by (rewrite Hs; cbn; lia). cbn [bind] in E. assert (Ed : d' = piece (S ax) size d rank) by congruence. subst d'. clear E.
    assert (Hsh : shape (piece (S ax) size d rank) = S nt' :: upd_nth ax (fst (blockdist (nth ax sp 0) size rank)) sp).
    { unfold piece. unfold slice_axis, bd_n; cbn [Model_Parallel.shape]; rewrite Hs; reflexivity. }
    split; [|split; [exact Hsh|exact Er]].
    unfold piece, bd_s, bd_n. rewrite Hs. cbn [nth].
    assert (Hax' : S ax < length (shape d)) by (rewrite Hs; cbn; lia).
    pose proof (@bd_fits (nth ax sp 0) size rank Hc) as F. unfold bd_s, bd_n in F.
    refine (proj1 (slice_axis_spec _ _ Hwf Hax' _)). rewrite Hs. cbn [nth]. exact F.
  - cbn in E. injection E as <-. split; [exact Hwf|]. split; [exact Hs|exact Er].
Qed.
Lemma window_rows {A} (a : nd A) nt : shape a <> [] -> hd 0 (shape a) = nt -> forall m, rowlen a = m ->
  map (fun t => window (t * m) m (flat a)) (seq 0 nt) = rows a.
Proof. intros _ <- m <-. unfold rows, nrows. now destruct (shape a). Qed.
(* an array with k entries per grid point *)
Definition point_row {A} (zero : A) (k : nat) (l : list A) (i : nat) : list A := map (fun j => nth (i * k + j) l zero) (seq 0 k).
Lemma nth_skipn' {A} (d : A) l s k : nth k (skipn s l) d = nth (s + k) l d.
Proof. revert l. induction s as [|s IH]; intros l; [reflexivity|]. destruct l as [|x l]; [now destruct k|]. cbn. apply IH. Qed.
Lemma nth_firstn' {A} (d : A) l s k : k < s -> nth k (firstn s l) d = nth k l d.
Proof. revert l k. induction s as [|s IH]; intros l k H; [lia|]. destruct l as [|x l]; [now destruct k|]. destruct k; [reflexivity|]. cbn. apply IH. lia. Qed.
Lemma flat_points {A} (zero : A) n k l : length l = n * k -> flat_map (point_row zero k l) (seq 0 n) = l.
Proof.
  revert l. induction n as [|n IH]; intros l H; [now destruct l|].
  rewrite seq_S, flat_map_app. cbn [flat_map Nat.add]. rewrite app_nil_r.
  rewrite <- (firstn_skipn (n * k) l) at 3.
  assert (L1 : length (firstn (n * k) l) = n * k) by (rewrite firstn_length; lia).
  f_equal.
  - rewrite <- (IH (firstn (n * k) l)) at 1 by exact L1.
    assert (G : forall m, m <= n -> flat_map (point_row zero k l) (seq 0 m) = flat_map (point_row zero k (firstn (n * k) l)) (seq 0 m)).
    { intros m Hm. rewrite !flat_map_concat_map. f_equal. apply map_ext_in. intros i Hi. apply in_seq in Hi. unfold point_row. apply map_ext_in. intros j Hj. apply in_seq in Hj.
      rewrite nth_firstn'; [reflexivity|nia]. }
    apply G. lia.
  - unfold point_row. assert (L2 : length (skipn (n * k) l) = k) by (rewrite skipn_length; lia).
    apply nth_ext with (d := zero) (d' := zero); [now rewrite map_length, seq_length|].
    intros j Hj. rewrite map_length, seq_length in Hj. rewrite (nth_map_seq0 (fun j => nth (n * k + j) l zero)) by assumption. now rewrite nth_skipn'.
Qed.
Lemma point_row_length {A} (zero : A) k l i : length (point_row zero k l i) = k.
Proof. unfold point_row. now rewrite map_length, seq_length. Qed.
Lemma distribute_points {A} (zero : A) sh nm fl ax c : comm_ok c -> ax < length sh -> length fl = prod sh * nm ->
  exists a', distribute_dimension (Nd (sh ++ [nm]) fl) ax c = Ok a' /\ flat a' = flat_map (point_row zero nm fl) (axis_ids sh ax c).
Proof.
  intros Hc Hax Hl. destruct c as [[size r]|].
  - rewrite distribute_dimension_piece by (cbn; rewrite app_length; lia). eexists. split; [reflexivity|].
    rewrite <- (flat_points zero (prod sh) nm fl Hl) at 1.
    rewrite (@piece_rows _ _ (point_row zero nm fl) nm sh (seq 0 (prod sh)) ax size r) by (try assumption; intros; apply point_row_length).
    cbn [flat]. f_equal. unfold axis_ids, local_piece, piece, bd_s, bd_n. cbn [Model_Parallel.shape]. now destruct (blockdist _ _ _).
  - eexists. split; [reflexivity|]. cbn. unfold axis_ids, local_piece. now rewrite flat_points.
Qed.
Lemma distribute_one {A} (zero : A) sh wl ax c : comm_ok c -> ax < length sh -> length wl = prod sh ->
  exists a', distribute_dimension (Nd sh wl) ax c = Ok a' /\ flat a' = picks zero (axis_ids sh ax c) wl /\
    shape a' = match c with None => sh | Some (size, rank) => upd_nth ax (fst (blockdist (nth ax sh 0) size rank)) sh end.
Proof.
  intros Hc Hax Hl. destruct c as [[size r]|].
  - rewrite distribute_dimension_piece by (cbn; lia). eexists. split; [reflexivity|]. split; [|reflexivity].
    rewrite <- (@local_piece_pick _ zero sh ax (Some (size, r)) wl) by assumption.
    unfold local_piece, piece, bd_s, bd_n. cbn [Model_Parallel.shape]. now destruct (blockdist _ _ _).
  - eexists. split; [reflexivity|]. split; [|reflexivity]. rewrite <- (@local_piece_pick _ zero sh ax None wl) by assumption. reflexivity.
Qed.
Lemma nth_points {A} (zero : A) k fl ids i j : i < length ids -> j < k ->
  nth (i * k + j) (flat_map (point_row zero k fl) ids) zero = nth (nth i ids 0 * k + j) fl zero.
Proof.
  revert i. induction ids as [|x ids IH]; intros i Hi Hj; [cbn in Hi; lia|]. cbn [flat_map].
  destruct i as [|i]; cbn [nth].
  - cbn [Nat.mul Nat.add]. rewrite app_nth1 by now rewrite point_row_length. unfold point_row. now rewrite (nth_map_seq0 (fun j => nth (x * k + j) fl zero)) by assumption.
  - rewrite app_nth2; rewrite point_row_length; [|nia]. replace (S i * k + j - k) with (i * k + j) by lia. apply IH; [cbn in Hi; lia|assumption].
Qed.
Lemma points_length {A} (zero : A) k fl ids : length (flat_map (point_row zero k fl) ids) = length ids * k.
Proof. induction ids as [|x ids IH]; [reflexivity|]. cbn [flat_map length]. rewrite app_length, point_row_length, IH. lia. Qed.
(* the entries of column j *)
Lemma columns_points {A} (zero : A) k fl ids :
  map (fun j => map (fun i => nth (i * k + j) (flat_map (point_row zero k fl) ids) zero) (seq 0 (length ids))) (seq 0 k)
  = map (fun j => map (fun i => nth (i * k + j) fl zero) ids) (seq 0 k).
Proof.
  apply map_ext_in. intros j Hj. apply in_seq in Hj.
  apply nth_ext with (d := zero) (d' := zero); [now rewrite !map_length, seq_length|]. intros i Hi. rewrite map_length, seq_length in Hi.
  rewrite (nth_map_seq0 (fun i => nth (i * k + j) _ zero)) by assumption. rewrite nth_points by (try assumption; lia).
  set (g := fun i => nth (i * k + j) fl zero). change (g (nth i ids 0) = nth i (map g ids) zero). rewrite (nth_indep _ zero (g 0)) by now rewrite map_length. now rewrite map_nth.
Qed.
(* the columns put side by side by _get_modes *)
Lemma gathered_columns {A} (zero : A) (modes_at : nat -> option (list A)) nf nm freqs : 0 < nm -> freqs <> [] -> length freqs <= nf ->
  (forall f, In f freqs -> exists cols, modes_at f = Some cols /\ length cols = nm) ->
  exists phi, get_modes zero modes_at (Z.of_nat nf) freqs nm = Ok phi /\ length phi = nf * nm /\
    forall j, j < nf * nm -> nth j phi zero =
      match nth_error freqs (j / nm) with Some f => match modes_at f with Some cols => nth (j mod nm) cols zero | None => zero end | None => zero end.
Proof.
  intros Hn Hne Hl Hf. destruct (proj2 (@C55_success _ zero modes_at nf nm freqs Hn)) as [phi E]; [tauto|].
  exists phi. split; [exact E|]. destruct (@C55_gathering_order _ zero modes_at nf nm freqs phi Hn E) as (L & _ & H1 & H2). split; [exact L|].
  intros j Hj. pose proof (Nat.div_mod j nm ltac:(lia)) as Ej. pose proof (Nat.mod_upper_bound j nm ltac:(lia)) as Hm.
  destruct (nth_error freqs (j / nm)) as [f|] eqn:Ef.
  - destruct (H1 _ _ _ Ef Hm) as (cols & a & Ec & Ea & Ep). rewrite Ec. rewrite <- Ej in Ep. rewrite (nth_error_nth _ _ zero Ep). symmetry. exact (nth_error_nth _ _ zero Ea).
  - apply nth_error_None in Ef. apply (nth_error_nth _ _ zero). apply H2. split; [|exact Hj].
    rewrite Ej. nia.
Qed.
From mathcomp Require Import all_ssreflect all_algebra.
From Verif Require Import Model_Spod Spec_Spod Proof_Spod Model_SpodPar Proof_SpodPar Model_Coeffs Proof_StreamNum3 Proof_Coeffs Prop_Coeffs Model_PipelineNum Proof_PipelineNum Proof_PipelineFit Model_PipelineCoef.
Set Implicit Arguments.
Unset Strict Implicit.
Unset Printing Implicit Defensive.
Import GRing.Theory Num.Theory.
Local Open Scope ring_scope.

(* only the entries a process holds matter *)
Section Ext.
Variables (C : numClosedFieldType) (size n n' nt p : nat) (nloc : 'I_size -> nat).
Variables (own : forall r : 'I_size, 'I_(nloc r) -> 'I_n) (own' : forall r : 'I_size, 'I_(nloc r) -> 'I_n').
Variables (w : 'cV[C]_n) (w' : 'cV[C]_n') (Phi : 'M[C]_(n, p)) (Phi' : 'M[C]_(n', p)) (data : 'M[C]_(nt, n)) (data' : 'M[C]_(nt, n')).
Variable svd : 'M[C]_p -> 'M[C]_p * 'rV[C]_p * 'M[C]_p.
Variable tol : C.
Hypothesis Hw : forall r (i : 'I_(nloc r)), w (own i) 0 = w' (own' i) 0.
Hypothesis Hp : forall r (i : 'I_(nloc r)) j, Phi (own i) j = Phi' (own' i) j.
Hypothesis Hd : forall t r (i : 'I_(nloc r)), data t (own i) = data' t (own' i).
Lemma phir_ext r : phir own Phi r = phir own' Phi' r.
Proof. by apply/matrixP => i j; rewrite !mxE Hp. Qed.
Lemma wloc_ext r : wloc own w r = wloc own' w' r.
Proof. by apply/matrixP => i j; rewrite !mxE Hw. Qed.
Lemma dloc_ext r : dloc own data r = dloc own' data' r.
Proof. by apply/matrixP => t i; rewrite !mxE Hd. Qed.
Lemma lt_mean_ext r : lt_mean own data r = lt_mean own' data' r.
Proof. by rewrite /lt_mean dloc_ext. Qed.
Lemma coeffs_ext : coeffs own w Phi data svd tol = coeffs own' w' Phi' data' svd tol.
Proof.
have E1 : M_red own w Phi = M_red own' w' Phi' by apply: eq_bigr => r _; rewrite phir_ext /wmul wloc_ext.
have E2 : Q_red own w Phi data = Q_red own' w' Phi' data' by apply: eq_bigr => r _; rewrite phir_ext /wmul wloc_ext /dcent dloc_ext lt_mean_ext.
by rewrite /coeffs E1 E2.
Qed.
End Ext.

Section Assemble.
Variables (C : numClosedFieldType) (n : nat) (rec : list (list C)) (W : list C) (pcol : nat -> nat -> C) (ids : nat -> list nat).
Variable svd : forall n, 'M[C]_n -> 'M[C]_n * 'rV[C]_n * 'M[C]_n.
Variables (tol : C) (p : nat).
Notation nt := (length rec).
Variable ls : list (clocal C).
Notation size := (length ls).
Hypothesis Hperm : Permutation (List.concat (List.map ids (List.seq 0 size))) (List.seq 0 n).
Hypothesis Hls : forall r, (r < size)%N ->
  let l := List.nth r ls (cl_none C) in
  [/\ cl_m l = length (ids r), cl_rows l = List.map (picks 0 (ids r)) rec, cl_w l = picks 0 (ids r) W &
      forall j, (j < p)%N -> List.nth j (cl_phi l) nil = List.map (fun i => pcol i j) (ids r)].
Hypothesis Hsize : (0 < size)%N.
Definition crec : 'M[C]_(nt, n) := \matrix_(t, i) List.nth i (List.nth t rec nil) 0.
Definition cw : 'cV[C]_n := \col_i List.nth i W 0.
Definition cphi : 'M[C]_(n, p) := \matrix_(i, j) pcol i j.
Lemma cl_nE (r : 'I_size) : cl_n r = length (ids r).
Proof. by rewrite /cl_n /cl_at; have [-> _ _ _] := Hls (ltn_ord r). Qed.
Lemma cown_lt (r : 'I_size) (i : 'I_(cl_n r)) : (List.nth i (ids r) 0 < n)%N.
Proof.
have : List.In (List.nth i (ids r) 0%N) (List.seq 0 n).
  apply: (Permutation_in _ Hperm); apply/List.in_concat; exists (ids r); split; first by apply: List.in_map; apply/List.in_seq; split; [lia|apply/ltP].
  by apply: List.nth_In; apply/ltP; rewrite -cl_nE.
by move/List.in_seq => [_ /ltP].
Qed.
Definition cown (r : 'I_size) (i : 'I_(cl_n r)) : 'I_n := Ordinal (cown_lt i).
Lemma cownE (r : 'I_size) : [seq val (cown i) | i <- enum 'I_(cl_n r)] = ids r.
Proof.
have -> : [seq val (cown i) | i <- enum 'I_(cl_n r)] = [seq List.nth i (ids r) 0%N | i <- map val (enum 'I_(cl_n r))] by rewrite -[RHS]map_comp; apply: eq_map => i.
rewrite val_enum_ord iota_seq -[map _ _]/(List.map _ _) cl_nE.
exact: map_nth_seq.
Qed.
Lemma cown_partition : partition_of cown.
Proof. exact: (own_partition Hperm cownE). Qed.
Lemma pick_nth' (ids' : list nat) (row : list C) i : (i < length ids')%N -> List.nth i (picks 0 ids' row) 0 = List.nth (List.nth i ids' 0%N) row 0.
Proof. by move=> Hi; rewrite /picks nth_List -[List.map _ _]/(map _ _) (nth_map 0%N) -?nth_List. Qed.
Lemma ctag_at (F : forall r : 'I_size, 'I_(cl_n r) -> C) r (i : 'I_(cl_n r)) : F (tagnat.sig1 (cl_own i)) (tagnat.sig2 (cl_own i)) = F r i.
Proof.
have E : (fun p : {r : 'I_size & 'I_(cl_n r)} => F (tag p) (tagged p)) (tagnat.sig (tagnat.rank (Tagged _ i))) = F r i by rewrite (@tagnat.rankK size (@cl_n C ls) (Tagged _ i)).
exact: E.
Qed.
Lemma idlt (r : 'I_size) (i : 'I_(cl_n r)) : (i < length (ids r))%N.
Proof. by rewrite -cl_nE; apply: ltn_ord. Qed.
Lemma cl_wE r (i : 'I_(cl_n r)) : cl_wv ls (cl_own i) 0 = cw (cown i) 0.
Proof.
rewrite /cl_wv mxE (ctag_at (fun r i => List.nth i (cl_w (cl_at r)) 0)) /cw mxE /cl_at.
by have [_ _ -> _] := Hls (ltn_ord r); rewrite pick_nth' //; apply: idlt.
Qed.
Lemma cl_dataE t r (i : 'I_(cl_n r)) : cl_data nt ls t (cl_own i) = crec t (cown i).
Proof.
rewrite /cl_data mxE (ctag_at (fun r i => List.nth i (List.nth t (cl_rows (cl_at r)) nil) 0)) /crec mxE /cl_at.
have [_ -> _ _] := Hls (ltn_ord r).
rewrite (List.nth_indep _ _ (picks 0 (ids r) nil)) ?List.map_length; last by apply/ltP; apply: ltn_ord.
by rewrite List.map_nth pick_nth' //; apply: idlt.
Qed.
Lemma cl_PhiE r (i : 'I_(cl_n r)) j : cl_Phi p ls (cl_own i) j = cphi (cown i) j.
Proof.
rewrite /cl_Phi mxE (ctag_at (fun r i => List.nth i (List.nth j (cl_phi (cl_at r)) nil) 0)) /cphi mxE /cl_at.
have [_ _ _ H] := Hls (ltn_ord r); rewrite H // nth_List -[List.map _ _]/(map _ _) (nth_map 0%N) -?nth_List //.
exact: idlt.
Qed.
Lemma cl_coeffsE : cl_coeffs svd tol nt p ls = Nd (cons p (cons nt nil)) (ravel (serial_coeffs cw cphi crec (@svd p) tol)).
Proof.
rewrite /cl_coeffs (coeffs_ext (@svd p) tol cl_wE cl_PhiE cl_dataE).
by have [-> _] := C51_rank_independence cw cphi crec (@svd p) tol cown_partition.
Qed.
Definition cmean (i : nat) : C := (\sum_(t < nt) List.nth i (List.nth t rec nil) 0) / nt%:R.
Lemma cl_mean (r : 'I_size) : List.map (fun i => lt_mean (@cl_own C ls) (cl_data nt ls) r 0 i) (enum 'I_(cl_n r)) = List.map cmean (ids r).
Proof.
rewrite -(cownE r) -[map _ _]/(List.map _ _) List.map_map; apply: List.map_ext => i.
rewrite (lt_mean_ext cl_dataE) mxE /cmean; congr (_ / _); apply: eq_bigr => t _; by rewrite !mxE.
Qed.
Lemma cl_phir r : ravel (phir (@cl_own C ls) (cl_Phi p ls) r) = ravel (\matrix_(i < cl_n r, j < p) cphi (cown i) j).
Proof. by congr ravel; apply/matrixP => i j; rewrite [LHS]mxE [RHS]mxE cl_PhiE. Qed.
(* the files *)
Section Par.
Variables (sh : list nat) (ax : nat).
Hypothesis Hn : n = Base_List.prod sh.
Hypothesis Hax : (ax < length sh)%N.
Hypothesis Hids : forall r, (r < size)%N -> ids r = owned sh ax size r.
Hypothesis Hsh : forall r, (r < size)%N -> cl_shape (List.nth r ls (cl_none C)) = upd_nth ax (blockdist (List.nth ax sh 0%N) size r).1 sh.
Lemma cl_modes_par : cl_file true ax (List.map (cl_modes p (ls := ls)) (enum 'I_size)) = Nd (List.app sh (cons p nil)) (ravel cphi).
Proof.
rewrite /cl_file.
have -> : List.map (cl_modes p (ls := ls)) (enum 'I_size) = [seq mode_piece sh ax size r (\matrix_(i < cl_n r, j < p) cphi (cown i) j) | r : 'I_size <- enum 'I_size].
  apply: List.map_ext => r; rewrite /cl_modes cl_phir /mode_piece /cl_at Hsh //; exact: ltn_ord.
apply: (@modes_file _ n size sh ax (@cl_n C ls) cown Hn) => //.
- by move=> r; rewrite cownE; apply: Hids.
- by move=> r i j; rewrite mxE.
Qed.
Lemma cl_ltm_par : cl_file true ax (List.map (cl_ltm nt (ls := ls)) (enum 'I_size)) = Nd sh (List.map cmean (List.seq 0 n)).
Proof.
rewrite /cl_file.
set a := Nd sh _.
have -> : List.map (cl_ltm nt (ls := ls)) (enum 'I_size) = List.map (piece ax size a) (List.seq 0 size).
  have -> : List.seq 0 size = List.map val (enum 'I_size) by rewrite -[List.map _ _]/(map _ _) val_enum_ord iota_seq.
  rewrite [RHS]List.map_map; apply: List.map_ext => r; rewrite /cl_ltm cl_mean /cl_at Hsh; last exact: ltn_ord.
  rewrite Hids; last exact: ltn_ord.
  rewrite owned_piece /piece /bd_s /bd_n [Model_Parallel.shape a]/=; rewrite /slice_axis /a Hn; congr Nd; exact: slice_flat_map.
apply: pieces_concat; last exact/ltP.
  by rewrite /wf /= List.map_length List.seq_length.
exact/ltP.
Qed.
End Par.
Section Serial.
Variable sh : list nat.
Hypothesis H1 : size = 1%N.
Hypothesis H0 : ids 0 = List.seq 0 n.
Hypothesis Hsh : cl_shape (List.nth 0 ls (cl_none C)) = sh.
Lemma one_rank (r : 'I_size) : val r = 0%N.
Proof. have : (val r < 1)%N by rewrite -H1; apply: ltn_ord.
by case: (val r). Qed.
Lemma cl_modes_serial ax : cl_file false ax (List.map (cl_modes p (ls := ls)) (enum 'I_size)) = Nd (List.app sh (cons p nil)) (ravel cphi).
Proof.
rewrite /cl_file.
have : (0 < seq.size (enum 'I_size))%N by rewrite size_enum_ord.
case: (enum 'I_size) => //= r _ _; rewrite /cl_modes cl_phir /cl_at one_rank Hsh; congr Nd.
rewrite [RHS]ravel_rows -H0 -(one_rank r) -(cownE r) -[map _ _]/(List.map _ _) flat_map_map; apply: flat_map_ext' => i; rewrite rowlist_val.
by apply: List.map_ext => j; rewrite mxE.
Qed.
Lemma cl_ltm_serial ax : cl_file false ax (List.map (cl_ltm nt (ls := ls)) (enum 'I_size)) = Nd sh (List.map cmean (List.seq 0 n)).
Proof.
rewrite /cl_file.
have : (0 < seq.size (enum 'I_size))%N by rewrite size_enum_ord.
by case: (enum 'I_size) => //= r _ _; rewrite /cl_ltm cl_mean /cl_at one_rank Hsh H0.
Qed.
End Serial.
End Assemble.
(* ---- from the data and the folder ---- *)
Lemma load_all (X : Type) (f : nat -> res X) l : (forall x, List.In x l -> exists y, f x = Ok y) -> exists ys, all_ok (List.map f l) = Ok ys.
Proof.
elim: l => [|x l IH] H; first by exists nil.
have [y Ey] := H x (or_introl erefl); have [ys Eys] := IH (fun z Hz => H z (or_intror Hz)).
by exists (y :: ys); rewrite /= Ey Eys.
Qed.
Section Run.
Variables (C : numClosedFieldType) (A : Type) (cast : A -> C) (fo : folder C) (s : fsel) (nf nt : nat) (sp sh : list nat) (data : nd A) (ax : nat).
Hypothesis Hwf : wf data.
Hypothesis Hs : Model_Parallel.shape data = nt :: sp.
Hypothesis Hnt : (0 < nt)%N.
Hypothesis Hpos : (0 < Base_List.prod sp)%N.
Hypothesis Hax : argmax sp = Ok ax.
Hypothesis Hsh : length sp = (rf_xdim fo + 1)%N /\ sh = sp \/ length sp = rf_xdim fo /\ rf_nv fo = 1%N /\ sh = List.app sp (cons 1%N nil).
Hypothesis Hw : wf (rf_weights fo) /\ Model_Parallel.shape (rf_weights fo) = sh.
Hypothesis Hm : forall f, List.In f (freq_list s) -> exists a, [/\ rf_modes fo f = Some a, wf a & Model_Parallel.shape a = List.app sh (cons (rf_nm fo) nil)].
Hypothesis Hnm : (0 < rf_nm fo)%N.
Hypothesis Hfl : freq_list s <> nil.
Hypothesis Hnf : n_freq_r s = Z.of_nat nf.
Hypothesis Hlen : (length (freq_list s) <= nf)%N.
Notation nm := (rf_nm fo).
Let rec := List.map (List.map cast) (snapshots data).
Let W := flat (rf_weights fo).
(* column j of the modes *)
Definition pcol (i j : nat) : C :=
  match List.nth_error (freq_list s) (Nat.div j nm) with
  | Some f => match rf_modes fo f with Some a => List.nth (i * nm + Nat.modulo j nm)%N (flat a) 0 | None => 0 end
  | None => 0 end.
Definition pieceshape (cm : comm) : list nat := match cm with None => sh | Some (size, rank) => upd_nth ax (fst (blockdist (List.nth ax sh 0%N) size rank)) sh end.
Lemma sh_facts : [/\ (ax < length sp)%coq_nat, (ax < length sh)%coq_nat, Base_List.prod sh = Base_List.prod sp & forall cm, axis_ids sp ax cm = axis_ids sh ax cm].
Proof.
have [Hlt _] := argmax_spec _ Hax.
case: Hsh => [[_ ->]|[_ [_ ->]]]; first by split.
split=> //; first by rewrite List.app_length /=; lia.
- by rewrite prod_app /=; lia.
- move=> cm; apply: (@axis_ids_shape _ [:: data] sp sp 1 (or_intror (conj erefl erefl))) => //.
  + by move=> d [<-|//]; rewrite Hs.
  + by move=> E; rewrite E /= in Hlt; lia.
  + exact/ltP.
Qed.
Lemma load_modesE cm f : comm_ok cm -> List.In f (freq_list s) ->
  exists a, rf_modes fo f = Some a /\
  load_modes fo ax (length (axis_ids sh ax cm)) cm f = Ok (List.map (fun j => List.map (fun i => List.nth (i * nm + j)%N (flat a) 0) (axis_ids sh ax cm)) (List.seq 0 nm)).
Proof.
move=> Hcm Hf; have [[ash afl] [E Hwa Hsa]] := Hm Hf; exists (Nd ash afl); split=> //; rewrite /load_modes E.
have [_ Hlt Hpr _] := sh_facts.
rewrite /= in Hsa; subst ash.
have Hla : length afl = Nat.mul (Base_List.prod sh) nm by move: Hwa; rewrite /wf /= prod_app /=; lia.
have [a' [-> Ea]] := @distribute_points _ 0 sh nm afl ax cm Hcm Hlt Hla.
cbn [bind]; rewrite Ea points_length Nat.eqb_refl /columns.
by rewrite (@columns_points _ (0 : C) nm afl (axis_ids sh ax cm)).
Qed.
Lemma coef_rankE cm : comm_ok cm -> exists phi,
  coef_rank cast fo s data cm
  = Ok (CLocal (pieceshape cm) (length (axis_ids sh ax cm)) (List.map (picks 0 (axis_ids sh ax cm)) rec) (picks 0 (axis_ids sh ax cm) W) phi, ax) /\
  forall j, (j < nf * nm)%N -> List.nth j phi nil = List.map (fun i => pcol i j) (axis_ids sh ax cm).
Proof.
move=> Hcm; have [Hlt Hlt' Hpr Hids] := sh_facts.
set ids := axis_ids sh ax cm.
have [d' [Ed [Hwd [Hsd Hrd]]]] := @distribute_data_all _ data nt sp ax cm Hcm Hwf Hs (elimT ltP Hnt) Hax.
rewrite /coef_rank Ed; cbn [bind].
have [Hww Hws] := Hw.
have Hlw : length W = Base_List.prod sh by rewrite /W Hww Hws.
have [w' [Ew [Efw _]]] := @distribute_one _ 0 sh W ax cm Hcm Hlt' Hlw.
have -> : distribute_dimension (rf_weights fo) ax cm = Ok w' by rewrite -Ew /W; congr (distribute_dimension _ _ _); move: Hws; case: (rf_weights fo) => a b /= ->.
cbn [bind]; rewrite Efw pick_length.
have Esh : (if (Nat.eqb (rf_nv fo) 1) && negb (Nat.eqb (length (Model_Parallel.shape d')) (rf_xdim fo + 2)%N)
            then List.app (List.tl (Model_Parallel.shape d')) (cons 1%N nil) else List.tl (Model_Parallel.shape d')) = pieceshape cm.
  have Hl' : length (Model_Parallel.shape d') = (length sp).+1.
    rewrite Hsd /=; case: (cm) => // -[? ?]; by rewrite upd_nth_length.
  rewrite Hl'; case: Hsh => [[-> Es]|[-> [-> Es]]].
    have -> : Nat.eqb (rf_xdim fo + 1).+1 (rf_xdim fo + 2) = true by apply/Nat.eqb_spec; rewrite -plusE; lia.
    by rewrite andbF /pieceshape Hsd /= Es.
  have -> : Nat.eqb (rf_xdim fo).+1 (rf_xdim fo + 2) = false by apply/negbTE/negP => /Nat.eqb_spec; rewrite -plusE; lia.
  rewrite /pieceshape Hsd /= Es; case: (cm) => // -[? ?]; rewrite List.app_nth1 // upd_app_l' //.
rewrite Esh {Esh}.
have Em : length ids = Base_List.prod (List.tl (Model_Parallel.shape d')).
  rewrite /ids -Hids axis_ids_length // Hsd /=; by case: (cm) => // -[? ?].
have Efl : length (flat d') = Nat.mul (List.hd 0%N (Model_Parallel.shape data)) (length ids) by rewrite Hwd Em Hsd Hs /=.
rewrite Efl Nat.eqb_refl /=.
have HL f : List.In f (freq_list s) -> exists cols, load_modes fo ax (length ids) cm f = Ok cols /\ length cols = nm /\
    forall m, (m < nm)%N -> List.nth m cols nil = List.map (fun i => if rf_modes fo f is Some a then List.nth (i * nm + m)%N (flat a) 0 else 0) ids.
  move=> Hf; have [a [Ea ->]] := load_modesE Hcm Hf; eexists; split; [by []|split]; first by rewrite List.map_length List.seq_length.
  move=> m /ltP Hm'; rewrite (List.nth_indep _ _ (List.map (fun i => List.nth (i * nm + 0)%N (flat a) 0) ids)) ?List.map_length ?List.seq_length //.
  by rewrite (List.map_nth (fun j => List.map (fun i => List.nth (i * nm + j)%N (flat a) 0) ids)) List.seq_nth // Ea.
have [ys ->] : exists ys, all_ok (List.map (load_modes fo ax (length ids) cm) (freq_list s)) = Ok ys.
  by apply: load_all => f /HL [cols [E _]]; exists cols.
cbn [bind].
pose ma f := match load_modes fo ax (length ids) cm f with Ok c => Some c | Err _ => None end.
have [phi [Ep [Lp Np]]] := @gathered_columns _ (List.repeat (0 : C) (length ids)) ma nf nm (freq_list s) (elimT ltP Hnm) Hfl (elimT leP Hlen)
   (fun f Hf => match HL f Hf with ex_intro c (conj E (conj L _)) => ex_intro _ c (conj (f_equal (fun r => match r with Ok c => Some c | Err _ => None end) E) L) end).
exists phi; rewrite Hnf -/ma Ep; cbn [bind]; split.
- congr (Ok (CLocal _ _ _ _ _, _)).
  have -> : List.map (fun t => List.map cast (Base_List.window (t * length ids)%N (length ids) (flat d'))) (List.seq 0 (List.hd 0%N (Model_Parallel.shape data))) = List.map (List.map cast) (rows d').
    have W1 : Model_Parallel.shape d' <> nil by rewrite Hsd.
    have W2 : List.hd 0%N (Model_Parallel.shape d') = nt by rewrite Hsd.
    have W3 : rowlen d' = length ids by rewrite Em.
    rewrite -(@window_rows _ d' nt W1 W2 (length ids) W3) Hs.
    by rewrite List.map_map.
  rewrite Hrd rows_snapshots ?Hs // /rec !List.map_map; apply: List.map_ext_in => row Hrow.
  rewrite -local_piece_map // (@local_piece_pick _ 0) // ?Hids //.
  rewrite List.map_length; apply: (@record_row_length _ [:: data] sp).
  + by move=> d [<-|//]; split; rewrite ?Hs.
  + by move=> d [<-|//]; rewrite Hs.
  + by rewrite /record /= List.app_nil_r.
- move=> j /ltP Hj; rewrite (List.nth_indep _ nil (List.repeat 0 (length ids))) ?Lp // Np // /pcol.
  have Hmod : (Nat.modulo j nm < nm)%N by apply/ltP; apply: Nat.mod_upper_bound; move/ltP: Hnm; clear; lia.
  case Ef: (List.nth_error _ _) => [f|]; last by elim: (ids) => //= x l ->.
  have Hf := List.nth_error_In _ _ Ef; have [cols [E [Lc Hc]]] := HL f Hf.
  rewrite /ma E (List.nth_indep _ _ nil) ?Hc // Lc; exact/ltP.
Qed.
Lemma all_ok_choose (X Y : Type) (f : X -> res Y) (P : X -> Y -> Prop) d d' l : (forall x, List.In x l -> exists y, f x = Ok y /\ P x y) ->
  exists ys, [/\ all_ok (List.map f l) = Ok ys, length ys = length l & forall i, (i < length l)%N -> P (List.nth i l d) (List.nth i ys d')].
Proof.
elim: l => [|x l IH] H; first by exists nil.
have [y [Ey Py]] := H x (or_introl erefl); have [ys [Eys L Pys]] := IH (fun z Hz => H z (or_intror Hz)).
exists (y :: ys); split; [by rewrite /= Ey Eys|by rewrite /= L|].
by case.
Qed.
Variable svd : forall p, 'M[C]_p -> 'M[C]_p * 'rV[C]_p * 'M[C]_p.
Variable tol : C.
Lemma length_rec : length rec = nt.
Proof. by rewrite /rec List.map_length snapshots_length /nrows Hs. Qed.
Lemma coef_gen T_lb T_ub freq_idx np : match np with Some size => is_true (0 < size)%N | None => True end ->
  select_freqs (rf_freq fo) (rf_nfreq fo) T_lb T_ub freq_idx = Ok s ->
  coef_array svd tol cast fo T_lb T_ub freq_idx data np
  = Ok (Nd (cons (nf * nm)%N (cons nt nil)) (ravel (serial_coeffs (cw (Base_List.prod sh) W) (cphi (Base_List.prod sh) pcol (nf * nm)) (crec (Base_List.prod sh) rec) (@svd (nf * nm)%N) tol)),
        Nd (List.app sh (cons (nf * nm)%N nil)) (ravel (cphi (Base_List.prod sh) pcol (nf * nm))),
        Nd sh (List.map (cmean rec) (List.seq 0 (Base_List.prod sh))), ax).
Proof.
move=> Hnp Hsel; rewrite /coef_array Hsel; cbn [bind].
have Ha : alloc_coeffs s nm (List.hd 0%N (Model_Parallel.shape data)) = Ok tt by rewrite /alloc_coeffs Hnf; case: Z.ltb_spec => // H; exfalso; clear -H; nia.
rewrite Ha {Ha}; cbn [bind].
have -> : Nat.mul (Z.to_nat (n_freq_r s)) nm = (nf * nm)%N by rewrite Hnf Nat2Z.id.
have -> : List.hd 0%N (Model_Parallel.shape data) = length rec by rewrite length_rec Hs.
rewrite -length_rec.
have [Hlt Hlt' Hpr _] := sh_facts.
pose P cm (y : clocal C * nat) := exists phi, y = (CLocal (pieceshape cm) (length (axis_ids sh ax cm)) (List.map (picks 0 (axis_ids sh ax cm)) rec) (picks 0 (axis_ids sh ax cm) W) phi, ax) /\
  forall j, (j < nf * nm)%N -> List.nth j phi nil = List.map (fun i => pcol i j) (axis_ids sh ax cm).
have HP cm : comm_ok cm -> exists y, coef_rank cast fo s data cm = Ok y /\ P cm y.
  by move=> /coef_rankE [phi [E Hp]]; eexists; split; [exact: E|exists phi].
case: np Hnp => [size Hsz|_].
- have HPc cm : List.In cm (comms (Some size)) -> exists y, coef_rank cast fo s data cm = Ok y /\ P cm y.
    by move=> /List.in_map_iff [r [<- /List.in_seq [_ Hr]]]; apply: HP.
  have [ys [Eys Ly Pys]] := @all_ok_choose _ _ (coef_rank cast fo s data) P None (cl_none C, 0%N) (comms (Some size))
     HPc.
  rewrite Eys; cbn [bind].
  have Lc : length (comms (Some size)) = size by rewrite List.map_length List.seq_length.
  set ls := List.map fst ys.
  have Hlsz : length ls = size by rewrite /ls List.map_length Ly Lc.
  have Hy r : (r < size)%N -> P (Some (size, r)) (List.nth r ys (cl_none C, 0%N)).
    move=> Hr; have := Pys r; rewrite Lc => /(_ Hr); rewrite -[comms _]/(List.map (fun r => Some (size, r)) (List.seq 0 size)).
    by rewrite (nth_map_seq0 (fun r => Some (size, r)) None (elimT ltP Hr)).
  have -> : snd (List.hd (cl_none C, 0%N) ys) = ax.
    have [phi [E _]] := Hy 0%N Hsz.
    have -> : List.hd (cl_none C, 0%N) ys = List.nth 0 ys (cl_none C, 0%N) by case: (ys).
    by rewrite E.
  have Hnth r : List.nth r ls (cl_none C) = (List.nth r ys (cl_none C, 0%N)).1 by rewrite /ls; exact: (List.map_nth fst ys (cl_none C, 0%N) r).
  pose ids := owned sh ax size.
  have Hi r : axis_ids sh ax (Some (size, r)) = ids r by rewrite /ids /axis_ids /local_piece /owned; case: (blockdist _ _ _).
  have Hp : Permutation (List.concat (List.map ids (List.seq 0 (length ls)))) (List.seq 0 (Base_List.prod sh)).
    by rewrite Hlsz; apply: owned_perm => //; exact/ltP.
  have Hls r : (r < length ls)%N -> let l := List.nth r ls (cl_none C) in
    [/\ cl_m l = length (ids r), cl_rows l = List.map (picks 0 (ids r)) rec, cl_w l = picks 0 (ids r) W &
        forall j, (j < nf * nm)%N -> List.nth j (cl_phi l) nil = List.map (fun i => pcol i j) (ids r)].
    by rewrite Hlsz => /Hy [phi [E Hphi]]; rewrite Hnth E /= -Hi; split.
  have Hs' : (0 < length ls)%N by rewrite Hlsz.
  have Hshp r : (r < length ls)%N -> cl_shape (List.nth r ls (cl_none C)) = upd_nth ax (blockdist (List.nth ax sh 0%N) (length ls) r).1 sh.
    by rewrite Hlsz => /Hy [phi [E Hphi]]; rewrite Hnth E.
  rewrite (cl_coeffsE svd tol Hp Hls).
  rewrite (@cl_modes_par _ _ rec W pcol ids svd (nf * nm)%N ls Hp Hls Hs' sh ax erefl (introT ltP Hlt')) //; last by move=> r _; rewrite Hlsz.
  by rewrite (@cl_ltm_par _ _ rec W pcol ids svd (nf * nm)%N ls Hp Hls Hs' sh ax erefl (introT ltP Hlt')) // => r _; rewrite Hlsz.
- cbn [comms List.map all_ok].
  have [phi [-> Hphi]] := coef_rankE (cm := None) I; cbn [bind all_ok List.map List.hd fst snd].
  set ls := [:: _].
  pose ids (r : nat) := List.seq 0 (Base_List.prod sh).
  have Hp : Permutation (List.concat (List.map ids (List.seq 0 (length ls)))) (List.seq 0 (Base_List.prod sh)).
    by rewrite /= List.app_nil_r /ids.
  have Hls r : (r < length ls)%N -> let l := List.nth r ls (cl_none C) in
    [/\ cl_m l = length (ids r), cl_rows l = List.map (picks 0 (ids r)) rec, cl_w l = picks 0 (ids r) W &
        forall j, (j < nf * nm)%N -> List.nth j (cl_phi l) nil = List.map (fun i => pcol i j) (ids r)].
    by case: r => // _; split.
  rewrite (cl_coeffsE svd tol Hp Hls).
  rewrite (@cl_modes_serial _ _ rec W pcol ids svd (nf * nm)%N ls Hp Hls isT sh erefl erefl erefl).
  by rewrite (@cl_ltm_serial _ _ rec W pcol ids svd (nf * nm)%N ls Hp Hls isT sh erefl erefl erefl).
Qed.
End Run.
