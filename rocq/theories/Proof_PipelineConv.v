(* Proofs about whole computations of convolution coefficients (Model_PipelineConv). *)
From Coq Require Import QArith.
From Verif Require Import Base_List Model_Parallel Model_Reader1 Model_Reader2 Model_Select Model_ConvShape Model_Base Model_Standard Model_Pipeline Spec_Array Spec_Reader Spec_Reader2
  Proof_Parallel Proof_Npy Proof_Npy2 Proof_Reader1 Proof_Reader1b Proof_SliceMap Proof_Pipeline Prop_ConvShape.
From Coq Require Import Sorting.Permutation.
From Verif Require Import Proof_PipelineCoef.
Local Open Scope nat_scope.
(* ---- lists only ---- *)
(* blocks of constant length *)
Lemma nth_blocks {A} (g : nat -> list A) c n j d : 0 < c -> (forall i, i < n -> length (g i) = c) -> j < n * c ->
  nth j (flat_map g (seq 0 n)) d = nth (j mod c) (g (j / c)) d.
Proof.
  intros Hc Hg Hj. pose proof (Nat.div_mod j c ltac:(lia)) as E. pose proof (Nat.mod_upper_bound j c ltac:(lia)) as Hm.
  set (q := j / c) in *. set (i := j mod c) in *. clearbody q i. subst j. assert (Hq : q < n) by nia. clear Hj.
  assert (G : forall s, (forall i, s <= i < s + n -> length (g i) = c) -> nth (c * q + i) (flat_map g (seq s n)) d = nth i (g (s + q)) d).
  { clear Hg. revert q Hq. induction n as [|n IH]; intros q Hq s Hg; [lia|]. cbn [seq flat_map]. destruct q as [|q].
    - rewrite app_nth1 by (rewrite Hg by lia; lia). rewrite Nat.mul_0_r, Nat.add_0_r. reflexivity.
    - rewrite app_nth2 by (rewrite Hg by lia; nia). rewrite Hg by lia. replace (c * S q + i - c) with (c * q + i) by nia.
      rewrite IH by (try lia; intros; apply Hg; lia). f_equal. f_equal. lia. }
  now rewrite G by (intros; apply Hg; lia).
Qed.
(* the pieces put together along an axis, and cut again *)
Lemma concat_pieces {A} sh ax size (P : nat -> nd A) : ax < length sh -> 0 < size ->
  (forall r, r < size -> shape (P r) = upd_nth ax (bd_n (nth ax sh 0) size r) sh /\ wf (P r)) ->
  shape (concat_axis ax (map P (seq 0 size))) = sh /\
  forall r, r < size -> flat (piece ax size (concat_axis ax (map P (seq 0 size))) r) = flat (P r).
Proof.
  intros Hax Hsz HP.
  destruct (split_at_axis _ Hax) as (sh1 & N & sh2 & -> & <- & _ & _ & _).
  rewrite axis_nth in HP.
  assert (HP' : forall r, r < size -> shape (P r) = sh1 ++ bd_n N size r :: sh2 /\ length (flat (P r)) = prod sh1 * bd_n N size r * prod sh2).
  { intros r Hr. destruct (HP r Hr) as [E W]. rewrite axis_upd in E. split; [exact E|].
    destruct (P r) as [s l]. cbn [Model_Parallel.shape] in E. subst s. apply wf_axis in W. exact W. }
  assert (E : concat_axis (length sh1) (map P (seq 0 size)) = Nd (sh1 ++ N :: sh2) (concat_flat (prod sh1) (prod sh2) (map (fun r => (bd_n N size r, flat (P r))) (seq 0 size)))).
  { rewrite (@concat_axis_eq _ sh1 sh2).
    - assert (M : map (fun p => nth (length sh1) (shape p) 0) (map P (seq 0 size)) = map (bd_n N size) (seq 0 size)).
      { rewrite map_map. apply map_ext_in. intros r Hr. apply in_seq in Hr. destruct (HP' r ltac:(lia)) as [-> _]. apply axis_nth. }
      rewrite M, bd_sum_all by assumption. f_equal. unfold pcs_of. rewrite map_map. f_equal. apply map_ext_in. intros r Hr. apply in_seq in Hr.
      destruct (HP' r ltac:(lia)) as [-> _]. now rewrite axis_nth.
    - intros F. apply map_eq_nil in F. destruct size; [lia|discriminate].
    - intros p Hin. apply in_map_iff in Hin as [r [<- Hr]]. apply in_seq in Hr. destruct (HP' r ltac:(lia)) as [-> Hl]. exists (bd_n N size r). now split. }
  rewrite E. split; [reflexivity|]. intros r Hr.
  unfold piece. cbn [Model_Parallel.shape]. rewrite slice_axis_split, axis_nth. cbn [flat].
  set (ps := map (fun r => (bd_n N size r, flat (P r))) (seq 0 size)).
  assert (Hlen : forall p, In p ps -> length (snd p) = prod sh1 * fst p * prod sh2).
  { intros p Hin. apply in_map_iff in Hin as [q [<- Hq]]. apply in_seq in Hq. cbn. now destruct (HP' q ltac:(lia)). }
  assert (M : map fst ps = map (bd_n N size) (seq 0 size)) by (unfold ps; now rewrite map_map).
  pose proof (@slice_concat_flat _ (prod sh1) (prod sh2) ps r Hlen) as S.
  rewrite M, bd_sum_all, bd_displs in S by assumption.
  rewrite !(nth_map_seq0 _ 0) in S by assumption.
  rewrite S by (unfold ps; now rewrite map_length, seq_length).
  unfold ps. now rewrite (nth_map_seq0 (fun r => (bd_n N size r, flat (P r)))) by assumption.
Qed.
(* the frequency-major memory *)
Lemma conv_phir_points {A} (zero : A) nf nm (fl : nat -> list A) ids (M : nat -> nat -> nat -> A) :
  (forall f x m, f < nf -> x < length ids -> m < nm -> M f x m = nth (nth x ids 0 * nm + m) (fl f) zero) ->
  conv_phir M nf (length ids) nm = flat_map (fun f => flat_map (point_row zero nm (fl f)) ids) (seq 0 nf).
Proof.
  intros H. unfold conv_phir. rewrite !flat_map_concat_map. f_equal. apply map_ext_in. intros f Hf. apply in_seq in Hf.
  rewrite !flat_map_concat_map. f_equal. rewrite <- (map_nth_seq 0 ids) at 2. rewrite map_map. apply map_ext_in. intros x Hx. apply in_seq in Hx.
  unfold point_row. apply map_ext_in. intros m Hm. apply in_seq in Hm. apply H; lia.
Qed.
Lemma blocks_len {A} (g : nat -> list A) c n s : (forall i, length (g i) = c) -> length (flat_map g (seq s n)) = n * c.
Proof. intros Hg. revert s. induction n as [|n IH]; intros s; cbn [seq flat_map]; [reflexivity|]. rewrite app_length, IH, Hg. lia. Qed.
From mathcomp Require Import all_ssreflect all_algebra.
From Verif Require Import Model_Spod Spec_Spod Spec_Coeffs Proof_Spod Model_SpodPar Proof_SpodPar Model_Coeffs Proof_StreamNum3 Proof_Coeffs Prop_Coeffs Model_PipelineNum Proof_PipelineNum Proof_PipelineFit
  Model_PipelineCoef Proof_PodCoef Model_PipelineConv.
Set Implicit Arguments.
Unset Strict Implicit.
Unset Printing Implicit Defensive.
Import GRing.Theory Num.Theory.
Local Open Scope ring_scope.

(* ---- the numbers of one process, as sums over the entries it holds ---- *)
Section Assemble.
Variables (C : numClosedFieldType) (n_dft : nat) (win : nat -> C) (omega : C).
Variables (n : nat) (rec : list (list C)) (W : list C) (pc : nat -> nat -> C) (ids : nat -> list nat) (nf nm : nat) (ls : list (clocal C)).
Notation size := (length ls).
Notation nt := (length rec).
Notation p := (nf * nm)%N.
Hypothesis Hperm : Permutation (List.concat (List.map ids (List.seq 0 size))) (List.seq 0 n).
Hypothesis Hls : forall r, (r < size)%N ->
  let l := List.nth r ls (cl_none C) in
  [/\ cl_m l = length (ids r), cl_rows l = List.map (picks 0 (ids r)) rec, cl_w l = picks 0 (ids r) W &
      forall j, (j < p)%N -> List.nth j (cl_phi l) nil = List.map (fun i => pc i j) (ids r)].
(* fluctuation of entry x, with zeros around the record *)
Definition cfluct (x q : nat) : C :=
  if (h_pad n_dft <= q < h_pad n_dft + nt)%N then List.nth x (List.nth (q - h_pad n_dft)%N rec nil) 0 - cmean rec x else 0.
Definition cterm (g f t : nat) (m x : nat) : C :=
  (\sum_(k < n_dft) cfluct x (t + k) * win k * omega ^+ (g * k)) * List.nth x W 0 * (pc x (f * nm + m)%N)^*.
Lemma col_lt f m : (f < nf)%N -> (m < nm)%N -> (f * nm + m < p)%N.
Proof. by move=> Hf Hm; apply: (@leq_trans (f.+1 * nm)%N); [rewrite mulSnr ltn_add2l|rewrite leq_mul2r Hf orbT]. Qed.
Lemma vl_phiE f m (r : 'I_size) (i : 'I_(cl_n r)) : (f < nf)%N -> @vl_phi C nm ls f (cl_own i) m = pc (List.nth i (ids r) 0%N) (f * nm + m)%N.
Proof.
move=> Hf; rewrite /vl_phi (ctag_at (fun r i => List.nth i (List.nth (f * nm + m)%N (cl_phi (cl_at r)) nil) 0)) /cl_at.
have [_ _ _ H] := Hls (ltn_ord r); rewrite H; last exact: col_lt.
rewrite nth_List -[List.map _ _]/(map _ _) (nth_map 0%N) -?nth_List //.
exact: (idlt Hls).
Qed.
Lemma vl_coeffE freqs (r : 'I_size) i t (m : 'I_nm) : (i < nf)%N ->
  vl_coeff n_dft win omega nt freqs r i t m = corr nt n_dft win t * \sum_(x <- ids r) cterm (row_freq freqs i) i t m x.
Proof.
move=> Hi; rewrite /vl_coeff /conv_local; congr (_ * _).
rewrite -[in RHS](cownE (@svd0 C) Hperm Hls r) big_map big_enum.
apply: eq_bigr => x _.
have Ew := cl_wE (@svd0 C) Hperm Hls x.
rewrite /cterm vl_phiE // Ew /cw mxE; congr (_ * _ * _).
rewrite /q_blk; apply: eq_bigr => k _; congr (_ * _ * _).
rewrite /pad /cfluct.
case: (leqP (h_pad n_dft) (t + k)) => Hh /=; last by case: (insub _).
rewrite -ltn_subLR //.
case: insubP => [s Hs Es|Hs].
- rewrite Hs [dcent _ _ _ _ _]mxE [dloc _ _ _ _ _]mxE (lt_mean_ext (cl_dataE (@svd0 C) Hperm Hls)) (cl_dataE (@svd0 C) Hperm Hls).
  rewrite [crec _ _ _ _]mxE Es [lt_mean _ _ _ _ _]mxE /cmean; congr (_ - _ / _); apply: eq_bigr => u _; by rewrite !mxE.
- by rewrite (negbTE Hs).
Qed.
End Assemble.
Lemma freq_part (C : numClosedFieldType) (A : Type) (fo : folder C) (s : fsel) : Permutation (freq_list s) (List.seq 0 (rf_nfreq fo)) ->
  length (freq_list s) = rf_nfreq fo /\ forall f, List.In f (freq_list s) <-> (f < rf_nfreq fo)%N.
Proof.
move=> H; split; first by rewrite (Permutation_length H) List.seq_length.
move=> f; split=> [/(Permutation_in _ H) /List.in_seq [_ /ltP] //|/ltP Hf]; apply: (Permutation_in _ (Permutation_sym H)); apply/List.in_seq; split=> //; lia.
Qed.
(* ---- from the data and the folder ---- *)
Section Run.
Variables (C : numClosedFieldType) (n_dft : nat) (win : nat -> C) (omega : C) (junk : comm -> nat -> list C).
Variables (A : Type) (cast : A -> C) (fo : folder C) (s : fsel) (nt : nat) (sp sh : list nat) (data : nd A) (ax : nat).
Hypothesis Hwf : wf data.
Hypothesis Hs : Model_Parallel.shape data = nt :: sp.
Hypothesis Hnt : (0 < nt)%N.
Hypothesis Hpos : (0 < Base_List.prod sp)%N.
Hypothesis Hax : argmax sp = Ok ax.
Hypothesis Hsh : length sp = (rf_xdim fo + 1)%N /\ sh = sp \/ length sp = rf_xdim fo /\ rf_nv fo = 1%N /\ sh = List.app sp (cons 1%N nil).
Hypothesis Hw : wf (rf_weights fo) /\ Model_Parallel.shape (rf_weights fo) = sh.
Notation nf := (rf_nfreq fo).
Notation nm := (rf_nm fo).
Hypothesis Hm : forall f, (f < nf)%N -> exists a, [/\ rf_modes fo f = Some a, wf a & Model_Parallel.shape a = List.app sh (cons nm nil)].
Hypothesis Hnm : (1 < nm)%N.
Hypothesis Hnf : (1 < nf)%N.
Hypothesis Hdft : (nf <= n_dft)%N.
Hypothesis Hfr : n_freq_r s = Z.of_nat nf.
Hypothesis Hfl : Permutation (freq_list s) (List.seq 0 nf).
Let rec := List.map (List.map cast) (snapshots data).
Let W := flat (rf_weights fo).
Definition mfile (f : nat) : nd C := match rf_modes fo f with Some a => a | None => Nd nil nil end.
Definition vcol (i j : nat) : C := List.nth (i * nm + Nat.modulo j nm)%N (flat (mfile (Nat.div j nm))) 0.
Let Hm' f : List.In f (freq_list s) -> exists a, [/\ rf_modes fo f = Some a, wf a & Model_Parallel.shape a = List.app sh (cons nm nil)].
Proof. by move=> /(proj2 (freq_part A Hfl)) /Hm. Qed.
Let facts := sh_facts 0 Hs Hpos Hax Hsh Hm'.
Lemma conv_rankE cm : comm_ok cm -> (1 < length (axis_ids sh ax cm))%N -> exists phi,
  conv_rank n_dft junk cast fo s data cm
  = Ok (CLocal (pieceshape sh ax cm) (length (axis_ids sh ax cm)) (List.map (picks 0 (axis_ids sh ax cm)) rec) (picks 0 (axis_ids sh ax cm) W) phi, ax) /\
  forall j, (j < nf * nm)%N -> List.nth j phi nil = List.map (fun i => vcol i j) (axis_ids sh ax cm).
Proof.
move=> Hcm Hids1; have [Hlt Hlt' Hpr Hids] := facts; have [Hfll Hfin] := freq_part A Hfl.
set ids := axis_ids sh ax cm.
have [d' [Ed [Hwd [Hsd Hrd]]]] := @distribute_data_all _ data nt sp ax cm Hcm Hwf Hs (elimT ltP Hnt) Hax.
rewrite /conv_rank Ed; cbn [bind].
have [Hww Hws] := Hw.
have Hlw : length W = Base_List.prod sh by rewrite /W Hww Hws.
have [w' [Ew [Efw _]]] := @distribute_one _ 0 sh W ax cm Hcm Hlt' Hlw.
have -> : distribute_dimension (rf_weights fo) ax cm = Ok w' by rewrite -Ew /W; congr (distribute_dimension _ _ _); move: Hws; case: (rf_weights fo) => a b /= ->.
cbn [bind]; rewrite Efw pick_length.
have Esh : (if (Nat.eqb (rf_nv fo) 1) && negb (Nat.eqb (length (Model_Parallel.shape d')) (rf_xdim fo + 2)%N)
            then List.app (List.tl (Model_Parallel.shape d')) (cons 1%N nil) else List.tl (Model_Parallel.shape d')) = pieceshape sh ax cm.
  have Hl' : length (Model_Parallel.shape d') = (length sp).+1.
    rewrite Hsd /=; case: (cm) => // -[? ?]; by rewrite upd_nth_length.
  rewrite Hl'; case: Hsh => [[-> Es]|[-> [-> Es]]].
    have -> : Nat.eqb (rf_xdim fo + 1).+1 (rf_xdim fo + 2) = true by apply/Nat.eqb_spec; rewrite -plusE; lia.
    by rewrite andbF /pieceshape Hsd /= Es.
  have -> : Nat.eqb (rf_xdim fo).+1 (rf_xdim fo + 2) = false by apply/negbTE/negP => /Nat.eqb_spec; rewrite -plusE; lia.
  rewrite /pieceshape Hsd /= Es; case: (cm) => // -[? ?]; rewrite List.app_nth1 // upd_app_l' //.
rewrite Esh {Esh}.
have Em : length ids = Base_List.prod (List.tl (Model_Parallel.shape d')).
  rewrite /ids -Hids axis_ids_length // Hsd /=; by case: (cm) => // -[? ?].
have Efl : length (flat d') = Nat.mul (List.hd 0%N (Model_Parallel.shape data)) (length ids) by rewrite Hwd Em Hsd Hs /=.
rewrite Efl Nat.eqb_refl.
have -> : Nat.eqb (List.hd 0%N (Model_Parallel.shape data)) 0 = false by rewrite Hs /=; case: (nt) Hnt.
cbn [negb orb].
have HL f : List.In f (freq_list s) -> load_modes fo ax (length ids) cm f = Ok (List.map (fun j => List.map (fun i => List.nth (i * nm + j)%N (flat (mfile f)) 0) ids) (List.seq 0 nm)).
  by move=> Hf; have [a [Ea ->]] := load_modesE 0 Hs Hpos Hax Hsh Hm' Hcm Hf; rewrite /mfile Ea.
have [ys ->] : exists ys, all_ok (List.map (conv_load fo ax (length ids) cm) (freq_list s)) = Ok ys.
  apply: load_all => f Hf; rewrite /conv_load (HL f Hf); cbn [bind].
  have -> : Nat.ltb f nf = true by apply/Nat.ltb_lt; apply/ltP; apply/Hfin.
  by eexists.
cbn [bind].
have [us ->] : exists us, all_ok (List.map (fun f => if Nat.ltb f n_dft then Ok tt else Err IndexError) (freq_list s)) = Ok us.
  apply: load_all => f Hf; exists tt.
  have -> // : Nat.ltb f n_dft = true by apply/Nat.ltb_lt; apply/ltP; apply: leq_trans Hdft; apply/Hfin.
cbn [bind].
have -> : conv_shapes nf (Z.to_nat (n_freq_r s)) (length (freq_list s)) (length ids) nm (pieceshape sh ax cm) = Ok tt.
  rewrite Hfr Nat2Z.id Hfll; apply/C88_convolution_shapes.
  - by move/ltP: Hnf; clear; lia.
  - by move/ltP: Hnm; clear; lia.
  - by move/ltP: Hids1; rewrite -/ids; clear; lia.
  - rewrite -[size_of _]/(Base_List.prod _) /pieceshape; rewrite /ids axis_ids_length //; by case: (cm) => // -[? ?].
  - split=> //; split; [by move/ltP: Hnf; clear; lia|split; [by move/ltP: Hnm; clear; lia|exact/ltP]].
cbn [bind].
eexists; split.
- congr (Ok (CLocal _ _ _ _ _, _)).
  have W1 : Model_Parallel.shape d' <> nil by rewrite Hsd.
  have W2 : List.hd 0%N (Model_Parallel.shape d') = nt by rewrite Hsd.
  have W3 : rowlen d' = length ids by rewrite Em.
  have -> : List.map (fun t => List.map cast (Base_List.window (t * length ids)%N (length ids) (flat d'))) (List.seq 0 (List.hd 0%N (Model_Parallel.shape data))) = List.map (List.map cast) (rows d').
    by rewrite -(@window_rows _ d' nt W1 W2 (length ids) W3) Hs List.map_map.
  rewrite Hrd rows_snapshots ?Hs // /rec !List.map_map; apply: List.map_ext_in => row Hrow.
  rewrite -local_piece_map // (@local_piece_pick _ 0) // ?Hids //.
  rewrite List.map_length; apply: (@record_row_length _ [:: data] sp).
  + by move=> d [<-|//]; split; rewrite ?Hs.
  + by move=> d [<-|//]; rewrite Hs.
  + by rewrite /record /= List.app_nil_r.
- move=> j Hj.
  have Hin f : (f < nf)%N -> List.existsb (Nat.eqb f) (freq_list s) = true.
    by move=> /Hfin Hf; apply/List.existsb_exists; exists f; rewrite Nat.eqb_refl.
  rewrite (@nth_blocks _ _ nm nf j nil).
  + have Hq : (Nat.div j nm < nf)%N by apply/ltP; apply: Nat.div_lt_upper_bound; [move/ltP: Hnm; clear; lia|rewrite Nat.mul_comm; exact/ltP].
    have Hr : (Nat.modulo j nm < nm)%coq_nat by apply: Nat.mod_upper_bound; move/ltP: Hnm; clear; lia.
    rewrite Hin // HL; last exact/Hfin.
    rewrite (List.nth_indep _ _ (List.map (fun i => List.nth (i * nm + 0)%N (flat (mfile (Nat.div j nm))) 0) ids)) ?List.map_length ?List.seq_length //.
    by rewrite (List.map_nth (fun j' => List.map (fun i => List.nth (i * nm + j')%N (flat (mfile (Nat.div j nm))) 0) ids)) List.seq_nth.
  + by move/ltP: Hnm; clear; lia.
  + by move=> f /ltP Hf; rewrite Hin // HL; [rewrite List.map_length List.seq_length|apply/Hfin].
  + exact/ltP.
Qed.
(* the memory of phir on a process *)
Definition vmem (ids : list nat) : list C := List.flat_map (fun f => List.flat_map (point_row 0 nm (flat (mfile f))) ids) (List.seq 0 nf).
Lemma vmem_len ids : length (vmem ids) = Nat.mul nf (Nat.mul (length ids) nm).
Proof. by rewrite (@blocks_len _ _ (Nat.mul (length ids) nm)) // => f; rewrite points_length. Qed.
Definition vcoeffs (ids : list nat) : list C :=
  List.flat_map (fun i => List.flat_map (fun t => List.map (fun m : 'I_nm => corr (length rec) n_dft win t * \sum_(x <- ids) cterm n_dft win omega rec W vcol nm (row_freq (freq_list s) i) i t m x) (enum 'I_nm))
    (List.seq 0 (length rec))) (List.seq 0 nf).
Lemma vcol_at f m i : (m < nm)%N -> vcol i (f * nm + m) = List.nth (i * nm + m)%N (flat (mfile f)) 0.
Proof.
move=> Hmm; rewrite /vcol.
have -> : Nat.div (f * nm + m) nm = f by rewrite -multE -plusE Nat.div_add_l ?Nat.div_small; [lia|exact/ltP|move/ltP: Hnm; clear; lia].
by have -> : Nat.modulo (f * nm + m) nm = m by rewrite -multE -plusE Nat.add_comm Nat.mod_add ?Nat.mod_small //; [exact/ltP|move/ltP: Hnm; clear; lia].
Qed.
Section Assembled.
Variables (ids : nat -> list nat) (ls : list (clocal C)).
Hypothesis Hperm : Permutation (List.concat (List.map ids (List.seq 0 (length ls)))) (List.seq 0 (Base_List.prod sh)).
Hypothesis Hls : forall r, (r < length ls)%N ->
  let l := List.nth r ls (cl_none C) in
  [/\ cl_m l = length (ids r), cl_rows l = List.map (picks 0 (ids r)) rec, cl_w l = picks 0 (ids r) W &
      forall j, (j < nf * nm)%N -> List.nth j (cl_phi l) nil = List.map (fun i => vcol i j) (ids r)].
Hypothesis Hsize : (0 < length ls)%N.
Lemma vl_coeffsE : vl_coeffs n_dft win omega (length rec) nf nm ls (freq_list s) = Nd (cons nf (cons (length rec) (cons nm nil))) (vcoeffs (ids 0)).
Proof.
rewrite /vl_coeffs; congr Nd.
have : List.nth 0 (List.map val (enum 'I_(length ls))) 0%N = 0%N.
  by rewrite -[List.map _ _]/(map _ _) val_enum_ord; case: (length ls) Hsize.
have : (0 < seq.size (enum 'I_(length ls)))%N by rewrite size_enum_ord.
case: (enum 'I_(length ls)) => //= r _ _ Er; rewrite /vcoeffs !List.flat_map_concat_map; congr List.concat; apply: List.map_ext_in => i /List.in_seq [_ /ltP Hi].
rewrite !List.flat_map_concat_map; congr List.concat; apply: List.map_ext => t; apply: List.map_ext => m.
by rewrite (vl_coeffE _ _ _ Hperm Hls) // Er.
Qed.
Lemma vl_modesE (r : 'I_(length ls)) : vl_modes nf nm nf r = Nd (List.app (cl_shape (List.nth r ls (cl_none C))) (cons nf (cons nm nil))) (vmem (ids r)).
Proof.
rewrite /vl_modes /cl_at; congr Nd.
have [Em _ _ Hphi] := Hls (ltn_ord r).
rewrite /cl_n /cl_at Em; apply: (@conv_phir_points _ 0) => f x m Hf Hx Hmm.
rewrite Hphi; last by apply: col_lt; exact/ltP.
rewrite nth_List -[List.map _ _]/(map _ _) (nth_map 0%N); last exact/ltP.
by rewrite vcol_at -?nth_List //; exact/ltP.
Qed.
End Assembled.
End Run.
Lemma in_split_pieces (A : Type) sh ax size (P : nat -> nd A) (l : list nat) : (ax < length sh)%N -> (0 < size)%N ->
  (forall r, (r < size)%N -> Model_Parallel.shape (P r) = List.app (upd_nth ax (blockdist (List.nth ax sh 0%N) size r).1 sh) l /\ wf (P r)) ->
  Model_Parallel.shape (concat_axis ax (List.map P (List.seq 0 size))) = List.app sh l /\
  forall r, (r < size)%N -> exists a', distribute_dimension (concat_axis ax (List.map P (List.seq 0 size))) ax (Some (size, r)) = Ok a' /\ flat a' = flat (P r).
Proof.
move=> /ltP Hax /ltP Hsz HP.
have Hax' : (ax < length (List.app sh l))%coq_nat by rewrite List.app_length; lia.
have [E F] := @concat_pieces A (List.app sh l) ax size P Hax' Hsz (fun r Hr => let H := HP r (introT ltP Hr) in
  conj (eq_trans (proj1 H) (esym (eq_trans (f_equal (fun n => upd_nth ax n (List.app sh l)) (f_equal (fun n => bd_n n size r) (List.app_nth1 sh l 0%N Hax))) (@upd_app_l' sh l ax _ Hax)))) (proj2 H)).
split=> // r /ltP Hr; rewrite distribute_dimension_piece; last by rewrite E.
by eexists; split; [reflexivity|rewrite F].
Qed.
Section Whole.
Variables (C : numClosedFieldType) (n_dft : nat) (win : nat -> C) (omega : C) (junk : comm -> nat -> list C).
Variables (A : Type) (cast : A -> C) (fo : folder C) (s : fsel) (nt : nat) (sp sh : list nat) (data : nd A) (ax : nat).
Hypothesis Hwf : wf data.
Hypothesis Hs : Model_Parallel.shape data = nt :: sp.
Hypothesis Hnt : (0 < nt)%N.
Hypothesis Hpos : (0 < Base_List.prod sp)%N.
Hypothesis Hax : argmax sp = Ok ax.
Hypothesis Hsh : length sp = (rf_xdim fo + 1)%N /\ sh = sp \/ length sp = rf_xdim fo /\ rf_nv fo = 1%N /\ sh = List.app sp (cons 1%N nil).
Hypothesis Hw : wf (rf_weights fo) /\ Model_Parallel.shape (rf_weights fo) = sh.
Notation nf := (rf_nfreq fo).
Notation nm := (rf_nm fo).
Hypothesis Hm : forall f, (f < nf)%N -> exists a, [/\ rf_modes fo f = Some a, wf a & Model_Parallel.shape a = List.app sh (cons nm nil)].
Hypothesis Hnm : (1 < nm)%N.
Hypothesis Hnf : (1 < nf)%N.
Hypothesis Hdft : (nf <= n_dft)%N.
Hypothesis Hfr : n_freq_r s = Z.of_nat nf.
Hypothesis Hfl : Permutation (freq_list s) (List.seq 0 nf).
Let rec := List.map (List.map cast) (snapshots data).
Let W := flat (rf_weights fo).
Lemma conv_gen T_lb T_ub freq_idx np : match np with Some size => is_true (0 < size)%N | None => True end ->
  (forall cm, List.In cm (comms np) -> (1 < length (axis_ids sh ax cm))%N) ->
  select_freqs (rf_freq fo) nf T_lb T_ub freq_idx = Ok s ->
  exists ms, [/\ conv_array n_dft win omega junk cast fo T_lb T_ub freq_idx data np
    = Ok (Nd (cons nf (cons nt (cons nm nil))) (vcoeffs n_dft win omega cast fo s data (axis_ids sh ax (List.hd None (comms np)))), ms,
          Nd sh (List.map (cmean rec) (List.seq 0 (Base_List.prod sh))), ax),
    Model_Parallel.shape ms = List.app sh (cons nf (cons nm nil)) &
    forall cm, List.In cm (comms np) -> exists a', distribute_dimension ms ax cm = Ok a' /\ flat a' = vmem fo (axis_ids sh ax cm)].
Proof.
move=> Hnp Hids Hsel; rewrite /conv_array Hsel; cbn [bind].
have Ha : alloc_coeffs s nm (List.hd 0%N (Model_Parallel.shape data)) = Ok tt by rewrite /alloc_coeffs Hfr; case: Z.ltb_spec => // H; exfalso; clear -H; nia.
rewrite Ha {Ha} Hfr Nat2Z.id; cbn [bind].
have Lr : length rec = nt by rewrite /rec (length_rec cast Hs).
have -> : List.hd 0%N (Model_Parallel.shape data) = length rec by rewrite Lr Hs.
have Hm' f : List.In f (freq_list s) -> exists a, [/\ rf_modes fo f = Some a, wf a & Model_Parallel.shape a = List.app sh (cons nm nil)].
  by move=> /(proj2 (freq_part A Hfl)) /Hm.
have [Hlt Hlt' Hpr _] := sh_facts 0 Hs Hpos Hax Hsh Hm'.
pose P cm (y : clocal C * nat) := exists phi, y = (CLocal (pieceshape sh ax cm) (length (axis_ids sh ax cm)) (List.map (picks 0 (axis_ids sh ax cm)) rec) (picks 0 (axis_ids sh ax cm) W) phi, ax) /\
  forall j, (j < nf * nm)%N -> List.nth j phi nil = List.map (fun i => vcol fo i j) (axis_ids sh ax cm).
have HP cm : comm_ok cm -> (1 < length (axis_ids sh ax cm))%N -> exists y, conv_rank n_dft junk cast fo s data cm = Ok y /\ P cm y.
  by move=> Hc1 Hc2; have [phi [E Hp]] := conv_rankE win junk cast Hwf Hs Hnt Hpos Hax Hsh Hw Hm Hnm Hnf Hdft Hfr Hfl Hc1 Hc2; eexists; split; [exact: E|exists phi].
case: np Hnp Hids => [size Hsz|_] Hids.
- have HPc cm : List.In cm (comms (Some size)) -> exists y, conv_rank n_dft junk cast fo s data cm = Ok y /\ P cm y.
    by move=> Hin; have Hi := Hids _ Hin; move: Hin Hi => /List.in_map_iff [r [<- /List.in_seq [_ Hr]]]; apply: HP.
  have [ys [Eys Ly Pys]] := @all_ok_choose _ _ (conv_rank n_dft junk cast fo s data) P None (cl_none C, 0%N) (comms (Some size)) HPc.
  rewrite Eys; cbn [bind].
  have Lc : length (comms (Some size)) = size by rewrite List.map_length List.seq_length.
  set ls := List.map fst ys.
  have Hlsz : length ls = size by rewrite /ls List.map_length Ly Lc.
  have Hy r : (r < size)%N -> P (Some (size, r)) (List.nth r ys (cl_none C, 0%N)).
    move=> Hr; have := Pys r; rewrite Lc => /(_ Hr); rewrite -[comms _]/(List.map (fun r => Some (size, r)) (List.seq 0 size)).
    by rewrite (nth_map_seq0 (fun r => Some (size, r)) None (elimT ltP Hr)).
  have -> : snd (List.hd (cl_none C, 0%N) ys) = ax.
    have [phi [E _]] := Hy 0%N Hsz.
    have -> : List.hd (cl_none C, 0%N) ys = List.nth 0 ys (cl_none C, 0%N) by case: (ys).
    by rewrite E.
  have Hnth r : List.nth r ls (cl_none C) = (List.nth r ys (cl_none C, 0%N)).1 by rewrite /ls; exact: (List.map_nth fst ys (cl_none C, 0%N) r).
  pose ids := owned sh ax size.
  have Hi r : axis_ids sh ax (Some (size, r)) = ids r by rewrite /ids /axis_ids /local_piece /owned; case: (blockdist _ _ _).
  have Hp : Permutation (List.concat (List.map ids (List.seq 0 (length ls)))) (List.seq 0 (Base_List.prod sh)).
    by rewrite Hlsz; apply: owned_perm => //; exact/ltP.
  have Hls r : (r < length ls)%N -> let l := List.nth r ls (cl_none C) in
    [/\ cl_m l = length (ids r), cl_rows l = List.map (picks 0 (ids r)) rec, cl_w l = picks 0 (ids r) W &
        forall j, (j < nf * nm)%N -> List.nth j (cl_phi l) nil = List.map (fun i => vcol fo i j) (ids r)].
    by rewrite Hlsz => /Hy [phi [E Hphi]]; rewrite Hnth E /= -Hi; split.
  have Hs' : (0 < length ls)%N by rewrite Hlsz.
  have Hshp r : (r < length ls)%N -> cl_shape (List.nth r ls (cl_none C)) = upd_nth ax (blockdist (List.nth ax sh 0%N) (length ls) r).1 sh.
    by rewrite Hlsz => /Hy [phi [E Hphi]]; rewrite Hnth E.
  pose Pm r : nd C := Nd (List.app (upd_nth ax (blockdist (List.nth ax sh 0%N) size r).1 sh) (cons nf (cons nm nil))) (vmem fo (ids r)).
  have EM : List.map (@vl_modes C nf nm ls nf) (enum 'I_(length ls)) = List.map Pm (List.seq 0 size).
    have -> : List.seq 0 size = List.map val (enum 'I_(length ls)) by rewrite -[List.map _ _]/(map _ _) val_enum_ord iota_seq Hlsz.
    rewrite [RHS]List.map_map; apply: List.map_ext => r; rewrite (vl_modesE win junk Hsh Hm Hnm Hls) /Pm; congr (Nd (List.app _ _) _); rewrite -[in RHS]Hlsz; exact: (Hshp r (ltn_ord r)).
  have HPm r : (r < size)%N -> Model_Parallel.shape (Pm r) = List.app (upd_nth ax (blockdist (List.nth ax sh 0%N) size r).1 sh) (cons nf (cons nm nil)) /\ wf (Pm r).
    move=> Hr; split=> //; rewrite /wf /Pm [flat _]/= vmem_len [Model_Parallel.shape _]/= prod_app -Hi axis_ids_length //; last exact/ltP.
    by rewrite /=; clear; nia.
  exists (concat_axis ax (List.map Pm (List.seq 0 size))).
  have [E1 E2] := @in_split_pieces C sh ax size Pm (cons nf (cons nm nil)) (introT ltP Hlt') Hsz HPm.
  split=> //; last first.
    by move=> cm /List.in_map_iff [r [<- /List.in_seq [_ /ltP Hr]]]; rewrite Hi; exact: E2.
  rewrite (vl_coeffsE n_dft win omega s Hp Hls Hs') [cl_file _ _ _]/(concat_axis ax _) EM.
  rewrite (@cl_ltm_par _ _ rec W (vcol fo) ids (@svd0 C) (nf * nm)%N ls Hp Hls Hs' sh ax erefl (introT ltP Hlt')) //; last by move=> r _; rewrite Hlsz.
  rewrite -Lr.
  have -> : List.hd None (comms (Some size)) = Some (size, 0%N) by case: (size) Hsz.
  by rewrite Hi.
- cbn [comms List.map all_ok].
  have [phi [-> Hphi]] := conv_rankE win junk cast Hwf Hs Hnt Hpos Hax Hsh Hw Hm Hnm Hnf Hdft Hfr Hfl (cm := None) I (Hids None (or_introl erefl)); cbn [bind all_ok List.map List.hd fst snd].
  set ls := [:: _].
  pose ids (r : nat) := List.seq 0 (Base_List.prod sh).
  have Hp : Permutation (List.concat (List.map ids (List.seq 0 (length ls)))) (List.seq 0 (Base_List.prod sh)).
    by rewrite /= List.app_nil_r /ids.
  have Hls r : (r < length ls)%N -> let l := List.nth r ls (cl_none C) in
    [/\ cl_m l = length (ids r), cl_rows l = List.map (picks 0 (ids r)) rec, cl_w l = picks 0 (ids r) W &
        forall j, (j < nf * nm)%N -> List.nth j (cl_phi l) nil = List.map (fun i => vcol fo i j) (ids r)].
    by case: r => // _; split.
  exists (Nd (List.app sh (cons nf (cons nm nil))) (vmem fo (ids 0%N))); split=> //; last first.
    by move=> cm [<-|//]; eexists; split; [reflexivity|].
  rewrite (vl_coeffsE n_dft win omega s Hp Hls isT).
  rewrite (@cl_ltm_serial _ _ rec W (vcol fo) ids (@svd0 C) (nf * nm)%N ls Hp Hls isT sh erefl erefl erefl) -Lr.
  congr (Ok (_, _, _, _)).
  rewrite /cl_file.
  have : (0 < seq.size (enum 'I_(length ls)))%N by rewrite size_enum_ord.
  case: (enum 'I_(length ls)) => //= r _ _; rewrite (vl_modesE win junk Hsh Hm Hnm Hls).
  have -> : nat_of_ord r = 0%N by case: (r) => -[].
  by [].
Qed.
End Whole.
