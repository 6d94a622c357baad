(* Property theorems C161: fit, coefficients, reconstruction: the whole workflow from arrays to files. *)
From Coq Require Import QArith.
From Verif Require Import Base_List Model_Parallel Model_Reader1 Model_Reader2 Model_Select Model_Base Model_Standard Model_Pipeline Spec_Array Spec_Reader Spec_Reader2
  Model_RecFile Spec_RecFile Proof_Parallel Proof_Npy2 Proof_Reader1 Proof_Reader1b Proof_Pipeline Proof_RecFile Prop_RecFile Prop_Sizes.
From Coq Require Import Sorting.Permutation.
From mathcomp Require Import all_ssreflect all_algebra.
From Verif Require Import Model_Spod Spec_Spod Spec_Coeffs Proof_Spod Model_SpodPar Proof_SpodPar Proof_Spectral Proof_StreamAlg Proof_Optimal Proof_Optimal2 Model_Coeffs Proof_StreamNum3 Proof_Svd Proof_Coeffs Prop_Coeffs Prop_Roundtrip
  Model_PipelineNum Proof_PipelineNum Proof_PipelineFit Prop_Pipeline Model_PipelineCoef Proof_PipelineCoef Prop_PipelineCoef.
Set Implicit Arguments.
Unset Strict Implicit.
Unset Printing Implicit Defensive.
Import Order.TTheory GRing.Theory Num.Theory.
Local Open Scope ring_scope.

(* what a fit of in-memory data leaves in its folder for later calls: spod/base.py:662-698 (_store_and_save): weights.npy (684), params_modes.yaml (690),
   eigs_freq.npz (692-698); the mode files by frequency are those the fit returned (standard.py:242-249) *)
Definition folder_of_fit (C : numClosedFieldType) (s : settings C) (c : config C) (xs : list nat) (nv : nat) (user : weights_arg C) (files : list (nd C)) : folder C :=
  Folder (length xs) nv (get_freq_axis (isrealx c) (s_full s) (s_ndft s) (s_dt s)) (n_freq c) (n_modes_save c)
    (Nd (List.app xs [:: nv]) (weights_of 1 user xs nv)) (fun f => List.nth_error files f).

Lemma sum_toE (C : numClosedFieldType) p (f : nat -> C) : sum_to 0 +%R p f = \sum_(j < p) f j.
Proof.
rewrite /sum_to -(big_mkord xpredT f) /index_iota subn0 iota_seq.
by elim: (List.seq 0 p) => [|x l IH] /=; rewrite ?big_nil ?big_cons ?IH.
Qed.
Lemma entry_value (C : numClosedFieldType) (a : nd C) idx : value 0 a idx = List.nth (Spec_Array.ravel (Model_Parallel.shape a) idx) (flat a) 0.
Proof.
rewrite /value /entry; set k := Spec_Array.ravel _ _; case E: (List.nth_error _ _) => [x|]; first by rewrite (List.nth_error_nth _ _ 0 E).
by move/List.nth_error_None: E => E; rewrite List.nth_overflow.
Qed.

Section Core.
Variables (C : numClosedFieldType) (c : config C) (n : nat) (rec : list (list C)) (w : 'cV[C]_n).
Variables (eig : 'M[C]_(n_blocks c) -> 'rV[C]_(n_blocks c) * 'M[C]_(n_blocks c)) (argsort : 'rV[C]_(n_blocks c) -> 'I_(n_blocks c) -> 'I_(n_blocks c)).
Variable H : (n_modes_save c <= n_blocks c)%N.
Let X (t : nat) (i : 'I_n) : C := List.nth i (List.nth t rec nil) 0.
Variables (svd : 'M[C]_(n_freq c * n_modes_save c) -> 'M[C]_(n_freq c * n_modes_save c) * 'rV[C]_(n_freq c * n_modes_save c) * 'M[C]_(n_freq c * n_modes_save c)) (tol : C).
Variable Phi : 'M[C]_(n, n_freq c * n_modes_save c).
Hypothesis Hlen : length rec = nt c.
Hypothesis Hmean : mean_type c = Longtime.
Hypothesis Hnorm : normalize_data c = false.
Hypothesis Hf : n_freq c = n_dft c.
Hypothesis Hnb : (0 < n_blocks c)%N.
Hypothesis Hroot : (n_dft c).-primitive_root (omega c).
Hypothesis Hwin : forall k, (k < n_dft c)%N -> window c k != 0.
Hypothesis Hsum : \sum_(k < n_dft c) window c k != 0.
Hypothesis Hw : forall x, 0 < w x 0.
Hypothesis Heig : eig_ok eig.
Hypothesis Hbasis : eig_basis eig.
Hypothesis Hsort : argsort_ok argsort.
Let lam f k := run_L eig argsort (size := 1) (fun _ i => i) X w f 0 k.
Hypothesis Hpos : forall f (k : 'I_(n_blocks c)), (f < n_freq c)%N -> (k < n_modes_save c)%N -> 0 < lam f k.
Hypothesis Hzero : forall f (k : 'I_(n_blocks c)), (f < n_freq c)%N -> (n_modes_save c <= k)%N -> lam f k = 0.
Hypothesis Hg : gathered (fun f x m => serial_modes eig argsort X w ord0 f H x m) Phi.
Hypothesis Hsvd : svd3_ok svd.
Hypothesis Hc : well_conditioned tol (svd (mode_gram w Phi)).1.2.
Lemma core_returns (i : 'I_n) (t : 'I_(length rec)) : covered c t ->
  \sum_j Phi i j * serial_coeffs w Phi (crec n rec : 'M_(length rec, n)) svd tol j t + cmean rec i = X t i.
Proof.
move=> Hcov.
have G m (Em : m = nt c) (u : 'I_m) : covered c u -> serial_rec w Phi (\matrix_(t, i) X t i : 'M[C]_(m, n)) svd tol i u = X u i.
  subst m; exact: (C132_record_comes_back Hmean Hnorm Hf Hnb Hroot Hwin Hsum Hw Heig Hbasis Hsort Hpos Hzero (id_partition n) Hg Hsvd Hc (r := ord0) i).
rewrite -(G _ Hlen t Hcov) /serial_rec (recE (id_partition n)).
congr (_ + _).
  rewrite [RHS]mxE; apply: eq_bigr => j _; by rewrite /serial_coeffs (coeffsE (id_partition n)).
by rewrite /cmean /time_mean; congr (_ / _); apply: eq_bigr => u _; rewrite [RHS]mxE.
Qed.
End Core.

Section Folder.
Variables (C : numClosedFieldType) (s : settings C) (c : config C) (xs : list nat) (nv : nat) (user : weights_arg C).
Lemma ravel_at (sh idx : list nat) j p (l : list C) : valid sh idx ->
  value 0 (Nd (List.app sh [:: p]) l) (List.app idx [:: j]) = List.nth (Spec_Array.ravel sh idx * p + j)%N l 0.
Proof. by move=> V; rewrite entry_value /= ravel_snoc //; exact: valid_length. Qed.
Lemma pos_axes (sh : list nat) : (0 < Base_List.prod sh)%N -> List.Forall (fun d => (0 < d)%coq_nat) sh.
Proof.
elim: sh => [|d sh IH] /=; first by constructor.
move/ssrnat.ltP => Hp; have [Hd Hs] : (0 < d)%coq_nat /\ (0 < Base_List.prod sh)%coq_nat by rewrite -?multE in Hp; nia.
by constructor=> //; apply: IH; apply/ssrnat.ltP.
Qed.
Lemma rows_len (T : Type) m q (M : 'I_m -> 'I_q -> T) : length (List.flat_map (fun i : 'I_m => List.map (fun j => M i j) (enum 'I_q)) (enum 'I_m)) = (m * q)%N.
Proof.
have G l : length (List.flat_map (fun i : 'I_m => List.map (fun j => M i j) (enum 'I_q)) l) = (length l * q)%N.
  elim: l => //= i l IH; by rewrite List.app_length IH List.map_length -[length (enum _)]/(seq.size _) size_enum_ord.
by rewrite G -[length _]/(seq.size _) size_enum_ord.
Qed.
End Folder.

(* ---- C161 ---- *)
(* Three calls in a row on one array: a fit on np1 processes, the coefficients of all frequencies from the folder the fit left on np2 processes, a
   reconstruction of any non-empty selection of times on `size` processes.  Full spectrum, long-time mean, positive weights, every eigenvalue among the
   saved ones positive and every other zero, a window without zeros, no direction lost to the tolerance: the snapshots that lie in a block come back
   unchanged, in the array a single process returns and in the file all processes write together, in whatever order their writes arrive. *)
Theorem C161_record_returns : forall (C : numClosedFieldType) eig argsort (svd : forall p, 'M[C]_p -> 'M[C]_p * 'rV[C]_p * 'M[C]_p) (tol : C)
    (A : Type) (cast : A -> C) isreal s (data : nd A) xs nv user np1 c eigs files,
  valid_arrays s [:: data] xs nv user np1 ->
  configure s (length (Spec_Reader.record [:: data])) (List.forallb isreal (List.hd nil (Spec_Reader.record [:: data]))) = Ok c ->
  fit_array eig argsort cast isreal s [:: data] (length xs) nv user np1 = Ok (eigs, files) ->
  [/\ s_mean s = Longtime, s_norm s = false, n_freq c = s_ndft s, (0 < s_modes s)%N & (s_ndft s).-primitive_root (s_omega s)] ->
  (forall k, (k < s_ndft s)%N -> s_window s k != 0) -> \sum_(k < s_ndft s) s_window s k != 0 ->
  (forall x, List.In x (weights_of 1 user xs nv) -> 0 < x) ->
  eig_ok (eig (n_blocks c)) -> eig_basis (eig (n_blocks c)) -> argsort_ok (argsort (n_blocks c)) -> svd3_ok (@svd (n_freq c * n_modes_save c)%N) ->
  let lam f k := List.nth k (List.nth f eigs nil) 0 in
  (forall f k, (f < n_freq c)%N -> (k < n_modes_save c)%N -> 0 < lam f k) ->
  (forall f k, (f < n_freq c)%N -> (n_modes_save c <= k)%N -> lam f k = 0) ->
  let fo := folder_of_fit s c xs nv user files in let sh := List.app xs [:: nv] in let p := (n_freq c * n_modes_save c)%N in
  exists cs ms mu ax,
    (forall np2, coef_procs np2 -> coef_array svd tol cast fo None None None data np2 = Ok (cs, ms, mu, ax)) /\
    (well_conditioned tol (svd p (mode_gram (w_of fo (Base_List.prod sh)) (matrix_of (Base_List.prod sh) p (flat ms)))).1.2 ->
     forall tsel ts, selected_times (List.hd 0%N (Model_Parallel.shape data)) tsel = Ok ts -> ts <> nil ->
     exists Q,
     [/\ local_rec 0 +%R *%R ms cs mu ax tsel None = Ok Q, Model_Parallel.shape Q = length ts :: sh,
         (forall k i idx, List.nth_error ts k = Some i -> covered c i -> valid sh idx -> entry Q (k :: idx) = Some (sample cast data i (Spec_Array.ravel sh idx))) &
         forall (B : Type) (enc : C -> list B) hdr es size, (forall x, length (enc x) = es) -> (0 < size)%N ->
         exists locs, List.Forall2 (fun r q => local_rec 0 +%R *%R ms cs mu ax tsel (Some (size, r)) = Ok q) (List.seq 0 size) locs /\
         forall order, Permutation order (npy_save_writes enc hdr es (S ax) locs) ->
         forall before pos, npy_save_file order before pos = List.nth_error (np_save enc hdr Q) pos]).
Proof.
move=> C eig argsort svd tol A cast isreal s data xs nv user np1 c eigs files Hv Hcfg Hfit [Hmean Hnorm Hf Hms Hroot] Hwin Hsum HW Heig Hbasis Hsort Hsvd lam Hpos Hzero fo sh p.
have [c' [H [Hc' /= E]]] := C121_fit_arrays_is_spod eig argsort cast isreal Hv.
rewrite Hcfg in Hc'; case: Hc' => Ec; subst c'.
rewrite Hfit in E; case: E => Eeigs Efiles.
have Erec : Spec_Reader.record [:: data] = snapshots data by rewrite /Spec_Reader.record /= List.app_nil_r.
have [sp [ax0 [nb [[Hwf _ H0 Hsp Htl] [[Hspn Hsppos Hax0 Hov Hwok] [Hnb Hnse]]]]]] := Hv.
have [Hwfd Hshd] := Hwf data (or_introl erefl).
have Htl' := Htl data (or_introl erefl); rewrite /= in H0.
set nt := List.hd 0%N (Model_Parallel.shape data) in H0 *.
have Hshape : Model_Parallel.shape data = nt :: sp by rewrite /nt -Htl'; case: (Model_Parallel.shape data) Hshd.
have Lrec : length (Spec_Reader.record [:: data]) = nt by rewrite Erec snapshots_length /nrows Hshape.
have Lsn : length (snapshots data) = nt by rewrite -Erec.
rewrite Erec in Eeigs Efiles.
(* the configuration *)
have Hstarts := @starts_eq (length (Spec_Reader.record [:: data])) (s_ndft s) (s_novlp s) nb (elimT ssrnat.ltP Hov) Hnb.
have Hnb0 : (0 < n_blocks c)%N.
  have [_ [H2 _]] := Hstarts.
  by move: Hcfg; rewrite /configure Hnb /= => -[<-] /=; apply/ssrnat.ltP; lia.
have [EC1 EC2 EC3 [EC4 EC5 EC6]] : [/\ n_freq c = length (get_freq_axis (isrealx c) (s_full s) (s_ndft s) (s_dt s)), Model_Spod.nt c = nt, mean_type c = Longtime &
    [/\ normalize_data c = false, n_dft c = s_ndft s & omega c = s_omega s /\ (forall k, Model_Spod.window c k = s_window s k)]].
  by move: Hcfg; rewrite /configure Hnb /= => -[<-] /=; rewrite Lrec Hmean Hnorm.
have [EC7 EC8] := EC6.
have Hnm : (0 < n_modes_save c)%N.
  move: Hcfg Hnb0; rewrite /configure Hnb /= => -[<-] /= Hb; by case: ifP.
have Hnf0 : (0 < n_freq c)%N by rewrite Hf; exact: prim_order_gt0 Hroot.
clear Hstarts.
(* the frequencies *)
set freq := get_freq_axis (isrealx c) (s_full s) (s_ndft s) (s_dt s) in EC1.
pose fs := Fsel (List.nth 0 freq (inject_Z 0)) 0 (List.nth (n_freq c - 1) freq (inject_Z 0)) (n_freq c - 1) (Z.of_nat (n_freq c)) (List.seq 0 (n_freq c)).
have Hsel : select_freqs (rf_freq fo) (rf_nfreq fo) None None None = Ok fs.
  rewrite /select_freqs /fo /folder_of_fit; cbn [is_none orb andb rf_freq rf_nfreq]; rewrite -/freq.
  rewrite (@List.nth_error_nth' _ freq 0 (inject_Z 0)); last by apply/ssrnat.ltP; rewrite -EC1.
  rewrite (@List.nth_error_nth' _ freq (n_freq c - 1)%coq_nat (inject_Z 0)); last by rewrite -EC1; move/ssrnat.ltP: Hnf0; clear; lia.
  cbn [bind]; rewrite /fs; congr (Ok (Fsel _ _ _ _ _ _)); first by move/ssrnat.ltP: Hnf0; clear; rewrite ?subn1 ?Nat.sub_1_r; lia.
  by congr (List.seq _ _); move/ssrnat.ltP: Hnf0; clear; rewrite ?subn1 ?Nat.sub_1_r; lia.
(* what the coefficients are computed from *)
have Hdim : length sp = (rf_xdim fo + 1)%N /\ sh = sp \/ length sp = rf_xdim fo /\ rf_nv fo = 1%N /\ sh = List.app sp [:: 1%N].
  case: Hsp => [Es|[En Es]]; [left|right]; rewrite /fo /sh /=; first by rewrite Es List.app_length.
  by rewrite Es En.
have Hprod : Base_List.prod sh = Base_List.prod sp.
  by case: Hdim => [[_ ->]|[_ [_ ->]]] //; rewrite prod_app /=; lia.
have Hwts : wf (rf_weights fo) /\ Model_Parallel.shape (rf_weights fo) = sh.
  by split=> //; rewrite /fo /wf /=; exact: weights_of_length.
have Hmodes f : List.In f (freq_list fs) -> exists a, [/\ rf_modes fo f = Some a, wf a & Model_Parallel.shape a = List.app sh [:: rf_nm fo]].
  move=> /List.in_seq [_ Hl]; exists (ref_freq_file eig argsort (List.map (List.map cast) (snapshots data)) (weights_of 1 user xs nv) sh H f).
  split=> //; last by rewrite /wf /= rows_len prod_app /= Nat.mul_1_r.
  rewrite /fo /= Efiles; apply: List.map_nth_error.
  by rewrite (@List.nth_error_nth' _ _ _ 0%N) ?List.seq_nth // List.seq_length.
have Hfl : freq_list fs <> nil by rewrite /=; case: (n_freq c) Hnf0.
have Hlenf : (length (freq_list fs) <= n_freq c)%N by rewrite /= List.seq_length.
have E np2 (Hp : coef_procs np2) := @coef_gen C A cast fo fs (n_freq c) nt sp sh data ax0 Hwfd Hshape H0 Hsppos Hax0 Hdim Hwts Hmodes Hnm Hfl erefl Hlenf svd tol None None None np2 Hp Hsel.
set n := Base_List.prod sh in E *; set rec := List.map (List.map cast) (snapshots data) in E.
change (rf_nm fo) with (n_modes_save c) in E; change (n_freq c * n_modes_save c)%N with p in E.
have Lrec' : length rec = nt by rewrite List.map_length.
set Phi := cphi n (pcol fo fs) p in E; set w := cw n (flat (rf_weights fo)) in E.
set Co := serial_coeffs w Phi (crec n rec) (@svd p) tol in E.
exists (Nd [:: p; nt] (ravel Co)), (Nd (List.app sh [:: p]) (ravel Phi)), (Nd sh (List.map (cmean rec) (List.seq 0 n))), ax0; split=> // Hwell tsel ts Hts Htsn.
have Hspos : List.Forall (fun d => (0 < d)%coq_nat) sh by apply: pos_axes; rewrite Hprod.
have Haxl : (ax0 < length sh)%coq_nat.
  have := argmax_lt _ Hax0; by case: Hdim => [[_ ->]|[_ [_ ->]]] //; rewrite List.app_length /=; lia.
have Wphi : wf (Nd (List.app sh [:: p]) (ravel Phi)) by rewrite /wf /= ravel_len prod_app /= Nat.mul_1_r.
have Wa : wf (Nd [:: p; nt] (ravel Co)) by rewrite /wf /= ravel_len Lrec' Nat.mul_1_r.
have Wm : wf (Nd sh (List.map (cmean rec) (List.seq 0 n))) by rewrite /wf /= List.map_length List.seq_length.
have File B (enc : C -> list B) hdr es size He (Hs : (0 < size)%N) := @C152_oblique_file C 0 +%R *%R B enc hdr es He (Nd (List.app sh [:: p]) (ravel Phi)) (Nd [:: p; nt] (ravel Co))
  (Nd sh (List.map (cmean rec) (List.seq 0 n))) sh p nt ax0 tsel ts size erefl erefl erefl Wphi Wa Wm Haxl Hspos Hts Htsn (elimT ssrnat.ltP Hs).
have [Q [_ [SQ [_ [HQ [LQ _]]]]]] := File unit (fun _ => nil) (fun _ => nil) 0%N 1%N (fun _ => erefl) isT.
exists Q; split=> //; last first.
  move=> B enc hdr es size He Hs; have [Q' [locs [_ [_ [_ [LQ' [HF HS]]]]]]] := File B enc hdr es size He Hs.
  by exists locs; split=> //; move: LQ'; rewrite LQ => -[->].
move=> k i idx Hk Hcov V; rewrite (HQ k i idx Hk V); congr Some.
have Hr : (Spec_Array.ravel sh idx < n)%N by apply/ssrnat.ltP; exact: ravel_bound.
set r := Spec_Array.ravel sh idx in Hr *; pose x := Ordinal Hr.
have Hi : (i < length rec)%N.
  have [l [_ [_ [Hl _]]]] := selected_split _ _ Hts.
  rewrite Lrec'; apply/ssrnat.ltP; move/List.Forall_forall: (@index_times_lt C 0 +%R *%R _ _ _ Hl) => /(_ _ (List.nth_error_In _ _ Hk)).
  exact.
pose t := Ordinal Hi.
have Ewf : w_of fo n = w by apply/matrixP => a b; rewrite [b]ord1 !mxE.
have EP : matrix_of n p (ravel Phi) = Phi by apply/matrixP => a b; rewrite mxE (ravel_nth Phi a b).
rewrite /= EP Ewf in Hwell.
have Hw y : 0 < w y 0.
  rewrite mxE; apply: HW; apply: List.nth_In; rewrite /= weights_of_length //; apply/ssrnat.ltP; exact: ltn_ord.
have Hg : gathered (fun f y m => serial_modes (@eig _) (@argsort _) (fun u (y : 'I_n) => List.nth y (List.nth u rec nil) 0) w ord0 f H y m) Phi.
  move=> y j f m Ej; rewrite mxE /pcol; change (rf_nm fo) with (n_modes_save c).
  have Hjp : (f * n_modes_save c + m < n_freq c * n_modes_save c)%N by rewrite -Ej; exact: ltn_ord.
  have [Hdv Hmd] : Nat.div j (n_modes_save c) = f /\ Nat.modulo j (n_modes_save c) = m.
    rewrite Ej -multE -plusE; move/ssrnat.ltP: (ltn_ord m); clear; move=> Hm; split.
      by rewrite Nat.div_add_l ?Nat.div_small; lia.
    by rewrite Nat.add_comm Nat.mod_add ?Nat.mod_small //; lia.
  have Hfn : (f < n_freq c)%N by rewrite -(ltn_pmul2r Hnm); apply: leq_ltn_trans Hjp; exact: leq_addr.
  rewrite Hdv Hmd [freq_list fs]/= (@List.nth_error_nth' _ _ _ 0%N) ?List.seq_length ?List.seq_nth; try exact/ssrnat.ltP.
  rewrite -[rf_modes fo _]/(List.nth_error files f).
  rewrite Efiles (@List.nth_error_nth' _ _ _ (Nd nil nil)) ?List.map_length ?List.seq_length; try exact/ssrnat.ltP.
  rewrite nth_map_seq // /ref_freq_file [flat _]/=; exact: nth_rows.
have Hlam f (k' : 'I_(n_blocks c)) : (f < n_freq c)%N ->
    lam f k' = one_sided c f * run_L (c := c) (@eig _) (@argsort _) (size := 1) (fun _ (y : 'I_n) => y) (fun u (y : 'I_n) => List.nth y (List.nth u rec nil) 0) w f 0 k'.
  move=> Hfn; rewrite -(run_eigsE (@argsort _) (@serial_partition n) _ (fun y => ltW (Hw y)) Heig f k').
  rewrite /lam Eeigs /ref_eigs nth_map_seq //.
  by rewrite nth_List -[List.map _ _]/(map _ _) (nth_map k') ?size_enum_ord // nth_ord_enum.
have Hwin' k' : (k' < n_dft c)%N -> Model_Spod.window c k' != 0 by rewrite EC5 EC8; exact: Hwin.
have Hsum' : \sum_(k' < n_dft c) Model_Spod.window c k' != 0.
  have -> : \sum_(k' < n_dft c) Model_Spod.window c k' = \sum_(k' < s_ndft s) s_window s k' by rewrite -EC5; apply: eq_bigr => k' _; rewrite EC8.
  exact: Hsum.
have Hpos' f (k' : 'I_(n_blocks c)) : (f < n_freq c)%N -> (k' < n_modes_save c)%N ->
   0 < run_L (c := c) (@eig _) (@argsort _) (size := 1) (fun _ (y : 'I_n) => y) (fun u (y : 'I_n) => List.nth y (List.nth u rec nil) 0) w f 0 k'.
  by move=> Hfn Hkn; have := Hpos f k' Hfn Hkn; rewrite (Hlam f k' Hfn) pmulr_rgt0 // one_sided_gt0.
have Hzero' f (k' : 'I_(n_blocks c)) : (f < n_freq c)%N -> (n_modes_save c <= k')%N ->
   run_L (c := c) (@eig _) (@argsort _) (size := 1) (fun _ (y : 'I_n) => y) (fun u (y : 'I_n) => List.nth y (List.nth u rec nil) 0) w f 0 k' = 0.
  by move=> Hfn Hkn; have := Hzero f k' Hfn Hkn; rewrite (Hlam f k' Hfn) => /eqP; rewrite mulf_eq0 (gt_eqF (one_sided_gt0 c f)) => /eqP.
have Lc : length rec = Model_Spod.nt c by rewrite Lrec' EC2.
have Hfd : n_freq c = n_dft c by rewrite EC5.
have Hroot' : (n_dft c).-primitive_root (omega c) by rewrite EC5 EC7.
have Core := @core_returns C c n rec w (@eig _) (@argsort _) H (@svd p) tol Phi Lc EC3 EC4 Hfd Hnb0 Hroot' Hwin' Hsum' Hw Heig Hbasis Hsort Hpos' Hzero' Hg Hsvd Hwell x t Hcov.
rewrite /sample -/rec -[RHS]/(List.nth x (List.nth t rec nil) 0) -Core /cell_op sum_toE; congr (_ + _).
  apply: eq_bigr => j _; congr (_ * _); first by rewrite ravel_at // -/r (ravel_nth Phi x j).
  have -> : value 0 (Nd [:: p; nt] (ravel Co)) [:: val j; i] = List.nth (j * nt + i)%N (ravel Co) 0.
    by rewrite entry_value /=; congr (List.nth _ _ _); rewrite -?multE -?plusE; lia.
  by rewrite -Lrec'; exact: (ravel_nth Co j t).
by rewrite entry_value /= -/r nth_map_seq.
Qed.
Print Assumptions C161_record_returns.

(* the hypotheses are met: eight snapshots of two points, two blocks of four, complex data, all modes kept *)
Section Nonvacuous.
Variable C : numClosedFieldType.
Definition wf_d : nd C := Nd [:: 8; 2]%N [:: 1; 1; 0; 0; 0; 0; 0; 0; -1; 0; 0; -1; 0; 0; 0; 0].
Definition wf_win (k : nat) : C := if k is 1%N then 2%:R else 1.
Definition wf_s : settings C := Settings 4 0 2 Longtime false false (inject_Z 1) 0 wf_win 'i 0 (fun _ x => x).
Definition wf_c : config C := Config 8 4 0 2 4 2 Longtime false 0 wf_win false 'i 0 (fun _ x => x).
Definition wf_X (t : nat) (i : 'I_2) : C := List.nth i (List.nth t (List.map (List.map (fun x : C => x)) (Spec_Reader.record [:: wf_d])) nil) 0.
Lemma wf_root : 4.-primitive_root ('i : C).
Proof.
have H2 : (2%:R : C) != 0 by rewrite pnatr_eq0.
have Hn : (-1 == 1 :> C) = false by rewrite eq_sym -subr_eq0 opprK -(natrD _ 1 1) (negbTE H2).
have Hi2 : 'i ^+ 2 = -1 :> C := sqrCi C.
apply/andP; split=> //; apply/forallP => i; case: i => [[|[|[|[|i]]]] Hi] //; rewrite unity_rootE /=.
- apply/eqP/negbTE/eqP => E; have : 'i ^+ 2 == 1 :> C by move: E; rewrite expr1 => ->; rewrite expr1n.
  by rewrite Hi2 Hn.
- by rewrite Hi2 Hn.
- apply/eqP/negbTE/eqP => E; have : ('i ^+ 3) ^+ 2 == 1 :> C by rewrite E expr1n.
  by rewrite -exprM mulnC exprM Hi2 -signr_odd /= expr1 Hn.
- by rewrite -[4%N]/(2 * 2)%N exprM Hi2 -signr_odd /= expr0 eqxx.
Qed.
Lemma wf_positive eig argsort (w : 'cV[C]_2) : (forall x, 0 < w x 0) -> eig_ok eig -> forall f (k : 'I_2),
  0 < run_L (c := wf_c) eig argsort (size := 1) (fun _ (i : 'I_2) => i) wf_X w f 0 k.
Proof.
move=> Hw He f k; apply: independent_blocks => // u Hu.
have Hww : win_weight wf_c / (n_dft wf_c)%:R != 0.
  have Hs2 : \sum_(k < 4) Model_Spod.window wf_c k != 0 by rewrite !big_ord_recl big_ord0 /= addr0 -(natrD _ 1 1) -(natrD _ 2 2) -(natrD _ 1 4) pnatr_eq0.
  by apply: mulf_neq0; [rewrite /win_weight invr_eq0; apply: mulf_neq0|]; rewrite // invr_eq0 pnatr_eq0.
have Hmu i : t_mean wf_c (fun t => wf_X t i) = 0.
  rewrite /t_mean /= !big_ord_recl big_ord0 /wf_X /=; case: i => [[|[|i]] Hi] //=; by rewrite ?add0r ?addr0 subrr mul0r.
have E i : (wf_X 0 i + wf_X 1 i * 2%:R * 'i ^+ f + wf_X 2 i * 'i ^+ (f * 2) + wf_X 3 i * 'i ^+ (f * 3)) * u ord0 0
   + (wf_X 4 i + wf_X 5 i * 2%:R * 'i ^+ f + wf_X 6 i * 'i ^+ (f * 2) + wf_X 7 i * 'i ^+ (f * 3)) * u (lift ord0 0) 0 = 0.
  have := congr1 (fun M : 'cV_2 => M i 0) Hu; rewrite [RHS]mxE mxE big_ord_recl big_ord1 !mxE /block_hat /dft.
  rewrite !big_ord_recl !big_ord0 !addr0 /block_windowed /block_normalized /block_centred [normalize_data wf_c]/= [mean_type wf_c]/= Hmu !subr0.
  move=> Hh; apply: (mulfI Hww); rewrite mulr0 mulrDr [Y in Y + _]mulrA [Y in _ + Y]mulrA -{}Hh.
  by congr (_ * _ * _ + _ * _ * _); rewrite -!addrA; congr (_ + (_ + (_ + _))); rewrite ?muln0 ?muln1 ?expr0 ?mulr1.
have E0 := E ord0; have E1 := E (lift ord0 ord0).
rewrite /wf_X /= !mul0r !addr0 !mul1r mulN1r in E0.
rewrite /wf_X /= !mul0r !addr0 !add0r !mul1r in E1.
have Eu : u ord0 0 = u (lift ord0 0) 0 by apply/eqP; rewrite -subr_eq0 E0.
have E2 : (1 - 2%:R * 'i ^+ f) * u (lift ord0 0) 0 = 0 by move: E1; rewrite Eu mulN1r !mulNr => E1; rewrite mulrBl mul1r.
have Hd : 1 - 2%:R * 'i ^+ f != 0 :> C.
  apply/negP; rewrite subr_eq0 => /eqP /(congr1 Num.norm); rewrite normr1 normrM normrX normCi expr1n mulr1 normr_nat => /eqP.
  by rewrite -subr_eq0 -oppr_eq0 opprB -(natrB _ (leqnSn 1)) pnatr_eq0.
move/eqP: E2; rewrite mulf_eq0 (negbTE Hd) => /eqP E2.
apply/matrixP => i j; rewrite [j]ord1 [RHS]mxE; case: i => [[|[|i]] Hi] //.
  by rewrite (_ : Ordinal Hi = ord0); [rewrite Eu|apply: val_inj].
by rewrite (_ : Ordinal Hi = lift ord0 0) //; apply: val_inj.
Qed.
Example C161_nonvacuous : exists eig argsort (svd : forall p, 'M[C]_p -> 'M[C]_p * 'rV[C]_p * 'M[C]_p) eigs files,
  let c := wf_c in let isreal := fun _ : C => false in let fo := folder_of_fit wf_s c [:: 2%N] 1 NoWeights files in
  [/\ forall np, np = None \/ np = Some 1%N -> valid_arrays wf_s [:: wf_d] [:: 2%N] 1 NoWeights np,
      configure wf_s (length (Spec_Reader.record [:: wf_d])) (List.forallb isreal (List.hd nil (Spec_Reader.record [:: wf_d]))) = Ok c,
      forall np, np = None \/ np = Some 1%N -> fit_array eig argsort (fun x : C => x) isreal wf_s [:: wf_d] 1 1 NoWeights np = Ok (eigs, files) &
      [/\ s_mean wf_s = Longtime, s_norm wf_s = false, n_freq c = s_ndft wf_s, (0 < s_modes wf_s)%N & (s_ndft wf_s).-primitive_root (s_omega wf_s)]] /\
  [/\ forall k, (k < s_ndft wf_s)%N -> s_window wf_s k != 0, \sum_(k < s_ndft wf_s) s_window wf_s k != 0 &
      forall x, List.In x (weights_of (1 : C) NoWeights [:: 2%N] 1) -> 0 < x] /\
  [/\ eig_ok (eig (n_blocks c)), eig_basis (eig (n_blocks c)), argsort_ok (argsort (n_blocks c)) & svd3_ok (@svd (n_freq c * n_modes_save c)%N)] /\
  [/\ forall f k, (f < n_freq c)%N -> (k < n_modes_save c)%N -> 0 < List.nth k (List.nth f eigs nil) 0,
      forall f k, (f < n_freq c)%N -> (n_modes_save c <= k)%N -> List.nth k (List.nth f eigs nil) 0 = 0,
      forall ms, well_conditioned 0 (svd 8%N (mode_gram (w_of fo 2) (matrix_of 2 8 ms))).1.2 & forall i, (i < 8)%N -> covered c i].
Proof.
have [eig2 [He Hb]] := eig_exists C 2; have [as2 Ha] := argsort_exists C 2; have [svd4 Hs] := svd3_routine_exists C 8.
pose eig n : 'M[C]_n -> 'rV[C]_n * 'M[C]_n := match @eqP _ 2%N n with ReflectT E => ecast n ('M[C]_n -> 'rV[C]_n * 'M[C]_n) E eig2 | _ => fun M => (0, M) end.
pose argsort n : 'rV[C]_n -> 'I_n -> 'I_n := match @eqP _ 2%N n with ReflectT E => ecast n ('rV[C]_n -> 'I_n -> 'I_n) E as2 | _ => fun _ i => i end.
pose svd p : 'M[C]_p -> 'M[C]_p * 'rV[C]_p * 'M[C]_p := match @eqP _ 8%N p with ReflectT E => ecast p ('M[C]_p -> 'M[C]_p * 'rV[C]_p * 'M[C]_p) E svd4 | _ => fun _ => (0, 0, 0) end.
have Ee : eig 2%N = eig2 by rewrite /eig; case: eqP => // E; rewrite eq_axiomK.
have Ea : argsort 2%N = as2 by rewrite /argsort; case: eqP => // E; rewrite eq_axiomK.
have Es : svd 8%N = svd4 by rewrite /svd; case: eqP => // E; rewrite eq_axiomK.
have Hv np : np = None \/ np = Some 1%N -> valid_arrays wf_s [:: wf_d] [:: 2%N] 1 NoWeights np.
  move=> Hnp; exists [:: 2%N], 0%N, (Z.of_nat 2); split; [split=> //|split; [split=> //|split]].
  - by move=> d [<-|//].
  - by right.
  - by move=> d [<-|//].
  - by vm_compute.
  - by case: Hnp => -> //=; split=> // -[|r].
pose c := wf_c.
have Hcfg : configure wf_s (length (Spec_Reader.record [:: wf_d])) (List.forallb (fun _ : C => false) (List.hd nil (Spec_Reader.record [:: wf_d]))) = Ok c by [].
have Hfit np (Hnp : np = None \/ np = Some 1%N) := C121_fit_arrays_is_spod eig argsort (fun x : C => x) (fun _ => false) (Hv np Hnp).
pose rec := List.map (List.map (fun x : C => x)) (Spec_Reader.record [:: wf_d]).
pose H : (n_modes_save c <= n_blocks c)%N := leqnn 2.
exists eig, argsort, svd, (ref_eigs eig argsort c rec [:: 1; 1] [:: 2; 1]%N), (List.map (ref_freq_file eig argsort rec [:: 1; 1] [:: 2; 1]%N H) (List.seq 0 (n_freq c))).
have Hroot := wf_root.
split; [split=> //|split; [|split]].
- move=> np Hnp; have [c' [H' [Hc' E]]] := Hfit np Hnp; rewrite Hcfg in Hc'; case: Hc' => Ec; subst c'.
  by rewrite E (eq_irrelevance H' H).
- split; first by move=> [|[|k]] _; rewrite /= ?pnatr_eq0 ?oner_eq0.
    by rewrite !big_ord_recl big_ord0 /= addr0 -(natrD _ 1 1) -(natrD _ 2 2) -(natrD _ 1 4) pnatr_eq0.
  by move=> x /= [<-|[<-|//]]; exact: ltr01.
- by rewrite /= Ee Ea Es.
pose w : 'cV[C]_2 := \col_i List.nth i [:: 1; 1] 0.
have Hw x : 0 < w x 0 by rewrite mxE; case: x => [[|[|x]] Hx] //=; exact: ltr01.
split.
- move=> f k Hf Hk; rewrite /ref_eigs nth_map_seq // nth_List -[List.map _ _]/(map _ _) (nth_map (Ordinal Hk : 'I_2)) ?size_enum_ord //.
  have -> : nth (Ordinal Hk : 'I_2) (enum 'I_2) k = Ordinal Hk by rewrite -[k in LHS]/(val (Ordinal Hk : 'I_2)) nth_ord_enum.
  have He' : eig_ok (eig (n_blocks c)) by rewrite /= Ee.
  rewrite /serial_eigs (run_eigsE (@argsort _) (@serial_partition 2) _ (fun y => ltW (Hw y)) He') mulr_gt0 ?one_sided_gt0 //.
  exact: (wf_positive _ Hw He').
- move=> f k Hf Hk; rewrite /ref_eigs nth_map_seq // List.nth_overflow // List.map_length -[length _]/(size _) size_enum_ord; exact/ssrnat.leP.
- move=> ms; rewrite Es => i m _; have [_ _ H0 _ _] := Hs (mode_gram (w_of (folder_of_fit wf_s c [:: 2%N] 1 NoWeights (List.map (ref_freq_file eig argsort rec [:: 1; 1] [:: 2; 1]%N H) (List.seq 0 (n_freq c)))) 2) (matrix_of 2 8 ms)).
  have := H0 i; rewrite mul0r le_eqVlt => /orP [/eqP <-|]; [by left|by right].
- move=> t Ht; exists (t %/ 4)%N, (t %% 4)%N; split; first by rewrite ltn_divLR.
  split; first by rewrite ltn_mod.
  by case: t Ht => [|[|[|[|[|[|[|[|t]]]]]]]].
Qed.
End Nonvacuous.
