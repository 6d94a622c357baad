(* Property theorems C164: a fit, then coefficients by convolution, from arrays to files. *)
From Coq Require Import QArith.
From Verif Require Import Base_List Model_Parallel Model_Reader1 Model_Reader2 Model_Select Proof_Select Model_Base Model_Standard Model_Pipeline Spec_Array Spec_Reader Spec_Reader2
  Proof_Parallel Proof_Npy2 Proof_Reader1 Proof_Reader1b Proof_Pipeline Prop_Sizes.
From Coq Require Import Sorting.Permutation List Lia ssreflect.
Import ListNotations.
(* ---- sizes ---- *)
Lemma h_pad_lt n : (1 < n)%nat -> (Z.to_nat (half_up n) < n)%nat.
Proof.
rewrite /half_up => H.
suff : ((Z.of_nat n + 1) / 2 < Z.of_nat n)%Z by have := Z.div_pos (Z.of_nat n + 1) 2; lia.
apply: Z.div_lt_upper_bound; lia.
Qed.
Lemma freq_axis_le real full n dt : (1 < n)%nat -> (length (get_freq_axis real full n dt) <= n)%nat.
Proof.
move=> Hn; rewrite /get_freq_axis.
have Hl j : (length (shift_from j dt (freq_full n dt)) = n)%nat.
  by rewrite /shift_from app_length map_length -app_length firstn_skipn /freq_full map_length seq_length.
case: full; first by rewrite /freq_full map_length seq_length.
case: real; last by case: (_ =? 0)%nat; rewrite Hl.
rewrite map_length seq_length; have := Nat.div_lt_upper_bound n 2 n; lia.
Qed.
From mathcomp Require Import all_ssreflect all_algebra.
From Verif Require Import Base_CRing Model_Spod Spec_Spod Spec_Coeffs Proof_Spod Model_SpodPar Proof_SpodPar Proof_Spectral Proof_StreamAlg Model_Coeffs Proof_StreamNum3 Proof_Svd Proof_Coeffs Prop_Coeffs Prop_Conv
  Model_PipelineNum Proof_PipelineNum Proof_PipelineFit Prop_Pipeline Model_PipelineCoef Proof_PipelineCoef Prop_PipelineCoef Prop_Workflow Model_PipelineConv Proof_PipelineConv Prop_PipelineConv.
Set Implicit Arguments.
Unset Strict Implicit.
Unset Printing Implicit Defensive.
Import Order.TTheory GRing.Theory Num.Theory.
Local Open Scope ring_scope.

(* ---- the coefficients of a serial run as sums over the entries ---- *)
Lemma conv_serialE (C : numClosedFieldType) nt n nm (w : 'cV[C]_n) (phi : nat -> 'I_n -> 'I_nm -> C) (X : nat -> 'I_n -> C) n_dft win omega f t m :
  conv_serial w phi (\matrix_(u, i) X u i : 'M[C]_(nt, n)) n_dft win omega f t m
  = corr nt n_dft win t * \sum_(i < n) spectrum_at nt n_dft win omega (fun u => X u i - (\sum_(v < nt) X v i) / nt%:R) f t * w i 0 * (phi f i m)^*.
Proof.
rewrite /conv_serial /conv_local; congr (_ * _); apply: eq_bigr => i _; congr (_ * _ * _).
rewrite /spectrum_at /q_blk; apply: eq_bigr => k _; congr (_ * _ * _).
rewrite /pad /around.
case: (leqP (h_pad n_dft) (t + k)) => Hh /=; last by case: (insub _).
rewrite -ltn_subLR //.
case: insubP => [s Hs Es|Hs]; last by rewrite (negbTE Hs).
rewrite Hs [dcent _ _ _ _ _]mxE [dloc _ _ _ _ _]mxE mxE Es [lt_mean _ _ _ _ _]mxE.
by congr (_ - _ / _); apply: eq_bigr => u _; rewrite !mxE.
Qed.
Lemma spectrum_at_ext (C : numClosedFieldType) nt n_dft (win : nat -> C) omega (u v : nat -> C) f t : (forall k, (k < nt)%N -> u k = v k) ->
  spectrum_at nt n_dft win omega u f t = spectrum_at nt n_dft win omega v f t.
Proof.
move=> E; apply: eq_bigr => k _; congr (_ * _ * _); rewrite /around; case: ifP => // /andP [H1 H2]; apply: E.
by rewrite ltn_subLR.
Qed.
Lemma sum_seq0 (C : numClosedFieldType) n (F : nat -> C) : \sum_(x <- List.seq 0 n) F x = \sum_(x < n) F x.
Proof. by rewrite -(big_mkord xpredT F) /index_iota subn0 iota_seq. Qed.
Section Core.
Variables (C : numClosedFieldType) (c : config C) (n : nat) (w : 'cV[C]_n).
Variables (eig : 'M[C]_(n_blocks c) -> 'rV[C]_(n_blocks c) * 'M[C]_(n_blocks c)) (argsort : 'rV[C]_(n_blocks c) -> 'I_(n_blocks c) -> 'I_(n_blocks c)).
Variable H : (n_modes_save c <= n_blocks c)%N.
Variable X : nat -> 'I_n -> C.
Hypothesis Hmean : mean_type c = Longtime.
Hypothesis Hnorm : normalize_data c = false.
Hypothesis Hnt : (0 < n_dft c <= nt c)%N.
Hypothesis Hnb : (0 < n_blocks c)%N.
Hypothesis Hsum : \sum_(k < n_dft c) window c k != 0.
Hypothesis Hw : forall i, 0 <= w i 0.
Hypothesis Heig : eig_ok eig.
Let lam f (m : 'I_(n_modes_save c)) : C := run_L eig argsort (size := 1) (fun _ i => i) X w f 0 (widen_ord H m).
Definition core_theta f (b : 'I_(n_blocks c)) (m : 'I_(n_modes_save c)) : C := (run_V eig argsort (size := 1) (fun _ i => i) X w f b (widen_ord H m))^*.
Lemma core_orth f j k : 0 < lam f j -> j = k \/ lam f j != lam f k -> \sum_b core_theta f b j * (core_theta f b k)^* = (j == k)%:R.
Proof.
move=> Hj Hjk.
have He := run_eigenpairs argsort (@serial_partition n) X Hw Heig f; rewrite (serial_gram c X w f) in He.
under eq_bigr do rewrite /core_theta conjCK.
rewrite (vec_orth (k := widen_ord H k) Hw He Hj); first by congr (_%:R); congr nat_of_bool; apply/eqP/eqP => [E|->//]; apply: val_inj; have := congr1 val E.
by case: Hjk => [->|Hl]; [left|right].
Qed.
Lemma core_block f (b : 'I_(n_blocks c)) m : 0 < lam f m ->
  (corr (nt c) (n_dft c) (window c) (block_offset c b + h_pad (n_dft c))
  * (\sum_(i < n) spectrum_at (nt c) (n_dft c) (window c) (omega c) (fun u => X u i - (\sum_(v < nt c) X v i) / (nt c)%:R) f (block_offset c b + h_pad (n_dft c))
      * w i 0 * (serial_modes eig argsort X w ord0 f H i m)^* )
  = corr (nt c) (n_dft c) (window c) (block_offset c b + h_pad (n_dft c)) * (\sum_(k < n_dft c) window c k) * (sqrtC (n_blocks c)%:R * sqrtC (lam f m) * core_theta f b m))%R.
Proof.
move=> Hm.
have Hd0 : (n_dft c)%:R != 0 :> C by rewrite pnatr_eq0; case: (n_dft c) Hnt.
have Hww : win_weight c != 0 by rewrite /win_weight invr_eq0 mulf_neq0 // invr_eq0.
have := C127_coefficient_of_a_block (argsort := argsort) (X := X) (f := f) b (H := H) (m := m) Hmean Hnorm Hnt Hnb Hww Hw Heig Hm.
rewrite conv_serialE => ->; congr (_ * _ * _).
by rewrite /win_weight invrK mulrCA divff ?mulr1.
Qed.
End Core.

(* ---- C164 ---- *)
(* eigenvalue k at frequency f of a fit, from eigs_freq.npz; those of a one-sided spectrum are doubled between the ends (base.py:500-504) *)
Definition eigenvalue (C : numClosedFieldType) (c : config C) (eigs : list (list C)) (f k : nat) : C :=
  List.nth k (List.nth f eigs nil) 0 / (if isrealx c && (0 < f)%N && (f < n_freq c - 1)%N then 2%:R else 1).
(* the middle of block b *)
Definition middle (C : numClosedFieldType) (s : settings C) (b : nat) : nat := (b * (s_ndft s - s_novlp s) + Z.to_nat ((Z.of_nat (s_ndft s) + 1) / 2))%N.

(* A fit of an array on any number of processes, then coefficients by convolution at all frequencies on one process.  In the middle of block b the
   coefficient of a mode with positive eigenvalue is the square root of the eigenvalue times a unit vector over the blocks, up to fixed factors: the sum of
   the window, the square root of the number of blocks, and the correction of the ends (C54).  The vectors of different eigenvalues are orthogonal *)
Theorem C164_coefficients_at_the_blocks : forall (C : numClosedFieldType) eig argsort (A : Type) (cast : A -> C) isreal s (data : nd A) xs nv user np1 c eigs files junk,
  valid_arrays s [:: data] xs nv user np1 ->
  configure s (length (Spec_Reader.record [:: data])) (List.forallb isreal (List.hd nil (Spec_Reader.record [:: data]))) = Ok c ->
  fit_array eig argsort cast isreal s [:: data] (length xs) nv user np1 = Ok (eigs, files) ->
  [/\ s_mean s = Longtime, s_norm s = false, (1 < n_freq c)%N, (1 < n_modes_save c)%N & (1 < Base_List.prod (List.app xs [:: nv]))%N] ->
  \sum_(k < s_ndft s) s_window s k != 0 -> (forall x, List.In x (weights_of 1 user xs nv) -> 0 <= x) -> eig_ok (eig (n_blocks c)) ->
  let nt := length (Spec_Reader.record [:: data]) in let nm := n_modes_save c in let lam := eigenvalue c eigs in
  exists cs ms mu ax (theta : nat -> nat -> nat -> C),
  [/\ conv_array (s_ndft s) (s_window s) (s_omega s) junk cast (folder_of_fit s c xs nv user files) None None None data None = Ok (Nd [:: n_freq c; nt; nm] cs, ms, mu, ax),
      (forall f j k, (f < n_freq c)%N -> (j < nm)%N -> (k < nm)%N -> 0 < lam f j -> j = k \/ lam f j <> lam f k ->
         \sum_(b < n_blocks c) theta f b j * (theta f b k)^* = (j == k)%:R),
      (forall b, (b < n_blocks c)%N -> (middle s b < nt)%N) &
      forall f b m, (f < n_freq c)%N -> (b < n_blocks c)%N -> (m < nm)%N -> 0 < lam f m ->
         (List.nth ((f * nt + middle s b) * nm + m)%N cs 0
          = corr nt (s_ndft s) (s_window s) (middle s b) * (\sum_(k < s_ndft s) s_window s k) * (sqrtC (n_blocks c)%:R * sqrtC (lam f m) * theta f b m))%R].
Proof.
move=> C eig argsort A cast isreal s data xs nv user np1 c eigs files junk Hv Hcfg Hfit [Hmean Hnorm Hnf Hnm Hpr] Hsum HW Heig nt nm lam.
have [c' [H [Hc' /= E]]] := C121_fit_arrays_is_spod eig argsort cast isreal Hv.
rewrite Hcfg in Hc'; case: Hc' => Ec; subst c'.
rewrite Hfit in E; case: E => Eeigs Efiles.
have Erec : Spec_Reader.record [:: data] = snapshots data by rewrite /Spec_Reader.record /= List.app_nil_r.
have [sp [ax0 [nb [[Hwf _ H0 Hsp Htl] [[Hspn Hsppos Hax0 Hov Hwok] [Hnb Hnse]]]]]] := Hv.
have [Hwfd Hshd] := Hwf data (or_introl erefl).
have Htl' := Htl data (or_introl erefl); rewrite /= in H0.
have Hshape : Model_Parallel.shape data = nt :: sp.
  by rewrite /nt Erec snapshots_length /nrows -Htl'; case: (Model_Parallel.shape data) Hshd.
have Lsn : length (snapshots data) = nt by rewrite /nt Erec.
rewrite Erec in Eeigs Efiles.
(* the configuration *)
have Hstarts := @starts_eq nt (s_ndft s) (s_novlp s) nb (elimT ssrnat.ltP Hov) Hnb.
have [_ [Hb2 [Hd4 Hfit']]] := Hstarts; clear Hstarts.
have [EC1 EC2 EC3 [EC4 EC5 EC6]] : [/\ n_freq c = length (get_freq_axis (isrealx c) (s_full s) (s_ndft s) (s_dt s)), Model_Spod.nt c = nt, mean_type c = Longtime &
    [/\ normalize_data c = false, n_dft c = s_ndft s & [/\ omega c = s_omega s, Model_Spod.window c = s_window s, n_blocks c = Z.to_nat nb & n_overlap c = s_novlp s]]].
  by move: Hcfg; rewrite /configure Hnb /= => -[<-] /=; rewrite Hmean Hnorm.
have [EC7 EC8 EC9 EC10] := EC6.
have Hnb0 : (0 < n_blocks c)%N by rewrite EC9; apply/ssrnat.ltP; lia.
have Hdft1 : (1 < s_ndft s)%coq_nat by lia.
have Hdle : (n_freq c <= s_ndft s)%N by rewrite EC1; apply/ssrnat.leP; exact: freq_axis_le.
have Hoff b : (b < n_blocks c)%N -> (b * (s_ndft s - s_novlp s) + s_ndft s <= nt)%N.
  by rewrite EC9 => /ssrnat.ltP /Hfit' /ssrnat.leP.
have Hmid b : (b < n_blocks c)%N -> (middle s b < nt)%N.
  move=> Hb; apply: leq_trans (Hoff b Hb); rewrite /middle ltn_add2l; apply/ssrnat.ltP; exact: h_pad_lt.
set fo := folder_of_fit s c xs nv user files; set sh := List.app xs [:: nv] in Hpr *.
(* the frequencies *)
set freq := get_freq_axis (isrealx c) (s_full s) (s_ndft s) (s_dt s) in EC1.
pose fs := Fsel (List.nth 0 freq (inject_Z 0)) 0 (List.nth (n_freq c - 1) freq (inject_Z 0)) (n_freq c - 1) (Z.of_nat (n_freq c)) (List.seq 0 (n_freq c)).
have Hsel : select_freqs (rf_freq fo) (rf_nfreq fo) None None None = Ok fs.
  rewrite /select_freqs /fo /folder_of_fit; cbn [is_none orb andb rf_freq rf_nfreq]; rewrite -/freq.
  rewrite (@List.nth_error_nth' _ freq 0 (inject_Z 0)); last by apply/ssrnat.ltP; rewrite -EC1; exact: ltnW.
  rewrite (@List.nth_error_nth' _ freq (n_freq c - 1)%coq_nat (inject_Z 0)); last by rewrite -EC1; move/ssrnat.ltP: Hnf; clear; lia.
  cbn [bind]; rewrite /fs; congr (Ok (Fsel _ _ _ _ _ _)); first by move/ssrnat.ltP: Hnf; clear; rewrite ?subn1 ?Nat.sub_1_r; lia.
  by congr (List.seq _ _); move/ssrnat.ltP: Hnf; clear; rewrite ?subn1 ?Nat.sub_1_r; lia.
set rec := List.map (List.map cast) (snapshots data) in Eeigs Efiles.
have Lrec : length rec = nt by rewrite List.map_length.
(* the files *)
have Hdim : length sp = (rf_xdim fo + 1)%N /\ sh = sp \/ length sp = rf_xdim fo /\ rf_nv fo = 1%N /\ sh = List.app sp [:: 1%N].
  case: Hsp => [Es|[En Es]]; [left|right]; rewrite /fo /sh /=; first by rewrite Es List.app_length.
  by rewrite Es En.
have Hwts : wf (rf_weights fo) /\ Model_Parallel.shape (rf_weights fo) = sh.
  by split=> //; rewrite /fo /wf /=; exact: weights_of_length.
have Emodes f : (f < n_freq c)%N -> rf_modes fo f = Some (ref_freq_file eig argsort rec (weights_of 1 user xs nv) sh H f).
  move=> Hf; rewrite /fo /= Efiles; apply: List.map_nth_error.
  by rewrite (@List.nth_error_nth' _ _ _ 0%N) ?List.seq_nth ?List.seq_length //; exact/ssrnat.ltP.
have Hdata : coef_data fo data nt sp sh.
  by split; [split=> //; rewrite /nt Erec Lsn; move: H0; rewrite Hshape|case: Hwts => ? ?; split].
have Hm : conv_modes fo fs sh (s_ndft s).
  split=> //; [by rewrite /fo /= Hnf Hdle|].
  move=> f Hf; rewrite Emodes //; eexists; split; first reflexivity; last by [].
  by rewrite /wf /= rows_len prod_app /= Nat.mul_1_r.
have Hlt' : (ax0 < length sh)%coq_nat by have [_ HH _ _] := @sh_facts C A fo (Fsel (inject_Z 0) 0 (inject_Z 0) 0 (inject_Z 0).(Qnum) nil) 0 nt sp sh data ax0 Hshape Hsppos Hax0 Hdim (fun f => False_ind _).
have Htwo : two_each sh ax0 None.
  move=> cm ids [<-|//] /(holds_ids _ _ (introT ssrnat.ltP Hlt')) ->; by rewrite /axis_ids /= List.seq_length.
have [cs [ms [mu [Econv Hcs [_ Hmu] _ _]]]] := @C163_contents_of_the_files C (s_ndft s) (s_window s) (s_omega s) junk A cast fo data nt sp sh None None None fs ax0 None Hdata Hsel Hm Hax0 I Htwo.
have {}Hcs := Hcs _ (proj2 (holds_ids _ _ (introT ssrnat.ltP Hlt')) erefl).
rewrite -[axis_ids _ _ _]/(List.seq 0 (Base_List.prod sh)) in Hcs.
set n := Base_List.prod sh in Hpr Hcs Hmu *.
pose X u (i : 'I_n) : C := List.nth i (List.nth u rec nil) 0.
pose w : 'cV[C]_n := \col_i List.nth i (weights_of 1 user xs nv) 0.
have Hw i : 0 <= w i 0.
  rewrite mxE; apply: HW; apply: List.nth_In; rewrite weights_of_length //; apply/ssrnat.ltP; exact: ltn_ord.
have Hntc : (0 < n_dft c <= Model_Spod.nt c)%N.
  rewrite EC2 EC5; apply/andP; split; first by apply/ssrnat.ltP; lia.
  exact: leq_trans (leq_addl _ _) (Hoff 0%N Hnb0).
have Hsum' : \sum_(k < n_dft c) Model_Spod.window c k != 0 by rewrite EC8 EC5.
pose L f (m : 'I_nm) : C := run_L (c := c) (@eig _) (@argsort _) (size := 1) (fun _ i => i) X w f 0 (widen_ord H m).
have HL f (m : 'I_nm) : (f < n_freq c)%N -> lam f m = L f m.
  move=> Hf; rewrite /lam /eigenvalue Eeigs /ref_eigs nth_map_seq //.
  rewrite nth_List -[List.map _ _]/(map _ _) (nth_map (widen_ord H m)) ?size_enum_ord //; last exact: leq_trans (ltn_ord m) H.
  rewrite (_ : nth _ _ m = widen_ord H m); last by apply: val_inj; rewrite /= nth_enum_ord //; exact: leq_trans (ltn_ord m) H.
  rewrite /serial_eigs (run_eigsE (@argsort _) (@serial_partition n) _ Hw Heig f) -/(L f m) /one_sided subn1 [_ * L f m]mulrC.
  by rewrite mulfK //; case: ifP => _; rewrite ?pnatr_eq0 ?oner_eq0.
pose theta f b m : C := match insub b : option 'I_(n_blocks c), insub m : option 'I_nm with
  | Some b', Some m' => core_theta (c := c) w (@eig _) (@argsort _) H X f b' m' | _, _ => 0 end.
exists cs, ms, (Nd sh mu), ax0, theta; split=> //.
- move=> f j k Hf Hj Hk Hjp Hjk.
  have Ej := HL f (Ordinal Hj) Hf; have Ek := HL f (Ordinal Hk) Hf; rewrite /= in Ej Ek.
  have := @core_orth C c n w (@eig _) (@argsort _) H X Hw Heig f (Ordinal Hj) (Ordinal Hk).
  rewrite -/(L f (Ordinal Hj)) -/(L f (Ordinal Hk)) -Ej -Ek -val_eqE /= => <- //; last first.
    by case: Hjk => [E|Hne]; [left; apply: val_inj|right; apply/eqP].
  by apply: eq_bigr => b _; rewrite /theta valK (insubT (fun x => (x < nm)%N) Hj) (insubT (fun x => (x < nm)%N) Hk).
- move=> f b m Hf Hb Hmm Hpos; rewrite Hcs //; last exact: Hmid.
  have := @core_block C c n w (@eig _) (@argsort _) H X EC3 EC4 Hntc Hnb0 Hsum' Hw Heig f (Ordinal Hb) (Ordinal Hmm).
  rewrite -/(L f (Ordinal Hmm)) -(HL f (Ordinal Hmm) Hf) => /(_ Hpos).
  rewrite EC2 EC5 EC7 EC8.
  have -> : (Model_Spod.block_offset c (Ordinal Hb) + h_pad (s_ndft s))%N = middle s b.
    congr addn; rewrite /Model_Spod.block_offset EC2 EC5 EC10 /=; by rewrite (minn_idPl (Hoff b Hb)) addnK.
  rewrite /theta (insubT (fun x => (x < nm)%N) Hmm) (insubT (fun x => (x < n_blocks c)%N) Hb) => <-.
  congr (_ * _); rewrite sum_seq0; apply: eq_bigr => x _; rewrite /contribution; congr (_ * _ * _).
  + rewrite (_ : List.nth f (freq_list fs) 0%N = f); last by rewrite List.seq_nth //; exact/ssrnat.ltP.
    apply: spectrum_at_ext => u Hu; by rewrite Hmu.
  + by rewrite mxE.
  + rewrite /file_of Emodes // /ref_freq_file [flat _]/=; congr (_^* ).
    exact: (nth_rows 0 (fun i m => ref_mode eig argsort rec (weights_of 1 user xs nv) H f i m) x (Ordinal Hmm)).
Qed.
Print Assumptions C164_coefficients_at_the_blocks.

Section Ring.
Variable C : numClosedFieldType.
Add Ring Cring : (cr_th C).
Lemma energy_factor (x y z u v W Wc : C) : W * (x * y * u) * (Wc * (x * z * v)) = x ^+ 2 * (W * Wc * (y * z)) * (u * v).
Proof. rewrite expr2; cr_norm C; ring. Qed.
End Ring.
(* away from the ends of the record the mean energy of a coefficient over the blocks of the fit is its eigenvalue, and coefficients of different eigenvalues
   are uncorrelated; the unit is the squared sum of the window *)
Theorem C164_energy_of_the_blocks : forall (C : numClosedFieldType) eig argsort (A : Type) (cast : A -> C) isreal s (data : nd A) xs nv user np1 c eigs files junk,
  valid_arrays s [:: data] xs nv user np1 ->
  configure s (length (Spec_Reader.record [:: data])) (List.forallb isreal (List.hd nil (Spec_Reader.record [:: data]))) = Ok c ->
  fit_array eig argsort cast isreal s [:: data] (length xs) nv user np1 = Ok (eigs, files) ->
  [/\ s_mean s = Longtime, s_norm s = false, (1 < n_freq c)%N, (1 < n_modes_save c)%N & (1 < Base_List.prod (List.app xs [:: nv]))%N] ->
  \sum_(k < s_ndft s) s_window s k != 0 -> (forall x, List.In x (weights_of 1 user xs nv) -> 0 <= x) -> eig_ok (eig (n_blocks c)) ->
  let nt := length (Spec_Reader.record [:: data]) in let nm := n_modes_save c in let lam := eigenvalue c eigs in
  (forall b, (b < n_blocks c)%N -> (b * (s_ndft s - s_novlp s) + s_ndft s + 1 < nt)%N) ->
  exists cs ms mu ax,
    conv_array (s_ndft s) (s_window s) (s_omega s) junk cast (folder_of_fit s c xs nv user files) None None None data None = Ok (Nd [:: n_freq c; nt; nm] cs, ms, mu, ax) /\
    let a f b m := List.nth ((f * nt + middle s b) * nm + m)%N cs 0 in
    forall f j k, (f < n_freq c)%N -> (j < nm)%N -> (k < nm)%N -> 0 < lam f j -> 0 < lam f k -> j = k \/ lam f j <> lam f k ->
      (\sum_(b < n_blocks c) a f b j * (a f b k)^* ) / (n_blocks c)%:R = `|\sum_(k < s_ndft s) s_window s k| ^+ 2 * lam f j * (j == k)%:R.
Proof.
move=> C eig argsort A cast isreal s data xs nv user np1 c eigs files junk Hv Hcfg Hfit Hs Hsum HW Heig nt nm lam Hin.
have [cs [ms [mu [ax [theta [E Horth Hmid Hcs]]]]]] := C164_coefficients_at_the_blocks junk Hv Hcfg Hfit Hs Hsum HW Heig.
exists cs, ms, mu, ax; split=> // a f j k Hf Hj Hk Hlj Hlk Hjk.
have Hnb : 0 < (n_blocks c)%:R :> C.
  have [sp [ax0 [nb [[_ _ _ _ _] [[_ _ _ Hov _] [Hnb _]]]]]] := Hv.
  have [_ [Hb2 _]] := @starts_eq nt (s_ndft s) (s_novlp s) nb (elimT ssrnat.ltP Hov) Hnb.
  by move: Hcfg; rewrite /configure Hnb /= => -[<-] /=; rewrite ltr0n; apply/ssrnat.ltP; lia.
set W := \sum_(k < s_ndft s) s_window s k in Hcs *.
have Ea b m : (b < n_blocks c)%N -> (m < nm)%N -> 0 < lam f m -> a f b m = W * (sqrtC (n_blocks c)%:R * sqrtC (lam f m) * theta f b m).
  move=> Hb Hm Hl; rewrite /a Hcs // (_ : corr _ _ _ _ = 1) ?mul1r //.
  rewrite /corr (_ : corr_range _ _ _ = None) //; apply: no_corr.
  move/ssrnat.ltP: (Hin b Hb); rewrite /half_up -multE -plusE -minusE; have := Z.div_mod (Z.of_nat (s_ndft s) + 1) 2; have := Z.mod_pos_bound (Z.of_nat (s_ndft s) + 1) 2.
  rewrite -/nt; move: (Nat.mul b _) => o; clear; lia.
have Hr (x : C) : 0 < x -> (sqrtC x)^* = sqrtC x by move=> Hx; apply: CrealP; apply: gtr0_real; rewrite sqrtC_gt0.
rewrite (eq_bigr (fun b : 'I_(n_blocks c) => (n_blocks c)%:R * (`|W| ^+ 2 * (sqrtC (lam f j) * sqrtC (lam f k))) * (theta f b j * (theta f b k)^* ))); last first.
  move=> b _; rewrite !Ea // !rmorphM !Hr // normCK -[in RHS](sqrtCK (n_blocks c)%:R).
  exact: energy_factor.
rewrite -mulr_sumr Horth //; case: eqVneq => [->|_]; last by rewrite !mulr0 mul0r.
by rewrite !mulr1 -expr2 sqrtCK mulrAC divff ?mul1r // lt0r_neq0.
Qed.
Print Assumptions C164_energy_of_the_blocks.

(* the hypotheses are met: ten snapshots of two points, two blocks of four that do not reach the end, complex data *)
Section Nonvacuous.
Variable C : numClosedFieldType.
Definition cw_d : nd C := Nd [:: 10; 2]%N [:: 1; 1; 0; 0; 0; 0; 0; 0; -1; 0; 0; -1; 0; 0; 0; 0; 0; 0; 0; 0].
Definition cw_c : config C := Config 10 4 0 2 4 2 Longtime false 0 (@wf_win C) false 'i 0 (fun _ x => x).
Definition cw_X (t : nat) (i : 'I_2) : C := List.nth i (List.nth t (List.map (List.map (fun x : C => x)) (Spec_Reader.record [:: cw_d])) nil) 0.
Lemma cw_positive eig argsort (w : 'cV[C]_2) : (forall x, 0 < w x 0) -> eig_ok eig -> forall f (k : 'I_2),
  0 < run_L (c := cw_c) eig argsort (size := 1) (fun _ (i : 'I_2) => i) cw_X w f 0 k.
Proof.
move=> Hw He f k; apply: Prop_Roundtrip.independent_blocks => // u Hu.
have Hww : win_weight cw_c / (n_dft cw_c)%:R != 0.
  have Hs2 : \sum_(k < 4) Model_Spod.window cw_c k != 0 by rewrite !big_ord_recl big_ord0 /= addr0 -(natrD _ 1 1) -(natrD _ 2 2) -(natrD _ 1 4) pnatr_eq0.
  by apply: mulf_neq0; [rewrite /win_weight invr_eq0; apply: mulf_neq0|]; rewrite // invr_eq0 pnatr_eq0.
have Hmu i : t_mean cw_c (fun t => cw_X t i) = 0.
  rewrite /t_mean /= !big_ord_recl big_ord0 /cw_X /=; case: i => [[|[|i]] Hi] //=; by rewrite ?add0r ?addr0 subrr mul0r.
have E i : (cw_X 0 i + cw_X 1 i * 2%:R * 'i ^+ f + cw_X 2 i * 'i ^+ (f * 2) + cw_X 3 i * 'i ^+ (f * 3)) * u ord0 0
   + (cw_X 4 i + cw_X 5 i * 2%:R * 'i ^+ f + cw_X 6 i * 'i ^+ (f * 2) + cw_X 7 i * 'i ^+ (f * 3)) * u (lift ord0 0) 0 = 0.
  have := congr1 (fun M : 'cV_2 => M i 0) Hu; rewrite [RHS]mxE mxE big_ord_recl big_ord1 !mxE /block_hat /dft.
  rewrite !big_ord_recl !big_ord0 !addr0 /block_windowed /block_normalized /block_centred [normalize_data cw_c]/= [mean_type cw_c]/= Hmu !subr0.
  move=> Hh; apply: (mulfI Hww); rewrite mulr0 mulrDr [Y in Y + _]mulrA [Y in _ + Y]mulrA -{}Hh.
  by congr (_ * _ * _ + _ * _ * _); rewrite -!addrA; congr (_ + (_ + (_ + _))); rewrite ?muln0 ?muln1 ?expr0 ?mulr1.
have E0 := E ord0; have E1 := E (lift ord0 ord0).
rewrite /cw_X /= !mul0r !addr0 !mul1r mulN1r in E0.
rewrite /cw_X /= !mul0r !addr0 !add0r !mul1r in E1.
have Eu : u ord0 0 = u (lift ord0 0) 0 by apply/eqP; rewrite -subr_eq0 E0.
have E2 : (1 - 2%:R * 'i ^+ f) * u (lift ord0 0) 0 = 0 by move: E1; rewrite Eu mulN1r !mulNr => E1; rewrite mulrBl mul1r.
have Hd : 1 - 2%:R * 'i ^+ f != 0 :> C.
  apply/negP; rewrite subr_eq0 => /eqP /(congr1 Num.norm); rewrite normr1 normrM normrX normCi expr1n mulr1 normr_nat => /eqP.
  by rewrite -subr_eq0 -oppr_eq0 opprB -(natrB _ (leqnSn 1)) pnatr_eq0.
move/eqP: E2; rewrite mulf_eq0 (negbTE Hd) => /eqP E2.
apply/matrixP => i j; rewrite [j]ord1 [RHS]mxE; case: i => [[|[|i]] Hi] //.
  by rewrite (_ : Ordinal Hi = ord0); [rewrite Eu|apply: val_inj].
by rewrite (_ : Ordinal Hi = lift ord0 0) //; apply: val_inj.
Qed.
Example C164_nonvacuous : exists eig argsort eigs files, let c := cw_c in let s := @wf_s C in let isreal := fun _ : C => false in
  [/\ valid_arrays s [:: cw_d] [:: 2%N] 1 NoWeights (Some 1%N),
      configure s (length (Spec_Reader.record [:: cw_d])) (List.forallb isreal (List.hd nil (Spec_Reader.record [:: cw_d]))) = Ok c,
      fit_array eig argsort (fun x : C => x) isreal s [:: cw_d] 1 1 NoWeights (Some 1%N) = Ok (eigs, files) &
      [/\ s_mean s = Longtime, s_norm s = false, (1 < n_freq c)%N, (1 < n_modes_save c)%N & (1 < Base_List.prod (List.app [:: 2%N] [:: 1%N]))%N]] /\
  [/\ \sum_(k < s_ndft s) s_window s k != 0, forall x, List.In x (weights_of (1 : C) NoWeights [:: 2%N] 1) -> 0 <= x, eig_ok (eig (n_blocks c)),
      forall b, (b < n_blocks c)%N -> (b * (s_ndft s - s_novlp s) + s_ndft s + 1 < length (Spec_Reader.record [:: cw_d]))%N &
      forall f k, (f < n_freq c)%N -> (k < n_modes_save c)%N -> 0 < eigenvalue c eigs f k].
Proof.
have [eig2 [He Hb]] := eig_exists C 2; have [as2 Ha] := argsort_exists C 2.
pose eig n : 'M[C]_n -> 'rV[C]_n * 'M[C]_n := match @eqP _ 2%N n with ReflectT E => ecast n ('M[C]_n -> 'rV[C]_n * 'M[C]_n) E eig2 | _ => fun M => (0, M) end.
pose argsort n : 'rV[C]_n -> 'I_n -> 'I_n := match @eqP _ 2%N n with ReflectT E => ecast n ('rV[C]_n -> 'I_n -> 'I_n) E as2 | _ => fun _ i => i end.
have Ee : eig 2%N = eig2 by rewrite /eig; case: eqP => // E; rewrite eq_axiomK.
have Hv : valid_arrays (@wf_s C) [:: cw_d] [:: 2%N] 1 NoWeights (Some 1%N).
  exists [:: 2%N], 0%N, (Z.of_nat 2); split; [split=> //|split; [split=> //|split]].
  - by move=> d [<-|//].
  - by right.
  - by move=> d [<-|//].
  - by vm_compute.
  - by split=> // -[|r].
pose c := cw_c.
have Hcfg : configure (@wf_s C) (length (Spec_Reader.record [:: cw_d])) (List.forallb (fun _ : C => false) (List.hd nil (Spec_Reader.record [:: cw_d]))) = Ok c by [].
have Hfit := C121_fit_arrays_is_spod eig argsort (fun x : C => x) (fun _ => false) Hv.
pose rec := List.map (List.map (fun x : C => x)) (Spec_Reader.record [:: cw_d]).
pose H : (n_modes_save c <= n_blocks c)%N := leqnn 2.
have Hw1 x : List.In x (weights_of (1 : C) NoWeights [:: 2%N] 1) -> 0 <= x by move=> /= [<-|[<-|//]]; exact: ler01.
have He' : eig_ok (eig (n_blocks c)) by rewrite /= Ee.
exists eig, argsort, (ref_eigs eig argsort c rec [:: 1; 1] [:: 2; 1]%N), (List.map (ref_freq_file eig argsort rec [:: 1; 1] [:: 2; 1]%N H) (List.seq 0 (n_freq c))).
split; split=> //.
- have [c' [H' [Hc' E]]] := Hfit; rewrite Hcfg in Hc'; case: Hc' => Ec; subst c'.
  by rewrite E (eq_irrelevance H' H).
- by rewrite !big_ord_recl big_ord0 /= addr0 -(natrD _ 1 1) -(natrD _ 2 2) -(natrD _ 1 4) pnatr_eq0.
- by move=> [|[|b]].
- pose w : 'cV[C]_2 := \col_i List.nth i [:: 1; 1] 0.
  have Hw x : 0 < w x 0 by rewrite mxE; case: x => [[|[|x]] Hx] //=; exact: ltr01.
  move=> f k Hf Hk; rewrite /eigenvalue divr1 /ref_eigs nth_map_seq // nth_List -[List.map _ _]/(map _ _) (nth_map (Ordinal Hk : 'I_2)) ?size_enum_ord //.
  have -> : nth (Ordinal Hk : 'I_2) (enum 'I_2) k = Ordinal Hk by rewrite -[k in LHS]/(val (Ordinal Hk : 'I_2)) nth_ord_enum.
  rewrite /serial_eigs (run_eigsE (@argsort _) (@serial_partition 2) _ (fun y => ltW (Hw y)) He') mulr_gt0 ?one_sided_gt0 //.
  exact: (cw_positive _ Hw He').
Qed.
End Nonvacuous.
