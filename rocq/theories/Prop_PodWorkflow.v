(* Property theorems C162: POD fit, coefficients, reconstruction: the whole workflow from arrays to files. *)
From Coq Require Import QArith.
From Verif Require Import Base_List Model_Parallel Model_Reader1 Model_Reader2 Model_Select Model_Base Model_Standard Model_Pipeline Model_PodShape Spec_Array Spec_Reader Spec_Reader2
  Model_RecFile Spec_RecFile Proof_Parallel Proof_Npy2 Proof_Reader1 Proof_Reader1b Proof_Pipeline Proof_RecFile Prop_RecFile Prop_Sizes.
From Coq Require Import Sorting.Permutation.
From mathcomp Require Import all_ssreflect all_algebra.
From Verif Require Import Model_Spod Spec_Spod Spec_Coeffs Spec_Pod Proof_Spod Model_SpodPar Proof_SpodPar Model_Coeffs Proof_StreamNum3 Proof_Coeffs Prop_Coeffs Model_Pod Proof_Pod Prop_Pod
  Model_PipelineNum Proof_PipelineNum Proof_PipelineFit Prop_Pipeline Model_PipelinePod Proof_PipelinePod Prop_PipelinePod Model_PipelineCoef Proof_PipelineCoef Prop_PipelineCoef Prop_Workflow
  Model_PodCoef Proof_PodCoef.
Set Implicit Arguments.
Unset Strict Implicit.
Unset Printing Implicit Defensive.
Import Order.TTheory GRing.Theory Num.Theory.
Local Open Scope ring_scope.

(* what a POD fit of in-memory data leaves in its folder for later calls: pod/base.py:402-428 (_store_and_save: weights.npy, params_modes.yaml) and
   standard.py:60-69 (modes.npy) *)
Definition folder_of_pod_fit (C : numClosedFieldType) (xs : list nat) (xdim : nat) (user : weights_arg C) (modes : nd C) : pod_folder C :=
  PodFolder xdim 1 (Nd (List.app xs [:: 1%N]) (weights_of 1 user xs 1)) modes.
(* data: nt > 0 snapshots of shape sp; sh is that shape with an axis added if there is one variable and no axis for it; the stored weights have the shape sh,
   the stored modes an axis more, of length k *)
Definition pod_coef_data (C : numClosedFieldType) (A : Type) (fo : pod_folder C) (data : nd A) (nt k : nat) (sp sh : list nat) : Prop :=
  [/\ wf data, Model_Parallel.shape data = nt :: sp, (0 < nt)%N, sp <> nil & (0 < Base_List.prod sp)%N] /\
  [/\ sh = (if Nat.eqb (pf_nv fo) 1 && negb (Nat.eqb (length sp).+1 (pf_xdim fo + 2)%N) then List.app sp [:: 1%N] else sp),
      wf (pf_weights fo) /\ Model_Parallel.shape (pf_weights fo) = sh & wf (pf_modes fo) /\ Model_Parallel.shape (pf_modes fo) = List.app sh [:: k]].

Lemma nth_pair (T : Type) (d : T) n k (l l' : list T) : length l = (n * k)%N -> length l' = (n * k)%N ->
  (forall i j, (i < n)%N -> (j < k)%N -> List.nth (i * k + j)%N l d = List.nth (i * k + j)%N l' d) -> l = l'.
Proof.
move=> L L' H; apply: (List.nth_ext _ _ d d); first by rewrite L L'.
move=> m Hm; rewrite L in Hm; have Hk : k <> 0%N by move=> E; move: Hm; rewrite E muln0; lia.
have E := Nat.div_mod m k Hk; have Hmod := Nat.mod_upper_bound m k Hk.
have -> : m = (Nat.div m k * k + Nat.modulo m k)%N by rewrite -multE -plusE; lia.
apply: H; apply/ssrnat.ltP => //; apply: Nat.div_lt_upper_bound => //; rewrite -multE in Hm; lia.
Qed.
Lemma pphi_flat (C : numClosedFieldType) n k (fl : list C) : length fl = (n * k)%N -> ravel (cphi n (fun i j => List.nth (i * k + j)%N fl 0) k) = fl.
Proof.
move=> L; apply: (@nth_pair _ 0 n k) => //; first exact: ravel_len.
by move=> i j Hi Hj; rewrite (ravel_nth (cphi n _ k) (Ordinal Hi) (Ordinal Hj)) mxE.
Qed.

(* ---- C162 ---- *)
(* the call succeeds, with the same files whether or not and however many processes take part: modes_r.npy is modes.npy, ltm.npy the mean of the data, and the
   coefficients are the plain products of the stored modes with the fluctuations of the data: the stored weights are read but do not show in the result *)
Theorem C162_contents_of_the_files : forall (C : numClosedFieldType) (A : Type) (cast : A -> C) (fo : pod_folder C) (data : nd A) nt k sp sh,
  pod_coef_data fo data nt k sp sh ->
  let n := Base_List.prod sh in
  exists cs mu ax,
  [/\ argmax sp = Ok ax,
      forall np, coef_procs np -> pod_coef_array cast fo data np = Ok (Nd [:: k; nt] cs, pf_modes fo, Nd sh mu, ax),
      length cs = (k * nt)%N /\ length mu = n,
      (forall i, (i < n)%N -> List.nth i mu 0 = (\sum_(t < nt) sample cast data t i) / nt%:R) &
      forall j t, (j < k)%N -> (t < nt)%N ->
        List.nth (j * nt + t)%N cs 0 = \sum_(i < n) List.nth (i * k + j)%N (flat (pf_modes fo)) 0 * (sample cast data t i - List.nth i mu 0)].
Proof.
move=> C A cast fo data nt k sp sh [[H1 H2 H3 H4 H5] [H6 H7 H8]] n.
have [ax Hax] : exists ax, argmax sp = Ok ax by case: (sp) H4 => // x l _; eexists.
have E np (Hp : coef_procs np) := @pod_coef_gen C A cast fo nt k sp sh data ax H1 H2 H3 H5 Hax H6 H7 H8 np Hp.
rewrite -/n in E; set rec := List.map (List.map cast) (snapshots data) in E.
have Lr : length rec = nt by rewrite List.map_length snapshots_length /nrows H2.
have Lm : length (flat (pf_modes fo)) = (n * k)%N.
  by have [Wm Sm] := H8; rewrite Wm Sm prod_app /= -multE; lia.
rewrite /ppcol (pphi_flat Lm) in E.
have Em : Nd (List.app sh [:: k]) (flat (pf_modes fo)) = pf_modes fo by have [_ Sm] := H8; move: Sm; case: (pf_modes fo) => a b /= ->.
rewrite Em in E.
set cs := ravel _ in E.
exists cs, (List.map (cmean rec) (List.seq 0 n)), ax; split=> //.
- by rewrite ravel_len Lr List.map_length List.seq_length.
- by move=> i Hi; rewrite nth_map_seq // /cmean Lr.
- move=> j t Hj Ht; have Ht' : (t < length rec)%N by rewrite Lr.
  have -> : List.nth (j * nt + t)%N cs 0 = pcoef n (ppcol fo k) (Ordinal Hj) (Ordinal Ht').
    rewrite /cs -[in LHS]Lr (ravel_nth (\matrix_(j, t) pcoef n (ppcol fo k) j t) (Ordinal Hj) (Ordinal Ht')); exact: mxE.
  by apply: eq_bigr => i _; rewrite nth_map_seq.
Qed.
Print Assumptions C162_contents_of_the_files.

(* Three calls in a row on one array of real numbers: a fit on np1 processes, the coefficients from the folder the fit left on np2 processes, a reconstruction of
   any non-empty selection of times on `size` processes.  All weights equal to c > 0, every saved value a number, the saved modes of different eigenvalues and
   every other eigenvalue zero: what comes back is the mean plus the fluctuation divided by c, in the array a single process returns and in the file all
   processes write together, in whatever order their writes arrive. *)
Definition comes_back (C : numClosedFieldType) (A : Type) (cast : A -> C) (xs : list nat) (xdim : nat) (user : weights_arg C) (modes : nd C) (data : nd A) (back : nat -> nat -> C) : Prop :=
  let fo := folder_of_pod_fit xs xdim user modes in let sh := List.app xs [:: 1%N] in
  exists cs ms mu ax,
    (forall np, coef_procs np -> pod_coef_array cast fo data np = Ok (cs, ms, mu, ax)) /\
    forall tsel ts, selected_times (List.hd 0%N (Model_Parallel.shape data)) tsel = Ok ts -> ts <> nil ->
    exists Q,
    [/\ local_rec 0 +%R *%R ms cs mu ax tsel None = Ok Q, Model_Parallel.shape Q = length ts :: sh,
        (forall k i idx, List.nth_error ts k = Some i -> valid sh idx -> entry Q (k :: idx) = Some (back i (Spec_Array.ravel sh idx))) &
        forall (B : Type) (enc : C -> list B) hdr es size, (forall x, length (enc x) = es) -> (0 < size)%N ->
        exists locs, List.Forall2 (fun r q => local_rec 0 +%R *%R ms cs mu ax tsel (Some (size, r)) = Ok q) (List.seq 0 size) locs /\
        forall order, Permutation order (npy_save_writes enc hdr es (S ax) locs) ->
        forall before pos, npy_save_file order before pos = List.nth_error (np_save enc hdr Q) pos].
Definition mean_of (C : numClosedFieldType) (A : Type) (cast : A -> C) (data : nd A) (i : nat) : C :=
  (\sum_(t < List.hd 0%N (Model_Parallel.shape data)) sample cast data t i) / (List.hd 0%N (Model_Parallel.shape data))%:R.

Theorem C162_constant_weights : forall (C : numClosedFieldType) (eig : forall n, 'M[C]_n -> 'rV[C]_n * 'M[C]_n) (A : Type) (cast : A -> C) longtime data xs xdim user k np1 eigs fsh vals c,
  let nt := List.hd 0%N (Model_Parallel.shape data) in
  pod_input [:: data] xs xdim user -> processes_ok np1 k -> (k <= nt)%N -> real_eig_ok (@eig nt) ->
  0 < c -> (forall x, List.In x (weights_of 1 user xs 1) -> x = c) -> (forall row x, List.In row (snapshots data) -> List.In x row -> cast x \is Num.real) ->
  pod_fit_array eig cast longtime [:: data] xdim 1 user k np1 = Ok (eigs, Nd fsh (List.map Some vals)) ->
  let lam j := List.nth j eigs 0 in
  (forall i j, (i < k)%N -> (j < k)%N -> lam i = lam j -> i = j) -> (forall j, (k <= j < nt)%N -> lam j = 0) ->
  comes_back cast xs xdim user (Nd fsh vals) data (fun t i => mean_of cast data i + (sample cast data t i - mean_of cast data i) / c).
Proof.
move=> C eig A cast longtime data xs xdim user k np1 eigs fsh vals c nt Hi Hp Hk Heig Hc HW Hreal Hfit lam Hd Hz.
have [[Hwfs _ Hnt0 Htl] [Hxd Hxs Hn Hwok]] := Hi.
have [Hwfd Hshd] := Hwfs data (or_introl erefl); have Htl' := Htl data (or_introl erefl).
have Hnt := Hnt0 data (or_introl erefl); rewrite -/nt in Hnt.
have Hshape : Model_Parallel.shape data = nt :: xs by rewrite /nt -Htl'; case: (Model_Parallel.shape data) Hshd.
have Erec : record [:: data] = snapshots data by rewrite /record /= List.app_nil_r.
pose rec := List.map (List.map cast) (record [:: data]).
have Lr : length rec = nt by rewrite /rec List.map_length Erec snapshots_length /nrows Hshape.
have H : (k <= length rec)%N by rewrite Lr.
pose n := Base_List.prod xs; pose sh := List.app xs [:: 1%N].
have Hsh : Base_List.prod sh = n by rewrite /sh prod_app /=; lia.
move: Hfit; rewrite (C159_fit_is_pod_of_the_record eig longtime H Hi Hp) /ref_pod_file -/rec => -[Ee Es Ev].
pose w := w_vec (weights_of 1 user xs 1) xs : 'cV[C]_n; pose X := rec_mx rec xs : 'M[C]_(length rec, n).
have Hid := id_partition n.
have Hlv : length vals = (n * k)%N.
  have := f_equal (@length _) Ev; rewrite List.map_length => <-.
  rewrite -(ravel_length (\matrix_(i < n, j < k) serial_pod_saved w X longtime (@eig _) H i j)) /ravel; congr length.
  by apply: flat_map_ext' => i; apply: List.map_ext => j; rewrite [RHS]mxE.
have Elam (j : 'I_(length rec)) : lam j = pod_w (size := 1) (fun _ (i : 'I_n) => i) w X longtime (@eig _) 0 j by rewrite /lam -Ee nth_enum_map.
pose Phi : 'M[C]_(n, k) := \matrix_(i, j) List.nth (i * k + j)%N vals 0.
have HPhi : modes_in_file (size := 1) (fun _ (i : 'I_n) => i) w X longtime (@eig _) H Phi.
  move=> r i j; rewrite [r]ord1 [Phi _ _]mxE.
  have Hlt : (i * k + j < length (List.map Some vals))%coq_nat.
    rewrite List.map_length Hlv; apply/ssrnat.ltP; apply: (@leq_trans (i.+1 * k)%N); first by rewrite mulSnr ltn_add2l.
    by rewrite leq_mul2r ltn_ord orbT.
  have := @nth_rows _ (Some 0) n k (fun i j => serial_pod_saved w X longtime (@eig _) H i j) i j.
  by rewrite -/n in Ev; rewrite Ev List.map_nth => ->.
have HXr : real_mx X.
  move=> t i; rewrite /X mxE.
  have Ht : List.In (List.nth t rec nil) rec by apply: List.nth_In; apply/ssrnat.ltP; apply: ltn_ord.
  move/List.in_map_iff: Ht => [row [Er Hr]].
  have Hlen : length row = n by apply: (@record_row_length _ [:: data] xs row) => //.
  have : List.In (List.nth i (List.nth t rec nil) 0) (List.nth t rec nil) by apply: List.nth_In; rewrite -Er List.map_length Hlen; apply/ssrnat.ltP; apply: ltn_ord.
  by rewrite -{2}Er => /List.in_map_iff [x [<- Hx]]; apply: Hreal Hx; rewrite -Erec.
have Hw x : w x 0 = c.
  rewrite /w mxE; apply: HW; apply: List.nth_In; rewrite weights_of_length // prod_app /=; have := ltn_ord x; move/ssrnat.ltP; rewrite -/n; lia.
have Heig' : real_eig_ok (@eig (length rec)) by rewrite Lr.
have Hlead : leading_ok k (pod_w (size := 1) (fun _ (i : 'I_n) => i) w X longtime (@eig _)) (pod_v (size := 1) (fun _ (i : 'I_n) => i) w X longtime (@eig _)).
  by left => i j Hik Hjk; rewrite -!Elam => E; apply: val_inj; apply: Hd.
have Hzero (j : 'I_(length rec)) : (k <= j)%N -> pod_w (size := 1) (fun _ (i : 'I_n) => i) w X longtime (@eig _) 0 j = 0.
  by move=> Hj; rewrite -Elam; apply: Hz; rewrite Hj -Lr ltn_ord.
have Back := C60_constant_weights Heig' Hid HXr Hc Hw HPhi Hlead Hzero (r := ord0).
(* the coefficients *)
pose fo := folder_of_pod_fit xs xdim user (Nd fsh vals).
have Hfsh : fsh = List.app sh [:: k] by rewrite -Es /sh -List.app_assoc.
have Hcd : pod_coef_data fo data nt k xs sh.
  split; first by split.
  split.
  - change (pf_xdim fo) with xdim; have -> : Nat.eqb (length xs).+1 (xdim + 2) = false by apply/negbTE/negP => /Nat.eqb_spec; rewrite -plusE in Hxd *; lia.
    by [].
  - by split=> //; rewrite /wf /= weights_of_length.
  - by split=> //; rewrite /wf /= Hlv Hfsh prod_app Hsh /= -multE; lia.
have [cs [mu [ax [Hax Hrun [Lcs Lmu] Hmu Hcs]]]] := C162_contents_of_the_files cast Hcd.
rewrite Hsh in Lmu Hmu Hcs.
exists (Nd [:: k; nt] cs), (Nd fsh vals), (Nd sh mu), ax; split=> // tsel ts Hts Htsn.
have Hspos : List.Forall (fun d => (0 < d)%coq_nat) sh by apply: pos_axes; rewrite Hsh.
have Haxl : (ax < length sh)%coq_nat.
  have := argmax_lt _ Hax; rewrite /sh List.app_length /=; lia.
have Wphi : wf (Nd fsh vals) by have [_ [_ _ []]] := Hcd.
have Wa : wf (Nd [:: k; nt] cs) by rewrite /wf /= Lcs Nat.mul_1_r.
have Wm : wf (Nd sh mu) by rewrite /wf /= Lmu Hsh.
have File B (enc : C -> list B) hdr es size He (Hs : (0 < size)%N) := @C152_oblique_file C 0 +%R *%R B enc hdr es He (Nd fsh vals) (Nd [:: k; nt] cs)
  (Nd sh mu) sh k nt ax tsel ts size Hfsh erefl erefl Wphi Wa Wm Haxl Hspos Hts Htsn (elimT ssrnat.ltP Hs).
have [Q [_ [SQ [_ [HQ [LQ _]]]]]] := File unit (fun _ => nil) (fun _ => nil) 0%N 1%N (fun _ => erefl) isT.
exists Q; split=> //; last first.
  move=> B enc hdr es size He Hs; have [Q' [locs [_ [_ [_ [LQ' [HF HS]]]]]]] := File B enc hdr es size He Hs.
  by exists locs; split=> //; move: LQ'; rewrite LQ => -[->].
move=> m i idx Hm V; rewrite (HQ m i idx Hm V); congr Some.
have Hr : (Spec_Array.ravel sh idx < n)%N by rewrite -Hsh; apply/ssrnat.ltP; exact: ravel_bound.
set r := Spec_Array.ravel sh idx in Hr *; pose x := Ordinal Hr.
have Hi' : (i < nt)%N.
  have [l [_ [_ [Hl _]]]] := selected_split _ _ Hts.
  apply/ssrnat.ltP; move/List.Forall_forall: (@index_times_lt C 0 +%R *%R _ _ _ Hl) => /(_ _ (List.nth_error_In _ _ Hm)).
  exact.
have Hil : (i < length rec)%N by rewrite Lr.
pose t := Ordinal Hil.
have Es' u y : sample cast data u y = List.nth y (List.nth u rec nil) 0 by rewrite /sample /rec Erec.
have Emean : time_mean X x = mean_of cast data r.
  rewrite /time_mean /mean_of -/nt -Lr; congr (_ / _); apply: eq_bigr => u _; by rewrite Es' mxE.
have EX : X t x = sample cast data i r by rewrite Es' mxE.
have := Back x t; rewrite /fluctuation Emean EX => <-.
rewrite (pod_recE Hid) Emean /cell_op sum_toE; congr (_ + _).
  apply: eq_bigr => j _; congr (_ * _); first by rewrite Hfsh ravel_at // -/r [RHS]mxE.
  have -> : value 0 (Nd [:: k; nt] cs) [:: val j; i] = List.nth (j * nt + i)%N cs 0.
    by rewrite entry_value /=; congr (List.nth _ _ _); rewrite -?multE -?plusE; lia.
  rewrite Hcs //; apply: eq_bigr => y _; rewrite [Phi _ _]mxE /fluctuation [X _ _]mxE Es'; congr (_ * (_ - _)).
  by rewrite Hmu // /time_mean -Lr; congr (_ / _); apply: eq_bigr => u _; rewrite mxE Es'.
by rewrite entry_value /= -/r Hmu.
Qed.
Print Assumptions C162_constant_weights.

Lemma comes_back_ext (C : numClosedFieldType) (A : Type) (cast : A -> C) xs xdim user modes data b b' :
  (forall t i, b t i = b' t i) -> @comes_back C A cast xs xdim user modes data b -> comes_back cast xs xdim user modes data b'.
Proof.
move=> E [cs [ms [mu [ax [H1 H2]]]]]; exists cs, ms, mu, ax; split=> // tsel ts Hts Htsn.
have [Q [K1 K2 K3 K4]] := H2 tsel ts Hts Htsn; exists Q; split=> // k i idx Hk V; by rewrite (K3 k i idx Hk V) E.
Qed.
(* weights all one, as when the caller gives none: every snapshot comes back unchanged *)
Theorem C162_record_returns : forall (C : numClosedFieldType) (eig : forall n, 'M[C]_n -> 'rV[C]_n * 'M[C]_n) (A : Type) (cast : A -> C) longtime data xs xdim user k np1 eigs fsh vals,
  let nt := List.hd 0%N (Model_Parallel.shape data) in
  pod_input [:: data] xs xdim user -> processes_ok np1 k -> (k <= nt)%N -> real_eig_ok (@eig nt) ->
  (forall x, List.In x (weights_of 1 user xs 1) -> x = 1) -> (forall row x, List.In row (snapshots data) -> List.In x row -> cast x \is Num.real) ->
  pod_fit_array eig cast longtime [:: data] xdim 1 user k np1 = Ok (eigs, Nd fsh (List.map Some vals)) ->
  let lam j := List.nth j eigs 0 in
  (forall i j, (i < k)%N -> (j < k)%N -> lam i = lam j -> i = j) -> (forall j, (k <= j < nt)%N -> lam j = 0) ->
  comes_back cast xs xdim user (Nd fsh vals) data (sample cast data).
Proof.
move=> C eig A cast longtime data xs xdim user k np1 eigs fsh vals nt Hi Hp Hk Heig HW Hreal Hfit lam Hd Hz.
apply: comes_back_ext (C162_constant_weights Hi Hp Hk Heig ltr01 HW Hreal Hfit Hd Hz) => t i.
by rewrite divr1 addrC subrK.
Qed.
Print Assumptions C162_record_returns.
(* any other constant weights, with the same modes kept: what comes back agrees with the record exactly at the entries that do not differ from their mean *)
Theorem C162_weights_ignored_refuted : forall (C : numClosedFieldType) (eig : forall n, 'M[C]_n -> 'rV[C]_n * 'M[C]_n) (A : Type) (cast : A -> C) longtime data xs xdim user k np1 eigs fsh vals c,
  let nt := List.hd 0%N (Model_Parallel.shape data) in
  pod_input [:: data] xs xdim user -> processes_ok np1 k -> (k <= nt)%N -> real_eig_ok (@eig nt) ->
  0 < c -> c != 1 -> (forall x, List.In x (weights_of 1 user xs 1) -> x = c) -> (forall row x, List.In row (snapshots data) -> List.In x row -> cast x \is Num.real) ->
  pod_fit_array eig cast longtime [:: data] xdim 1 user k np1 = Ok (eigs, Nd fsh (List.map Some vals)) ->
  let lam j := List.nth j eigs 0 in
  (forall i j, (i < k)%N -> (j < k)%N -> lam i = lam j -> i = j) -> (forall j, (k <= j < nt)%N -> lam j = 0) ->
  exists back, comes_back cast xs xdim user (Nd fsh vals) data back /\
    forall t i, back t i = sample cast data t i <-> sample cast data t i = mean_of cast data i.
Proof.
move=> C eig A cast longtime data xs xdim user k np1 eigs fsh vals c nt Hi Hp Hk Heig Hc Hc1 HW Hreal Hfit lam Hd Hz.
eexists; split; first exact: C162_constant_weights Hi Hp Hk Heig Hc HW Hreal Hfit Hd Hz.
move=> t i /=; move: (sample _ _ _ _) (mean_of _ _ _) => a m; split=> [E|->]; last by rewrite subrr mul0r addr0.
have : (a - m) * (1 - c^-1) = 0.
  have {}E : (a - m) / c = a - m by apply: (addrI m); rewrite E addrC subrK.
  by rewrite mulrBr mulr1 E subrr.
move/eqP; rewrite mulf_eq0 subr_eq0 => /orP [/eqP // |]; rewrite subr_eq0 => /eqP E1; case/eqP: Hc1.
by rewrite -[c]invrK -E1 invr1.
Qed.
Print Assumptions C162_weights_ignored_refuted.

(* the hypotheses are met: the folder of a fit of two snapshots of two points *)
Section Nonvacuous.
Variable C : numClosedFieldType.
Example C162_folder_nonvacuous : pod_coef_data (folder_of_pod_fit [:: 2%N] 1 NoWeights (Nd [:: 2; 1; 1]%N [:: 1; 0 : C])) (pod_d C) 2 1 [:: 2%N] [:: 2; 1]%N.
Proof. by []. Qed.
(* weights all c: some solver that keeps its promise, with at least one mode *)
Example C162_nonvacuous (c : C) : 0 < c -> exists (eig : forall n, 'M[C]_n -> 'rV[C]_n * 'M[C]_n) k eigs fsh vals,
  let user := WeightsDict (Nd [:: 2; 1]%N [:: c; c]) in
  [/\ pod_input [:: pod_d C] [:: 2%N] 1 user, (0 < k <= 2)%N, real_eig_ok (@eig 2%N) & forall x, List.In x (weights_of 1 user [:: 2%N] 1) -> x = c] /\
  [/\ forall row x, List.In row (snapshots (pod_d C)) -> List.In x row -> x \is Num.real,
      pod_fit_array eig (fun x => x) true [:: pod_d C] 1 1 user k None = Ok (eigs, Nd fsh (List.map Some vals)),
      forall i j, (i < k)%N -> (j < k)%N -> List.nth i eigs 0 = List.nth j eigs 0 -> i = j & forall j, (k <= j < 2)%N -> List.nth j eigs 0 = 0].
Proof.
move=> Hc; set user := WeightsDict _.
pose rec := List.map (List.map (fun x : C => x)) (record [:: pod_d C]).
pose W := weights_of (1 : C) user [:: 2%N] 1.
pose X : 'M[C]_(2, 2) := rec_mx rec [:: 2%N]; pose w := w_vec W [:: 2%N] : 'cV[C]_2.
have Hwc x : w x 0 = c by rewrite mxE; case: x => -[|[|//]] /=.
have Hw x : 0 <= w x 0 by rewrite Hwc ltW.
have HX : real_mx X by move=> t x; rewrite mxE; case: t => -[|[|//]] ?; case: x => -[|[|//]] ? /=; rewrite ?rpredN ?rpred1 ?rpred0.
have Hown := id_partition 2%N.
have [eig [k [H [Phi [Heig [HPhi [_ Hz]]]]]]] := pod_hypotheses_met X true Hown Hw.
have Hin : pod_input [:: pod_d C] [:: 2%N] 1 user by split; split=> // d [<-|//].
have [HE _] := C93_total_energy Heig Hown Hw HX.
have Hk : (0 < k)%N.
  rewrite lt0n; apply/eqP => Ek; move: HE; rewrite big1; last by move=> j _; apply: Hz; rewrite Ek.
  rewrite !big_ord_recl !big_ord0 /fluctuation /time_mean !big_ord_recl !big_ord0 !Hwc /X !mxE /= !addr0 !subrr !mul0r !subr0 normr0 expr0n /= !mulr0 !addr0.
  rewrite normrN normr1 expr1n mulr1 => /eqP; rewrite eq_sym -mulr2n mulrn_eq0 /=; by rewrite gt_eqF.
have [HEp HV _] := answer X true Heig Hw.
have Dsum x : \sum_t Dg X true x t = 0.
  rewrite !big_ord_recl big_ord0 addr0 !mxE /time_mean !big_ord_recl big_ord0 !mxE /=; case: x => -[|[|//]] ? /=; rewrite ?raddf0 ?raddfN ?addr0 ?subrr ?mul0r ?subr0 ?subrr ?addr0 //.
have Q0 b : \sum_a Qg w X true a b = 0.
  rewrite (eq_bigr (fun a => \sum_x (Dg X true x a)^* * (Model_Spod.wmul w (Dg X true)) x b)); last by move=> a _; rewrite mxE; apply: eq_bigr => x _; rewrite [adj _ _ _]mxE.
  rewrite exchange_big big1 // => x _; rewrite -mulr_suml -rmorph_sum Dsum rmorph0; exact: mul0r.
have Hk1 : (k < 2)%N.
  rewrite ltn_neqAle H andbT; apply/eqP => Ek.
  have Hne (j : 'I_2) : (eig (Qg w X true)).1 0 j != 0.
    have Hj : (j < k)%N by rewrite Ek.
    have [Hne _] := Phi_entry Heig Hown Hw HPhi 0 (Ordinal Hj); rewrite (_ : widen_ord H _ = j) // in Hne; exact: val_inj.
  have HV0 j : \sum_a (eig (Qg w X true)).2 a j = 0.
    have := congr1 (fun M : 'cV_2 => \sum_a M a 0) (HEp.1 j); rewrite /=.
    rewrite (eq_bigr (fun a => \sum_b Qg w X true a b * (eig (Qg w X true)).2 b j)); last by move=> a _; rewrite mxE; apply: eq_bigr => b _; rewrite [col _ _ _ _]mxE.
    rewrite exchange_big big1; last by move=> b _; rewrite -mulr_suml Q0 mul0r.
    rewrite (eq_bigr (fun a => (eig (Qg w X true)).1 0 j * (eig (Qg w X true)).2 a j)); last by move=> a _; rewrite !mxE.
    by rewrite -mulr_sumr => /esym/eqP; rewrite mulf_eq0 (negbTE (Hne j)) => /eqP.
  have E1 : (const_mx 1 : 'rV[C]_2) *m (eig (Qg w X true)).2 = 0.
    by apply/matrixP => i j; rewrite !mxE -[RHS](HV0 j); apply: eq_bigr => a _; rewrite mxE mul1r.
  have := congr1 (fun M => M *m invmx (eig (Qg w X true)).2) E1; rewrite mulmxK // mul0mx => /matrixP /(_ 0 0); rewrite !mxE => /eqP; by rewrite oner_eq0.
pose eiga n : 'M[C]_n -> 'rV[C]_n * 'M[C]_n := match @eqP _ 2%N n with ReflectT E => ecast n ('M[C]_n -> 'rV[C]_n * 'M[C]_n) E eig | _ => fun M => (0, M) end.
have Ea : eiga 2%N = eig by rewrite /eiga; case: eqP => // E; rewrite eq_axiomK.
exists eiga, k, (ref_pod_eigs eiga true rec W [:: 2%N]), [:: 2; 1; k]%N,
  (List.flat_map (fun i => List.map (fun j => Phi i j) (enum 'I_k)) (enum 'I_2)); split; split=> //.
- by rewrite Hk.
- by rewrite Ea.
- by move=> x /= [<-|[<-|//]].
- by move=> row x /= [<-|[<-|//]] /= [<-|[<-|//]]; rewrite ?rpredN ?rpred1 ?rpred0.
- rewrite (C159_fit_is_pod_of_the_record (np := None) eiga true (H : (k <= length (List.map (List.map (fun x : C => x)) (record [:: pod_d C])))%N) Hin I).
  rewrite /ref_pod_file; congr (Ok (_, Nd _ _)).
  have G l : List.flat_map (fun i : 'I_2 => List.map (fun j => serial_pod_saved w X true (eiga 2%N) H i j) (enum 'I_k)) l = List.map Some (List.flat_map (fun i => List.map (fun j => Phi i j) (enum 'I_k)) l).
    elim: l => //= i l ->; rewrite List.map_app List.map_map; congr (List.app _ _).
    by apply: List.map_ext => j; rewrite Ea; apply: (HPhi ord0 i j).
  exact: G.
- move=> i j; have -> : k = 1%N by apply/eqP; rewrite eqn_leq Hk -ltnS Hk1.
  by case: i => // _; case: j.
- move=> j /andP [Hj Hj2]; rewrite /ref_pod_eigs.
  have -> : j = val (Ordinal Hj2 : 'I_2) by [].
  by rewrite (nth_enum_map (fun j : 'I_2 => pod_w (size := 1) (fun _ (i : 'I_2) => i) w X true (eiga 2%N) 0 j) (Ordinal Hj2)) Ea; apply: Hz.
Qed.
End Nonvacuous.
