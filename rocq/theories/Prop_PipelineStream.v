(* Property theorems C158: whole streaming fits of in-memory data. *)
From Coq Require Import QArith.
From Verif Require Import Base_List Model_Parallel Model_Reader1 Model_Reader2 Model_Base Model_Standard Model_Pipeline Model_Streaming Spec_Array Spec_Reader Spec_Reader2 Spec_StreamTime
  Proof_Parallel Proof_Npy2 Proof_Reader1 Proof_Reader1b Proof_Reader2b Proof_Standard1 Proof_Pipeline Proof_Streaming Prop_Standard1.
From Coq Require Import Sorting.Permutation.
From mathcomp Require Import all_ssreflect all_algebra.
From Verif Require Import Model_Spod Spec_Spod Proof_Spod Model_SpodPar Proof_SpodPar Spec_Stream Spec_StreamNum Model_StreamNum Proof_StreamNum Proof_StreamNum3 Prop_Stream
  Model_PipelineNum Proof_PipelineNum Proof_PipelineFit Prop_Pipeline Model_PipelineStream Proof_PipelineStream.
Set Implicit Arguments.
Unset Strict Implicit.
Unset Printing Implicit Defensive.
Import Order.TTheory GRing.Theory Num.Theory.
Local Open Scope ring_scope.

(* ---- what the runs are compared with: the streaming algorithm on one process (Model_StreamNum) over a list of snapshots, each the
   flattened array of shape sh; W the flattened weights; None when a result is not a number at some frequency ---- *)
Section Reference.
Variables (C : numClosedFieldType).
Variable svd : forall k, 'M[C]_(k + 1) -> 'M[C]_(k + 1) * 'rV[C]_(k + 1).
Variables (c : config C) (rec : list (list C)) (W : list C) (sh : list nat).
Let n := Base_List.prod sh.
Definition snap (t : nat) : 'cV[C]_n := \col_i List.nth i (List.nth t rec nil) 0.
Definition wvec : 'cV[C]_n := \col_i List.nth i W 0.
Definition ref_stream_eigs (f : nat) : option (list C) :=
  omap (fun e : 'rV[C]_(n_modes_save c) => List.map (fun k => e 0 k) (enum 'I_(n_modes_save c))) (serial_stream_eigs wvec (@svd _) snap (length rec) f).
(* the array [*sh, n_modes_save] of one frequency in C order *)
Definition ref_stream_file (f : nat) : option (nd C) :=
  omap (fun P : 'M[C]_(n, n_modes_save c) => Nd (List.app sh (cons (n_modes_save c) nil))
          (List.flat_map (fun i => List.map (fun m => P i m) (enum 'I_(n_modes_save c))) (enum 'I_n)))
       (serial_stream_modes wvec (@svd _) snap (length rec) f).
Definition ref_stream : option (list (list C) * list (nd C)) :=
  both (all_opt (List.map ref_stream_eigs (List.seq 0 (n_freq c)))) (all_opt (List.map ref_stream_file (List.seq 0 (n_freq c)))).
End Reference.

(* ---- C158 ---- *)
(* one dataset, at least two requested modes (C49), any number of processes: the run is the streaming algorithm on the record *)
Theorem C158_fit_stream_is_streaming_spod : forall (C : numClosedFieldType) svd (A : Type) (cast : A -> C) isreal s d xs nv user np,
  valid_arrays s [:: d] xs nv user np -> s_modes s <> 1%N ->
  exists c, configure s (length (snapshots d)) (List.forallb isreal (List.hd nil (snapshots d))) = Ok c /\
    fit_stream_array svd cast isreal s [:: d] (length xs) nv user np
    = Ok (ref_stream svd c (List.map (List.map cast) (snapshots d)) (weights_of 1 user xs nv) (List.app xs (cons nv nil))).
Proof.
move=> C svd A cast isreal s d xs nv user np [sp [ax [nb [[H1 H2 H3 H4 H5] [[H6 H7 H8 H9 H10] [H11 H12]]]]]] Hm.
have Er : record [:: d] = snapshots d by rewrite /record /= List.app_nil_r.
have Hst cm rd : comm_ok cm -> reader1_init isreal [:: d] (length xs) nv cm = Ok rd ->
    stream_from cast 0 rd 0 (S (rd_nt rd)) = List.map (fun row => List.map cast (local_piece sp ax cm row)) (snapshots d).
  move=> Hcm Hrd; have [_ [Hnt _]] := @load_rep _ isreal [:: d] xs sp nv H4 H5 H6 (elimT ssrnat.ltP H7) C cast 0 cm rd H1 Hcm Hrd.
  apply: (@stream_single _ _ cast 0 isreal d (length xs) nv cm rd sp ax) => //; first exact: H5 (or_introl erefl).
  by rewrite Hnt Er snapshots_length; lia.
have Hne : snapshots d <> nil.
  move=> E0; have := snapshots_length d; rewrite E0; move: H3 => /=; rewrite /nrows; by case: (Model_Parallel.shape d) => [|[|a] l].
have Hrow row : List.In row (snapshots d) -> length row = Base_List.prod sp by move=> Hr; apply: (@record_row_length _ [:: d] sp row H1 H5); rewrite Er.
have [c [Hc E]] := @fit_stream_gen C svd A cast isreal s [:: d] xs sp nv user ax H1 H2 H3 H4 H5 H6 H7 H8 H9 H10 Hm nb H11 (snapshots d) Hst Hne Hrow np H12.
by exists c; rewrite Er in Hc.
Qed.
Print Assumptions C158_fit_stream_is_streaming_spod.
(* several datasets: the run reads the snapshots of the first dataset and then, wherever the second one is longer than the first, its snapshots at the
   positions counted from its own start (C12); the rest of the record is never used, although the parameters were checked for the whole record *)
Theorem C158_several_datasets_refuted : forall (C : numClosedFieldType) svd (A : Type) (cast : A -> C) isreal s d0 d1 rest xs nv user np,
  valid_arrays s [:: d0, d1 & rest] xs nv user np -> s_modes s <> 1%N -> snapshots d1 <> nil ->
  let used := List.app (snapshots d0) (List.skipn (length (snapshots d0)) (snapshots d1)) in
  (length used < length (record [:: d0, d1 & rest]))%N /\
  exists c, configure s (length (record [:: d0, d1 & rest])) (List.forallb isreal (List.hd nil (snapshots d0))) = Ok c /\
    fit_stream_array svd cast isreal s [:: d0, d1 & rest] (length xs) nv user np
    = Ok (ref_stream svd c (List.map (List.map cast) used) (weights_of 1 user xs nv) (List.app xs (cons nv nil))).
Proof.
move=> C svd A cast isreal s d0 d1 rest xs nv user np [sp [ax [nb [[H1 H2 H3 H4 H5] [[H6 H7 H8 H9 H10] [H11 H12]]]]]] Hm Hd1 used.
have Hn0 : (0 < nrows d0)%coq_nat by move: H3 => /=; rewrite /nrows; case: (Model_Parallel.shape d0) => [|[|a] l] //= _; lia.
have Hn1 : (0 < nrows d1)%coq_nat by have := snapshots_length d1; case: (snapshots d1) Hd1 => //= r l _ <-; lia.
have Erl : length (record [:: d0, d1 & rest]) = Nat.add (nrows d0) (Nat.add (nrows d1) (length (List.concat (List.map (@snapshots A) rest)))).
  by rewrite /record /= !List.app_length !snapshots_length.
have Eul : length used = Nat.max (nrows d0) (nrows d1).
  by rewrite /used List.app_length List.skipn_length !snapshots_length; lia.
have Hst cm rd : comm_ok cm -> reader1_init isreal [:: d0, d1 & rest] (length xs) nv cm = Ok rd ->
    stream_from cast 0 rd 0 (S (rd_nt rd)) = List.map (fun row => List.map cast (local_piece sp ax cm row)) used.
  move=> Hcm Hrd; have [_ [Hnt _]] := @load_rep _ isreal [:: d0, d1 & rest] xs sp nv H4 H5 H6 (elimT ssrnat.ltP H7) C cast 0 cm rd H1 Hcm Hrd.
  rewrite /used snapshots_length; apply: (@stream_multi _ _ cast 0 isreal d0 d1 rest (length xs) nv cm rd sp ax) => //.
  by rewrite Hnt Erl; lia.
have Hne : used <> nil by move=> E0; move: Eul; rewrite E0 /=; lia.
have Hrow row : List.In row used -> length row = Base_List.prod sp.
  move=> Hr; apply: (@record_row_length _ [:: d0, d1 & rest] sp row H1 H5); rewrite /record /=.
  move/List.in_app_iff: Hr => [Hr|Hr]; apply/List.in_app_iff; first by left.
  right; apply/List.in_app_iff; left; rewrite -(List.firstn_skipn (length (snapshots d0)) (snapshots d1)); apply/List.in_app_iff; by right.
have [c [Hc E]] := @fit_stream_gen C svd A cast isreal s [:: d0, d1 & rest] xs sp nv user ax H1 H2 H3 H4 H5 H6 H7 H8 H9 H10 Hm nb H11 used Hst Hne Hrow np H12.
split; first by apply/ssrnat.ltP; rewrite Eul Erl; lia.
exists c; split=> //; rewrite -Hc; congr (configure _ _ (List.forallb _ _)).
rewrite /record /=; have := snapshots_length d0; case: (snapshots d0) => //= E0; by rewrite -E0 in Hn0; lia.
Qed.
Print Assumptions C158_several_datasets_refuted.
(* the number of processes does not show in the result *)
Theorem C158_processes_invisible : forall (C : numClosedFieldType) svd (A : Type) (cast : A -> C) isreal s d xs nv user np np',
  valid_arrays s [:: d] xs nv user np -> valid_arrays s [:: d] xs nv user np' -> s_modes s <> 1%N ->
  fit_stream_array svd cast isreal s [:: d] (length xs) nv user np = fit_stream_array svd cast isreal s [:: d] (length xs) nv user np'.
Proof.
move=> C svd A cast isreal s d xs nv user np np' Hv Hv' Hm.
have [c [Hc ->]] := C158_fit_stream_is_streaming_spod svd cast isreal Hv Hm.
have [c' [Hc' ->]] := C158_fit_stream_is_streaming_spod svd cast isreal Hv' Hm.
by move: Hc'; rewrite Hc => -[->].
Qed.
Print Assumptions C158_processes_invisible.

Lemma all_opt_nth (T : Type) (F : nat -> option T) N l d : all_opt (List.map F (List.seq 0 N)) = Some l ->
  length l = N /\ forall f, (f < N)%N -> F f = Some (List.nth f l d).
Proof.
have G : forall a m l, all_opt (List.map F (List.seq a m)) = Some l -> length l = m /\ forall f, (f < m)%N -> F (a + f)%N = Some (List.nth f l d).
  move=> a m; elim: m a => [|m IH] a l0 /=; first by move=> [<-].
  case Ea: (F a) => [x|//]; case El: (all_opt _) => [r|//] [<-].
  have [Hl Hf] := IH _ _ El; split=> [|[|f] Hlt] /=; rewrite ?Hl //; first by rewrite addn0.
  by rewrite addnS -addSn; apply: Hf.
by move=> /G [H1 H2]; split=> // f /H2.
Qed.
(* what a user can rely on in the saved results: for any SVD routine that keeps its promise and positive weights, with K the number of blocks the stream
   completes (C43, C44), at every frequency the columns of the saved array are orthonormal in the weighted inner product up to column K and zero beyond, the
   saved values are non-negative, and as long as K does not exceed the number of modes the saved modes with the squares of the saved values give the weighted
   cross-spectral matrix of the record exactly *)
Theorem C158_saved_results : forall (C : numClosedFieldType) svd (A : Type) (cast : A -> C) isreal s d xs nv user np c K eigs arrays,
  valid_arrays s [:: d] xs nv user np -> s_modes s <> 1%N -> (forall k, svd_ok (svd k)) ->
  (forall x, List.In x (weights_of 1 user xs nv) -> 0 < x) ->
  configure s (length (snapshots d)) (List.forallb isreal (List.hd nil (snapshots d))) = Ok c ->
  blocks_done (s_ndft s) (s_ndft s - s_novlp s) (length (snapshots d)) K ->
  fit_stream_array svd cast isreal s [:: d] (length xs) nv user np = Ok (Some (eigs, arrays)) ->
  let sh := List.app xs (cons nv nil) in let M := n_modes_save c in
  [/\ length eigs = n_freq c, length arrays = n_freq c &
  forall f, (f < n_freq c)%N ->
    let lam (k : 'I_M) := List.nth k (List.nth f eigs nil) 0 in
    let phi (i : nat) (k : 'I_M) := List.nth (i * M + k)%N (flat (List.nth f arrays (Nd nil nil))) 0 in
    [/\ length (List.nth f eigs nil) = M,
        Model_Parallel.shape (List.nth f arrays (Nd nil nil)) = List.app sh (cons M nil),
        forall k, 0 <= lam k,
        forall j k, \sum_(i < Base_List.prod sh) (phi i j)^* * phi i k * List.nth i (weights_of 1 user xs nv) 0 = if (j == k) && (j < K)%N then 1 else 0 &
        (K <= M)%N -> forall y z : 'I_(Base_List.prod sh),
          \sum_k lam k ^+ 2 * phi y k * (phi z k)^* = stream_csd c (snap (List.map (List.map cast) (snapshots d)) sh) K f y z]].
Proof.
move=> C svd A cast isreal s d xs nv user np c K eigs arrays Hv Hm Hsvd Hw Hc HK Hfit sh M.
have [c' [Hc' E]] := C158_fit_stream_is_streaming_spod svd cast isreal Hv Hm.
move: Hc'; rewrite Hc => -[Ec]; subst c'.
move: E; rewrite Hfit /ref_stream /both -/sh => -[].
set W := weights_of 1 user xs nv; set rec := List.map (List.map cast) (snapshots d).
case Ee: (all_opt _) => [e|//]; case Em: (all_opt _) => [m|//] [Ee' Em']; subst e m.
have [He1 He2] := all_opt_nth nil Ee; have [Hm1 Hm2] := all_opt_nth (Nd nil nil) Em.
split=> // f Hf; have := He2 f Hf; have := Hm2 f Hf; rewrite /ref_stream_eigs /ref_stream_file.
case EP: (serial_stream_modes _ _ _ _ _) => [P|//] /= [<-]; case EE: (serial_stream_eigs _ _ _ _ _) => [ev|//] /= [<-].
have Hov : (n_overlap c < n_dft c)%N.
  case: Hv => sp [ax [nb [_ [[_ _ _ Hov _] [Hnb _]]]]].
  by move: Hc; rewrite /configure; case: (check_feasible _ _ _) => //= nb' [<-] /=.
have [Edft Eov] : n_dft c = s_ndft s /\ n_overlap c = s_novlp s.
  by move: Hc; rewrite /configure; case: (check_feasible _ _ _) => //= nb' [<-] /=.
have HW (y : 'I_(Base_List.prod sh)) : 0 < wvec W sh y 0.
  rewrite mxE; apply: Hw; apply: List.nth_In; rewrite weights_of_length; last by case: Hv => sp [ax [nb [_ [[_ _ _ _ H10] _]]]].
  by apply/ssrnat.ltP; apply: ltn_ord.
have Hlen : length rec = length (snapshots d) by rewrite /rec List.map_length.
have HK' : blocks_done (n_dft c) (n_dft c - n_overlap c) (length rec) K by rewrite Edft Eov Hlen.
have Hid := id_partition (Base_List.prod sh).
have Hass : assembles (fun (_ : 'I_1) (i : 'I_(Base_List.prod sh)) => i) (fun r => stream_modes (c := c) (fun (_ : 'I_1) (i : 'I_(Base_List.prod sh)) => i) (wvec W sh) (@svd _) (snap rec sh) (length rec) r f) P.
  by move=> r; exists P; rewrite [r]ord1 -EP.
have Hes (r : 'I_1) : stream_eigs (c := c) (fun (_ : 'I_1) (i : 'I_(Base_List.prod sh)) => i) (wvec W sh) (@svd _) (snap rec sh) (length rec) r f = Some ev by rewrite [r]ord1 -EE.
have Enth (k : 'I_M) : List.nth k (List.map (fun k => ev 0 k) (enum 'I_M)) 0 = ev 0 k.
  by rewrite nth_List -[List.map _ _]/(map _ _) (nth_map k) ?size_enum_ord // nth_ord_enum.
have Erow (i : 'I_(Base_List.prod sh)) (k : 'I_M) := @nth_rows C 0 _ _ (fun i m => P i m) i k.
split=> //.
- by rewrite List.map_length -[length _]/(size _) size_enum_ord.
- move=> k; rewrite Enth.
  have [U [EU _]] := assembled Hid Hov HK' ord0 Hass Hes.
  by have [[H0 _] _] := gbasis_inv (@Hsvd _) EU; apply: H0.
- move=> j k; have := @C47_orthonormal C c 1 _ _ _ (wvec W sh) (@svd _) (snap rec sh) (length rec) K f P ev ord0 Hid Hov (@Hsvd _) HW HK' Hass Hes j k => <-.
  rewrite /wip; apply: eq_bigr => i _; rewrite !Erow; congr (_ * _).
  by rewrite mxE.
- move=> Hk y z; have := @C46_history_exact C c 1 _ _ _ (wvec W sh) (@svd _) (snap rec sh) (length rec) K f P ev ord0 Hid Hov (@Hsvd _) HW HK' Hk Hass Hes y z => <-.
  by rewrite /represented; apply: eq_bigr => k _; rewrite !Erow Enth.
Qed.
Print Assumptions C158_saved_results.

(* the hypotheses are met: eight snapshots of four points, one entry of the first snapshot non-zero, a window that keeps the first row of a block; two modes *)
Section Nonvacuous.
Variable C : numClosedFieldType.
Definition st_settings : settings C := Settings 4 0 2 Longtime false false (1#1)%Q 0 (fun k => (k == 0%N)%:R) 1 0 (fun _ x => x).
Definition st_d : nd C := Nd [:: 8; 4]%N (1 :: List.repeat 0 31).
Example C158_nonvacuous np : np \in [:: None; Some 1%N; Some 2%N] -> valid_arrays st_settings [:: st_d] [:: 4%N] 1 NoWeights np.
Proof.
move=> Hnp; exists [:: 4%N], 0%N, (Z.of_nat 2); split; [split=> //|split; [split=> //|split]].
- by move=> d [<-|//].
- by right.
- by move=> d [<-|//].
- by [].
- by move: Hnp; rewrite !inE => /or3P [/eqP ->|/eqP ->|/eqP ->] //=; split=> // -[|[|r]].
Qed.
Example C158_nonvacuous_several np : np \in [:: None; Some 1%N; Some 2%N] -> valid_arrays st_settings (ex_ds C) [:: 4%N] 1 NoWeights np.
Proof. by move=> /(C121_nonvacuous C) [sp [ax [nb H]]]; exists sp, ax, nb. Qed.
Lemma all_opt_total (T : Type) (F : nat -> option T) l : (forall f, F f <> None) -> exists r, all_opt (List.map F l) = Some r.
Proof.
move=> H; elim: l => [|f l [r IH]] /=; first by eexists.
by rewrite IH; case E: (F f) (H f) => [x|] // _; eexists.
Qed.
Example C158_saved_nonvacuous svd isreal np : np \in [:: None; Some 1%N; Some 2%N] ->
  exists c eigs arrays,
    [/\ configure st_settings 8 isreal = Ok c, blocks_done 4 4 8 1,
        fit_stream_array svd (fun x : C => x) (fun _ => isreal) st_settings [:: st_d] 1 1 NoWeights np = Ok (Some (eigs, arrays)) &
        forall x, List.In x (weights_of (1 : C) NoWeights [:: 4%N] 1) -> 0 < x].
Proof.
move=> Hnp.
have [c [Hc E]] := C158_fit_stream_is_streaming_spod svd (fun x : C => x) (fun _ => isreal) (C158_nonvacuous Hnp) (ltac:(done) : s_modes st_settings <> 1%N).
have Hr : List.forallb (fun _ : C => isreal) (List.hd nil (snapshots st_d)) = isreal by rewrite /=; clear; case: isreal.
rewrite Hr in Hc; exists c.
have HK : blocks_done 4 4 8 1 by split=> [|[|k]] /=; [rewrite /stream_start /=; lia|rewrite /stream_start /=; lia|lia].
have [Ed [Eo [Ew [Eom Ewin]]]] : n_dft c = 4%N /\ n_overlap c = 0%N /\ window c = (fun k => (k == 0%N)%:R) /\ omega c = 1 /\ win_weight c != 0.
  move: Hc; rewrite /configure /= => -[<-]; do 4!split=> //.
  rewrite /win_weight /= !big_ord_recl big_ord0 /= !addr0.
  by rewrite ?invr_eq0 ?mulf_neq0 ?invr_eq0 ?pnatr_eq0 ?oner_eq0.
have Hov : (n_overlap c < n_dft c)%N by rewrite Ed Eo.
have HK' : blocks_done (n_dft c) (n_dft c - n_overlap c) 8 1 by rewrite Ed Eo.
set rec := List.map (List.map (fun x : C => x)) (snapshots st_d) in E.
set W := weights_of 1 NoWeights [:: 4%N] 1 in E.
have Hx f : xw c (wvec W [:: 4; 1]%N) (snap rec [:: 4; 1]%N) (start (n_dft c) (n_overlap c) 0) f (0 : 'I_4) 0 != 0.
  rewrite mxE bhatE mulf_neq0 //; last by rewrite sqrtC_eq0 mxE /= oner_eq0.
  rewrite /stream_transform Ed Eo -[start 4 0 0]/0%N add0n Ew Eom !big_ord_recl !big_ord0 /= !mxE /= !mulr0 !mul0r !addr0 !mulr1 ?expr1n ?mulr1.
  rewrite !mulf_neq0 ?invr_eq0 ?pnatr_eq0 //.
    by case: ifP => _; rewrite ?oner_eq0 ?pnatr_eq0.
    by move: Ewin; rewrite /win_weight invr_eq0.
  by rewrite subr_eq0 eq_sym div1r -[X in _ == X]invr1 (inj_eq invr_inj) pnatr_eq1.
have Hnn f : serial_stream_modes (c := c) (wvec W [:: 4; 1]%N) (@svd _) (snap rec [:: 4; 1]%N) 8 f <> None /\ serial_stream_eigs (c := c) (wvec W [:: 4; 1]%N) (@svd _) (snap rec [:: 4; 1]%N) 8 f <> None.
  have [us Eus] := gbasis_one (@svd _) (Hx f).
  rewrite /serial_stream_modes /serial_stream_eigs (modesE _ _ _ (id_partition _) Hov _ _ HK') (eigsE _ _ _ (id_partition _) Hov _ _ HK').
  by rewrite Eus.
have [e He] := @all_opt_total _ (ref_stream_eigs svd c rec W [:: 4; 1]%N) (List.seq 0 (n_freq c))
  (fun f => ltac:(rewrite /ref_stream_eigs -[length rec]/8%N; case: (serial_stream_eigs _ _ _ _ _) (proj2 (Hnn f)) => //)).
have [m Hm] := @all_opt_total _ (ref_stream_file svd c rec W [:: 4; 1]%N) (List.seq 0 (n_freq c))
  (fun f => ltac:(rewrite /ref_stream_file -[length rec]/8%N; case: (serial_stream_modes _ _ _ _ _) (proj1 (Hnn f)) => //)).
exists e, m; split=> //.
- by rewrite E /ref_stream -[List.app _ _]/[:: 4; 1]%N He Hm.
- by move=> x /=; do 4?[case=> [<-|]; first exact: ltr01].
Qed.
End Nonvacuous.
