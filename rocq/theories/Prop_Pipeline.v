(* Property theorems C121-C124: whole fits, from the caller's data to the results. *)
From Coq Require Import QArith.
From Verif Require Import Base_List Model_Parallel Model_Reader1 Model_Reader2 Model_Base Model_Standard Model_Pipeline Spec_Array Spec_Reader Spec_Reader2
  Proof_Parallel Proof_Npy2 Proof_Reader1 Proof_Reader1b Proof_Reader2b Proof_Standard1 Proof_Pipeline Prop_Standard1.
From Coq Require Import Sorting.Permutation.
From mathcomp Require Import all_ssreflect all_algebra.
From Verif Require Import Model_Spod Spec_Spod Proof_Spod Model_SpodPar Proof_SpodPar Proof_Spod2 Proof_Spectral Prop_Spod Model_PipelineNum Proof_PipelineNum Proof_PipelineFit.
Set Implicit Arguments.
Unset Strict Implicit.
Unset Printing Implicit Defensive.
Import Order.TTheory GRing.Theory Num.Theory.
Local Open Scope ring_scope.

(* ---- what the runs are compared with: serial SPOD (Model_Spod) of a record, given as the list of its snapshots, each the
   flattened array of shape sh; W the flattened weights ---- *)
Section Reference.
Variables (C : numClosedFieldType).
Variable eig : forall nb, 'M[C]_nb -> 'rV[C]_nb * 'M[C]_nb.
Variable argsort : forall nb, 'rV[C]_nb -> 'I_nb -> 'I_nb.
Variables (c : config C) (rec : list (list C)) (W : list C) (sh : list nat).
Let n := Base_List.prod sh.
(* snapshot t, entry i *)
Let X (t : nat) (i : 'I_n) : C := List.nth i (List.nth t rec nil) 0.
Let w : 'cV[C]_n := \col_i List.nth i W 0.
Definition ref_eigs : list (list C) :=
  List.map (fun f => List.map (fun k => serial_eigs (@eig _) (@argsort _) X w f 0 k) (enum 'I_(n_blocks c))) (List.seq 0 (n_freq c)).
Definition ref_mode (H : (n_modes_save c <= n_blocks c)%N) (f : nat) (i : 'I_n) (m : 'I_(n_modes_save c)) : C :=
  serial_modes (@eig _) (@argsort _) X w ord0 f H i m.
(* the array [*sh, n_modes_save] of one frequency in C order *)
Definition ref_freq_file H (f : nat) : nd C :=
  Nd (List.app sh (cons (n_modes_save c) nil))
     (List.flat_map (fun i => List.map (fun m => ref_mode H f i m) (enum 'I_(n_modes_save c))) (enum 'I_n)).
(* the array of one mode *)
Definition ref_mode_file H (f : nat) (m : 'I_(n_modes_save c)) : list C := List.map (fun i => ref_mode H f i m) (enum 'I_n).
End Reference.

(* the runs the theorems are about: in-memory datasets (lists of arrays with leading time axis) whose snapshots have shape xs, or xs
   and a trailing variable axis of length nv; first dataset non-empty; n_overlap < n_dft and record long enough for two blocks;
   weights, if given, of shape xs + [nv]; no process owns exactly one entry (C42) *)
Definition valid_arrays (C : numClosedFieldType) (A : Type) (s : settings C) (ds : list (nd A)) (xs : list nat) (nv : nat) (user : weights_arg C) (np : option nat) : Prop :=
  exists sp ax nb,
  [/\ well_formed ds, ds <> nil, (0 < List.hd 0%N (Model_Parallel.shape (List.hd (Nd nil nil) ds)))%N,
      sp = List.app xs (cons nv nil) \/ nv = 1%N /\ sp = xs
    & forall d, List.In d ds -> List.tl (Model_Parallel.shape d) = sp] /\
  [/\ sp <> nil, (0 < Base_List.prod sp)%N, argmax sp = Ok ax, (s_novlp s < s_ndft s)%N & weights_ok user xs nv] /\
  check_feasible (Z.of_nat (length (record ds))) (Z.of_nat (s_ndft s)) (Z.of_nat (s_novlp s)) = Ok nb /\
  no_single_entry (List.app xs (cons nv nil)) ax np.
(* netCDF files read by size processes; every message of the run is delivered in an arbitrary order *)
Definition valid_files (C : numClosedFieldType) (s : settings C) (xs : list nat) (nv : nat) (fs : nat -> ncfile C) (names : list nat) (user : weights_arg C)
    (size : nat) (nreaders : option nat) (ver nchunks nblks : nat) (orders : nat -> nat -> list nat) (order2 : nat -> nat -> list nat) : Prop :=
  let nxyz := Base_List.prod xs in let rec := nc_record 0 nxyz fs names in
  exists nb,
  [/\ (0 < size)%N, List.NoDup names, forall k, List.In k names -> nc_ok nxyz nv (fs k) /\ List.NoDup (nc_labels (fs k)),
      (0 < nchunks)%N /\ (0 < nblks)%N & (nchunks * nblks <= length rec)%N] /\
  [/\ forall m, (m <= length rec)%N -> (4 <= ver)%N \/ ~ big_message size (nreaders_of nreaders size) nxyz nv m,
      forall r chunk, Permutation (orders r chunk) (List.seq 0 size), forall pass r, Permutation (order2 pass r) (List.seq 0 size),
      (0 < nv)%N & weights_ok user xs nv] /\
  [/\ (s_novlp s < s_ndft s)%N, (0 < s_modes s)%N & forall r, (r < size)%N -> ((blockdist nxyz size r).1 * nv)%N <> 1%N] /\
  check_feasible (Z.of_nat (length rec)) (Z.of_nat (s_ndft s)) (Z.of_nat (s_novlp s)) = Ok nb.

Lemma nth_rows (T : Type) (d : T) n k (F : 'I_n -> 'I_k -> T) (i : 'I_n) (m : 'I_k) :
  List.nth (i * k + m)%N (List.flat_map (fun i => List.map (fun j => F i j) (enum 'I_k)) (enum 'I_n)) d = F i m.
Proof.
have Hlen j : length (List.map (F j) (enum 'I_k)) = k by rewrite List.map_length -[length _]/(size _) size_enum_ord.
rewrite (List.flat_map_concat_map) nth_List.
set ls := List.map _ _.
have Hls l : List.In l ls -> length l = k by move=> /List.in_map_iff [j [<- _]]; apply: Hlen.
have Hn : List.nth_error ls i = Some (List.map (F i) (enum 'I_k)).
  have Hi : (i < size (enum 'I_n))%N by rewrite size_enum_ord.
  rewrite /ls; erewrite List.map_nth_error; first reflexivity.
  by rewrite (@List.nth_error_nth' _ _ i i (elimT ssrnat.ltP Hi)) nth_List nth_ord_enum.
have Hm : List.nth_error (List.map (F i) (enum 'I_k)) m = Some (F i m).
  have Hi : (m < size (enum 'I_k))%N by rewrite size_enum_ord.
  erewrite List.map_nth_error; first reflexivity.
  by rewrite (@List.nth_error_nth' _ _ m m (elimT ssrnat.ltP Hi)) nth_List nth_ord_enum.
rewrite -nth_List; apply: List.nth_error_nth.
rewrite -Hm -[RHS](f_equal (fun o => match o with Some l => List.nth_error l m | None => None end) Hn).
by rewrite (@nth_error_concat_const _ ls k i m Hls (elimT ssrnat.ltP (ltn_ord m))) Hn.
Qed.
Lemma map_seq_ord (T : Type) n (G : nat -> T) : List.map G (List.seq 0 n) = List.map (fun i : 'I_n => G i) (enum 'I_n).
Proof. by rewrite -iota_seq -val_enum_ord -[map val _]/(List.map val _) List.map_map. Qed.
Lemma nth_map_seq (T : Type) (F : nat -> T) N f d : (f < N)%N -> List.nth f (List.map F (List.seq 0 N)) d = F f.
Proof.
move=> Hf; rewrite (List.nth_indep _ d (F 0%N)); last by rewrite List.map_length List.seq_length; apply/ssrnat.ltP.
by rewrite List.map_nth List.seq_nth //; apply/ssrnat.ltP.
Qed.

(* ---- C121 ---- *)
(* serially or on any number of processes, with the data given as any list of datasets: the run succeeds and saves the eigenvalues and the
   mode arrays of the serial algorithm on the concatenated record *)
Theorem C121_fit_arrays_is_spod : forall (C : numClosedFieldType) eig argsort (A : Type) (cast : A -> C) isreal s ds xs nv user np,
  valid_arrays s ds xs nv user np ->
  exists c (H : (n_modes_save c <= n_blocks c)%N),
    configure s (length (record ds)) (List.forallb isreal (List.hd nil (record ds))) = Ok c /\
    let rec := List.map (List.map cast) (record ds) in let W := weights_of 1 user xs nv in let sh := List.app xs (cons nv nil) in
    fit_array eig argsort cast isreal s ds (length xs) nv user np
    = Ok (ref_eigs eig argsort c rec W sh, List.map (ref_freq_file eig argsort rec W sh H) (List.seq 0 (n_freq c))).
Proof.
move=> C eig argsort A cast isreal s ds xs nv user np [sp [ax [nb [[H1 H2 H3 H4 H5] [[H6 H7 H8 H9 H10] [H11 H12]]]]]].
have [c [H [Hc E]]] := @fit_datasets C eig argsort A cast isreal s ds xs sp nv user ax H1 H2 H3 H4 H5 H6 H7 H8 H9 H10 nb H11 np H12.
by exists c, H.
Qed.
Print Assumptions C121_fit_arrays_is_spod.

(* ---- C122 ---- *)
(* netCDF files, one file per mode: the run succeeds and writes exactly the files (frequency, mode) of the kept modes, each with the column
   of the serial algorithm on the concatenated record *)
Theorem C122_fit_files_is_spod : forall (C : numClosedFieldType) eig argsort s xs nv real fs names user size nreaders ver nchunks nblks orders order2,
  @valid_files C s xs nv fs names user size nreaders ver nchunks nblks orders order2 ->
  let rec := nc_record 0 (Base_List.prod xs) fs names in let W := weights_of 1 user xs nv in let sh := List.app xs (cons nv nil) in
  exists c (H : (n_modes_save c <= n_blocks c)%N) files,
    [/\ configure s (length rec) real = Ok c,
        fit_files eig argsort s xs nv real fs names user size nreaders ver nchunks nblks orders order2 = Ok (ref_eigs eig argsort c rec W sh, files) &
    forall f m x, List.In (f, m, x) files <->
      (f < n_freq c)%N /\ exists Hm : (m < n_modes_save c)%N, x = ref_mode_file eig argsort rec W sh H f (Ordinal Hm)].
Proof.
move=> C eig argsort s xs nv real fs names user size nreaders ver nchunks nblks orders order2 /= [nb [[H1 H2 H3 [H4 H5] H6] [[H7 H8 H9 H10 H11] [[H12 H13 H14] H15]]]].
exact: (@fit_netcdf C eig argsort s xs nv real fs names user size nreaders ver nchunks nblks orders order2 H1 H2 H3 H4 H5 H6 H7 H8 H9 H10 H11 H12 H13 H14 nb H15).
Qed.
Print Assumptions C122_fit_files_is_spod.

(* ---- C123 ---- *)
(* neither the number of processes nor the split of the record into datasets shows in the result *)
Theorem C123_processes_and_split_invisible : forall (C : numClosedFieldType) eig argsort (A : Type) (cast : A -> C) isreal s ds ds' xs nv user np np',
  valid_arrays s ds xs nv user np -> valid_arrays s ds' xs nv user np' -> record ds = record ds' ->
  fit_array eig argsort cast isreal s ds (length xs) nv user np = fit_array eig argsort cast isreal s ds' (length xs) nv user np'.
Proof.
move=> C eig argsort A cast isreal s ds ds' xs nv user np np' Hv Hv' E.
have [c [H [Hc ->]]] := C121_fit_arrays_is_spod eig argsort cast isreal Hv.
have [c' [H' [Hc' ->]]] := C121_fit_arrays_is_spod eig argsort cast isreal Hv'.
rewrite -E Hc in Hc'; case: Hc' => Ec; move: H'; rewrite -Ec -E => H'.
by rewrite (eq_irrelevance H' H).
Qed.
Print Assumptions C123_processes_and_split_invisible.
(* files on any number of processes against arrays on any other: same eigenvalues; the file of mode m holds column m of the array file of its frequency *)
Theorem C123_files_and_arrays_agree : forall (C : numClosedFieldType) eig argsort (A : Type) (cast : A -> C) isreal s ds xs nv user np
    real fs names size nreaders ver nchunks nblks orders order2,
  valid_arrays s ds xs nv user np ->
  valid_files s xs nv fs names user size nreaders ver nchunks nblks orders order2 ->
  List.map (List.map cast) (record ds) = nc_record 0 (Base_List.prod xs) fs names ->
  real = List.forallb isreal (List.hd nil (record ds)) ->
  exists eigs arrays files,
    [/\ fit_array eig argsort cast isreal s ds (length xs) nv user np = Ok (eigs, arrays),
        fit_files eig argsort s xs nv real fs names user size nreaders ver nchunks nblks orders order2 = Ok (eigs, files),
        length arrays = length eigs &
        exists K, forall f m x, List.In (f, m, x) files <->
          [/\ (f < length eigs)%N, (m < K)%N &
              x = List.map (fun i => List.nth (i * K + m)%N (flat (List.nth f arrays (Nd nil nil))) 0) (List.seq 0 (Base_List.prod (List.app xs (cons nv nil))))]].
Proof.
move=> C eig argsort A cast isreal s ds xs nv user np real fs names size nreaders ver nchunks nblks orders order2 Hv Hv' E Er.
have [c [H [Hc Ea]]] := C121_fit_arrays_is_spod eig argsort cast isreal Hv.
have [c' [H' [files [Hc' Ef Hfiles]]]] := C122_fit_files_is_spod eig argsort real Hv'.
have El : length (nc_record 0 (Base_List.prod xs) fs names) = length (record ds) by rewrite -E List.map_length.
rewrite El Er Hc in Hc'; case: Hc' => Ec; subst c'.
rewrite (eq_irrelevance H' H) in Hfiles.
exists (ref_eigs eig argsort c (List.map (List.map cast) (record ds)) (weights_of 1 user xs nv) (List.app xs (cons nv nil))).
exists (List.map (ref_freq_file eig argsort (List.map (List.map cast) (record ds)) (weights_of 1 user xs nv) (List.app xs (cons nv nil)) H) (List.seq 0 (n_freq c))).
exists files; split=> //.
- by rewrite Ef E.
- by rewrite /ref_eigs !List.map_length.
exists (n_modes_save c) => f m x; rewrite Hfiles /ref_eigs List.map_length List.seq_length.
split.
- move=> [Hf [Hm ->]]; split=> //; rewrite /ref_mode_file.
  rewrite map_seq_ord; apply: List.map_ext => i; rewrite nth_map_seq //= E.
  by rewrite -[m in RHS]/(val (Ordinal Hm)) nth_rows.
- move=> [Hf Hm ->]; split=> //; exists Hm; rewrite /ref_mode_file.
  rewrite map_seq_ord; apply: List.map_ext => i; rewrite nth_map_seq //= E.
  by rewrite -[m in LHS]/(val (Ordinal Hm)) nth_rows.
Qed.
Print Assumptions C123_files_and_arrays_agree.

(* ---- C124 ---- *)
(* what a user can rely on in the saved results of any such run, for any solver and sorting routine that keep their promises and any non-negative weights:
   non-negative eigenvalues in descending order, and mode arrays whose columns have unit weighted norm and are orthogonal to each other wherever the
   eigenvalues are positive and distinct (C36: not for repeated ones) *)
Theorem C124_saved_results : forall (C : numClosedFieldType) eig argsort (A : Type) (cast : A -> C) isreal s ds xs nv user np eigs arrays,
  valid_arrays s ds xs nv user np -> (forall nb, eig_ok (eig nb)) -> (forall nb, argsort_ok (argsort nb)) ->
  (forall x, List.In x (weights_of 1 user xs nv) -> 0 <= x) ->
  fit_array eig argsort cast isreal s ds (length xs) nv user np = Ok (eigs, arrays) ->
  length arrays = length eigs /\
  forall f, (f < length eigs)%N ->
  exists K, let lam k := List.nth k (List.nth f eigs nil) 0 in
    let phi i k := List.nth (i * K + k)%N (flat (List.nth f arrays (Nd nil nil))) 0 in
    [/\ (K <= length (List.nth f eigs nil))%N,
        Model_Parallel.shape (List.nth f arrays (Nd nil nil)) = List.app (List.app xs (cons nv nil)) (cons K nil),
        forall k, 0 <= lam k,
        forall i j, (i <= j)%N -> lam j <= lam i &
        forall j k, (j < K)%N -> (k < K)%N -> 0 < lam j -> 0 < lam k -> j = k \/ lam j != lam k ->
          \sum_(i < Base_List.prod (List.app xs (cons nv nil))) (phi i j)^* * phi i k * List.nth i (weights_of 1 user xs nv) 0 = (j == k)%:R].
Proof.
move=> C eig argsort A cast isreal s ds xs nv user np eigs arrays Hv Heig Hsort Hw.
have [c [H [Hc /= ->]]] := C121_fit_arrays_is_spod eig argsort cast isreal Hv.
have Hnb : (0 < n_blocks c)%N.
  case: Hv => sp [ax [nb [_ [[_ _ _ Hov _] [Hnb _]]]]].
  have [_ [H2 _]] := @starts_eq (length (record ds)) (s_ndft s) (s_novlp s) nb (elimT ssrnat.ltP Hov) Hnb.
  by move: Hc; rewrite /configure Hnb /= => -[<-] /=; apply/ssrnat.ltP; lia.
set W := weights_of 1 user xs nv; set sh := List.app xs (cons nv nil); set rec := List.map (List.map cast) (record ds).
move=> -[<- <-]; rewrite /ref_eigs !List.map_length !List.seq_length; split=> // f Hf; exists (n_modes_save c).
rewrite !nth_map_seq //=.
pose w : 'cV[C]_(Base_List.prod sh) := \col_i List.nth i W 0.
pose X (t : nat) (i : 'I_(Base_List.prod sh)) : C := List.nth i (List.nth t rec nil) 0.
have HW i : 0 <= List.nth i W 0.
  by case: (PeanoNat.Nat.lt_ge_cases i (length W)) => Hi; [apply: Hw; apply: List.nth_In|rewrite List.nth_overflow].
have Hw0 i : 0 <= w i 0 by rewrite mxE; apply: HW.
have Hp := @serial_partition (Base_List.prod sh).
have Elen : length (List.map (fun k => serial_eigs (@eig _) (@argsort _) X w f 0 k) (enum 'I_(n_blocks c))) = n_blocks c.
  by rewrite List.map_length -[length _]/(size _) size_enum_ord.
set E := List.map _ (enum 'I_(n_blocks c)).
have Enth (k : 'I_(n_blocks c)) : List.nth k E 0 = serial_eigs (@eig _) (@argsort _) X w f 0 k.
  by rewrite /E nth_List -[List.map _ _]/(map _ _) (nth_map k) ?size_enum_ord // nth_ord_enum.
have Eover k : (n_blocks c <= k)%N -> List.nth k E 0 = 0 by move=> Hk; rewrite List.nth_overflow // Elen; apply/ssrnat.leP.
have [sigma [_ _ Hdesc _]] := @C37_sorted_and_paired C 1 c (@eig _) (@argsort _) _ _ _ X w f Hp Hw0 (@Heig _) (@Hsort _).
have Hge k : 0 <= List.nth k E 0.
  case: (ltnP k (n_blocks c)) => Hk; last by rewrite Eover.
  rewrite -[k]/(val (Ordinal Hk)) Enth.
  have [H0 HE] := @C34_reported_eigenvalues C 1 c (@eig _) (@argsort _) _ _ _ X w f (Ordinal Hk) Hp Hw0 (@Heig _).
  by rewrite /serial_eigs HE mulr_ge0 // ltW // one_sided_gt0.
split=> //.
- by rewrite Elen.
- move=> i j Hij; case: (ltnP j (n_blocks c)) => Hj; last by rewrite (Eover j).
  have Hi := leq_ltn_trans Hij Hj.
  by rewrite -[j]/(val (Ordinal Hj)) -[i]/(val (Ordinal Hi)) !Enth; apply: Hdesc.
move=> j k Hj Hk Hlj Hlk Hne.
have Hj' := leq_trans Hj H; have Hk' := leq_trans Hk H.
pose lam i := run_L (@eig _) (@argsort _) (size := 1) (fun _ (i : 'I_(Base_List.prod sh)) => i) X w f 0 (widen_ord H i).
have Elam (i : 'I_(n_modes_save c)) : List.nth i E 0 = one_sided c f * lam i.
  rewrite -[val i]/(val (widen_ord H i)) Enth.
  by have [_ HE] := @C34_reported_eigenvalues C 1 c (@eig _) (@argsort _) _ _ _ X w f (widen_ord H i) Hp Hw0 (@Heig _).
have H1 := one_sided_gt0 c f.
move: Hlj Hlk Hne; rewrite -[j]/(val (Ordinal Hj)) -[k]/(val (Ordinal Hk)) !Elam => Hlj Hlk Hne.
rewrite pmulr_rgt0 // in Hlj; rewrite pmulr_rgt0 // in Hlk.
have Hne' : Ordinal Hj = Ordinal Hk \/ lam (Ordinal Hj) != lam (Ordinal Hk).
  by case: Hne => [Ejk|Hd]; [left; apply: val_inj|right; apply: contraNneq Hd => ->].
have -> : (val (Ordinal Hj) == val (Ordinal Hk)) = (Ordinal Hj == Ordinal Hk) by [].
rewrite -(@C35_modes_orthonormal C c (@eig _) (@argsort _) _ X w f H (Ordinal Hj) (Ordinal Hk) Hnb Hw0 (@Heig _) Hlj Hlk Hne').
apply: eq_bigr => i _; rewrite !nth_rows; congr (_ * _).
by rewrite /w mxE.
Qed.
Print Assumptions C124_saved_results.

(* the hypotheses are met: eight snapshots of four points given as datasets of five and three, blocks of four without overlap, serially and on two processes;
   the same record from two netCDF files read by two processes *)
Section Nonvacuous.
Variable C : numClosedFieldType.
Definition ex_settings : settings C := Settings 4 0 2 Longtime false false (1#1)%Q 0 (fun _ => 1) 1 0 (fun _ x => x).
Definition ex_ds : list (nd C) := [:: Nd [:: 5; 4]%N (List.map (fun k => k%:R) (List.seq 0 20)); Nd [:: 3; 4]%N (List.map (fun k => k%:R) (List.seq 20 12))].
Definition ex_rows (a n : nat) : list (list C) := List.map (fun t => List.map (fun i => (4 * t + i)%:R) (List.seq 0 4)) (List.seq a n).
Definition ex_fs (k : nat) : ncfile C := if k == 0%N then NcFile (List.map Z.of_nat [:: 0; 1; 2; 3; 4]%N) [:: ex_rows 0 5] else NcFile (List.map Z.of_nat [:: 5; 6; 7]%N) [:: ex_rows 5 3].
Example C121_nonvacuous np : np \in [:: None; Some 1%N; Some 2%N] -> valid_arrays ex_settings ex_ds [:: 4%N] 1 NoWeights np.
Proof.
move=> Hnp; exists [:: 4%N], 0%N, (Z.of_nat 2); split; [split=> //|split; [split=> //|split]].
- by move=> d [<-|[<-|//]].
- by right.
- by move=> d [<-|[<-|//]].
- by [].
- by move: Hnp; rewrite !inE => /or3P [/eqP ->|/eqP ->|/eqP ->] //=; split=> // -[|[|r]].
Qed.
(* the hypotheses of C124: the run above succeeds, and the default weights are ones *)
Example C124_nonvacuous eig argsort isreal np : np \in [:: None; Some 1%N; Some 2%N] ->
  (exists eigs arrays, fit_array eig argsort (fun x : C => x) isreal ex_settings ex_ds 1 1 NoWeights np = Ok (eigs, arrays)) /\
  (forall x, List.In x (weights_of (1 : C) NoWeights [:: 4%N] 1) -> 0 <= x).
Proof.
move=> Hnp; split.
- have [c [H [_ E]]] := C121_fit_arrays_is_spod eig argsort (fun x : C => x) isreal (C121_nonvacuous Hnp).
  by rewrite E; do 2!eexists.
- by move=> x /=; do 4?[case=> [<-|]; first exact: ler01].
Qed.
Example C122_nonvacuous : valid_files ex_settings [:: 4%N] 1 ex_fs [:: 0%N; 1%N] NoWeights 2 None 3 2 2 (fun _ _ => [:: 1; 0]%N) (fun _ _ => [:: 1; 0]%N).
Proof.
have Hp : Permutation [:: 1; 0]%N (List.seq 0 2) by apply: perm_swap.
exists (Z.of_nat 2); split; [|split; [|split]] => //; split=> //.
- by repeat constructor => /=; intuition.
- move=> k [<-|[<-|//]]; split.
  + split=> // v [<-|//]; split=> // row; do 5?[case=> [<-|//]] => //.
  + by do 5?[constructor; first by move=> /=; intuition]; constructor.
  + split=> // v [<-|//]; split=> // row; do 3?[case=> [<-|//]] => //.
  + by do 3?[constructor; first by move=> /=; intuition]; constructor.
- move=> m Hm; right; rewrite /big_message; move: Hm.
  by rewrite /= => Hm; do 9?[case: m Hm => [|m] Hm //].
- by move=> -[|[|r]].
Qed.
Example C123_nonvacuous : record ex_ds = nc_record 0 4 ex_fs [:: 0%N; 1%N].
Proof. by []. Qed.
End Nonvacuous.
