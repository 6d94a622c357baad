(* Property theorems C160: the whole computation of coefficients by oblique projection. *)
From Coq Require Import QArith.
From Verif Require Import Base_List Model_Parallel Model_Reader1 Model_Reader2 Model_Select Model_Pipeline Spec_Array Spec_Reader Proof_Parallel Proof_Npy2 Proof_Reader1 Proof_Pipeline.
From Coq Require Import Sorting.Permutation.
From mathcomp Require Import all_ssreflect all_algebra.
From Verif Require Import Model_Spod Spec_Spod Spec_Coeffs Proof_Spod Model_SpodPar Proof_SpodPar Model_Coeffs Proof_StreamNum3 Proof_Svd Proof_Coeffs Prop_Coeffs Model_PipelineNum Proof_PipelineNum Prop_Pipeline
  Model_PipelineCoef Proof_PipelineCoef.
Set Implicit Arguments.
Unset Strict Implicit.
Unset Printing Implicit Defensive.
Import Order.TTheory GRing.Theory Num.Theory.
Local Open Scope ring_scope.

(* ---- the calls the theorems are about ---- *)
(* data: nt > 0 snapshots of shape sp, with as many dimensions as params_modes.yaml says: a variable axis at the end, or none and one variable; sh is the shape
   with the variable axis, which the stored weights have too *)
Definition coef_data (C : numClosedFieldType) (A : Type) (fo : folder C) (data : nd A) (nt : nat) (sp sh : list nat) : Prop :=
  [/\ wf data, Model_Parallel.shape data = nt :: sp, (0 < nt)%N, sp <> nil & (0 < Base_List.prod sp)%N] /\
  [/\ length sp = (rf_xdim fo + 1)%N /\ sh = sp \/ length sp = rf_xdim fo /\ rf_nv fo = 1%N /\ sh = List.app sp [:: 1%N],
      wf (rf_weights fo) & Model_Parallel.shape (rf_weights fo) = sh].
(* the selected frequencies, at least one and not more than there are slots, all of which have a file with n_modes_save modes *)
Definition coef_modes (C : numClosedFieldType) (fo : folder C) (s : fsel) (sh : list nat) (nf : nat) : Prop :=
  [/\ (0 < rf_nm fo)%N, freq_list s <> nil, n_freq_r s = Z.of_nat nf, (length (freq_list s) <= nf)%N &
      forall f, List.In f (freq_list s) -> exists a, [/\ rf_modes fo f = Some a, wf a & Model_Parallel.shape a = List.app sh [:: rf_nm fo]]].
Definition coef_procs (np : option nat) : Prop := match np with Some size => (0 < size)%N | None => True end.
(* entry i of snapshot t of an array *)
Definition sample (C : numClosedFieldType) (A : Type) (cast : A -> C) (data : nd A) (t i : nat) : C := List.nth i (List.nth t (List.map (List.map cast) (snapshots data)) nil) 0.
(* the two matrices of the projection, from the stored arrays *)
Definition w_of (C : numClosedFieldType) (fo : folder C) n : 'cV[C]_n := \col_i List.nth i (flat (rf_weights fo)) 0.
Definition matrix_of (C : numClosedFieldType) n p (l : list C) : 'M[C]_(n, p) := \matrix_(i, j) List.nth (i * p + j)%N l 0.

Lemma ravel_nth (C : numClosedFieldType) m q (M : 'M[C]_(m, q)) i j : List.nth (val i * q + val j)%N (ravel M) 0 = M i j.
Proof. exact: nth_rows. Qed.
Lemma ravel_len (C : numClosedFieldType) m q (M : 'M[C]_(m, q)) : length (ravel M) = (m * q)%N.
Proof.
have G l : length (List.flat_map (fun i : 'I_m => List.map (fun j => M i j) (enum 'I_q)) l) = (length l * q)%N.
  elim: l => //= i l IH; by rewrite List.app_length IH List.map_length -[length (enum _)]/(seq.size _) size_enum_ord.
by rewrite /ravel G -[length _]/(seq.size _) size_enum_ord.
Qed.

Section Theorems.
Variables (C : numClosedFieldType) (svd : forall p, 'M[C]_p -> 'M[C]_p * 'rV[C]_p * 'M[C]_p) (tol : C) (A : Type) (cast : A -> C).

(* ---- C160 ---- *)
(* the call succeeds, with the same files whether or not and however many processes take part; modes_r.npy holds the stored modes of the selected
   frequencies side by side (zeros where there are more slots than frequencies), ltm.npy the mean of the data, coeffs.npy is p x nt *)
Theorem C160_contents_of_the_files : forall (fo : folder C) (data : nd A) nt sp sh nf T_lb T_ub freq_idx s,
  coef_data fo data nt sp sh -> select_freqs (rf_freq fo) (rf_nfreq fo) T_lb T_ub freq_idx = Ok s -> coef_modes fo s sh nf ->
  let n := Base_List.prod sh in let nm := rf_nm fo in let p := (nf * nm)%N in
  exists cs ms mu ax,
  [/\ argmax sp = Ok ax, forall np, coef_procs np -> coef_array svd tol cast fo T_lb T_ub freq_idx data np = Ok (Nd [:: p; nt] cs, Nd (List.app sh [:: p]) ms, Nd sh mu, ax),
      [/\ length cs = (p * nt)%N, length ms = (n * p)%N & length mu = n],
      (forall k f a i m, List.nth_error (freq_list s) k = Some f -> rf_modes fo f = Some a -> (i < n)%N -> (m < nm)%N ->
         List.nth (i * p + (k * nm + m))%N ms 0 = List.nth (i * nm + m)%N (flat a) 0) /\
      (forall i j, (i < n)%N -> (length (freq_list s) * nm <= j < p)%N -> List.nth (i * p + j)%N ms 0 = 0) &
      forall i, (i < n)%N -> List.nth i mu 0 = (\sum_(t < nt) sample cast data t i) / nt%:R].
Proof.
move=> fo data nt sp sh nf T_lb T_ub freq_idx s [[H1 H2 H3 H4 H5] [H6 H7 H8]] Hsel [Hnm Hfl Hnf Hlen Hm] n nm p.
have [ax Hax] : exists ax, argmax sp = Ok ax by case: (sp) H4 => // x l _; eexists.
have E np (Hp : coef_procs np) := @coef_gen C A cast fo s nf nt sp sh data ax H1 H2 H3 H5 Hax H6 (conj H7 H8) Hm Hnm Hfl Hnf Hlen svd tol T_lb T_ub freq_idx np Hp Hsel.
set cs := ravel _ in E; set ms := ravel (cphi _ _ _) in E.
have Lr : length (List.map (List.map cast) (snapshots data)) = nt by rewrite List.map_length snapshots_length /nrows H2.
exists cs, ms, (List.map (cmean (List.map (List.map cast) (snapshots data))) (List.seq 0 n)), ax.
have Hms i j : (i < n)%N -> (j < p)%N -> List.nth (i * p + j)%N ms 0 = pcol fo s i j.
  by move=> Hi Hj; rewrite (ravel_nth (cphi n (pcol fo s) p) (Ordinal Hi) (Ordinal Hj)) mxE.
split=> //.
- split; [by rewrite ravel_len Lr|exact: ravel_len|by rewrite List.map_length List.seq_length].
- split=> [k f a i m Hk Ha Hi Hmm|i j Hi /andP [Hj Hj']].
  + have Hkl : (k < length (freq_list s))%N by apply/ssrnat.ltP; apply/List.nth_error_Some; rewrite Hk.
    have Hkn : (k * nm + m < p)%N.
      apply: (@leq_trans (k.+1 * nm)%N); first by rewrite mulSnr ltn_add2l.
      by rewrite leq_mul2r (leq_trans Hkl Hlen) orbT.
    rewrite Hms // /pcol.
    have -> : Nat.div (k * nm + m) nm = k by rewrite -multE -plusE Nat.div_add_l ?Nat.div_small; [lia|exact/ssrnat.ltP|move/ssrnat.ltP: Hnm; rewrite -/nm; lia].
    have -> : Nat.modulo (k * nm + m) nm = m by rewrite -multE -plusE Nat.add_comm Nat.mod_add ?Nat.mod_small //; [exact/ssrnat.ltP|move/ssrnat.ltP: Hnm; rewrite -/nm; lia].
    by rewrite Hk Ha.
  + rewrite Hms // /pcol.
    have -> : List.nth_error (freq_list s) (Nat.div j nm) = None; last by [].
    apply/List.nth_error_None; apply: Nat.div_le_lower_bound; first by move/ssrnat.ltP: Hnm; rewrite -/nm; lia.
    move/ssrnat.leP: Hj; rewrite -multE; lia.
- by move=> i Hi; rewrite nth_map_seq // /cmean Lr.
Qed.

(* the coefficients: weights not negative, an SVD that keeps its promise and a tolerance that cuts nothing but zeros; whatever the number of processes, the
   residual is orthogonal to every saved mode and no other coefficients come closer *)
Theorem C160_best_approximation : forall (fo : folder C) (data : nd A) nt sp sh nf T_lb T_ub freq_idx s np cs ms mu ax,
  coef_data fo data nt sp sh -> select_freqs (rf_freq fo) (rf_nfreq fo) T_lb T_ub freq_idx = Ok s -> coef_modes fo s sh nf -> coef_procs np ->
  let n := Base_List.prod sh in let p := (nf * rf_nm fo)%N in
  coef_array svd tol cast fo T_lb T_ub freq_idx data np = Ok (cs, ms, mu, ax) ->
  (forall x, List.In x (flat (rf_weights fo)) -> 0 <= x) -> svd3_ok (@svd p) ->
  well_conditioned tol (svd (mode_gram (w_of fo n) (matrix_of n p (flat ms)))).1.2 ->
  let W i := List.nth i (flat (rf_weights fo)) 0 in
  let phi i j := List.nth (i * p + j)%N (flat ms) 0 in let a j t := List.nth (j * nt + t)%N (flat cs) 0 in
  let fluct t i := sample cast data t i - List.nth i (flat mu) 0 in
  (forall j t, (j < p)%N -> (t < nt)%N -> \sum_(i < n) (phi i j)^* * (fluct t i - \sum_(k < p) phi i k * a k t) * W i = 0) /\
  (forall (b : nat -> C) t, (t < nt)%N ->
     \sum_(i < n) W i * `|fluct t i - \sum_(k < p) phi i k * a k t| ^+ 2 <= \sum_(i < n) W i * `|fluct t i - \sum_(k < p) phi i k * b k| ^+ 2).
Proof.
move=> fo data nt sp sh nf T_lb T_ub freq_idx s np cs ms mu ax Hd Hsel Hm Hnp n p Hrun HW Hsvd Hc W phi a fluct.
have [[H1 H2 H3 H4 H5] [H6 H7 H8]] := Hd; have [Hnm Hfl Hnf Hlen Hmm] := Hm.
have [ax' Hax] : exists ax, argmax sp = Ok ax by case: (sp) H4 => // x l _; eexists.
have E := @coef_gen C A cast fo s nf nt sp sh data ax' H1 H2 H3 H5 Hax H6 (conj H7 H8) Hmm Hnm Hfl Hnf Hlen svd tol T_lb T_ub freq_idx np Hnp Hsel.
rewrite E in Hrun; case: Hrun => Ecs Ems Emu _.
have [Hlt [Hpr Hlw]] : True /\ Base_List.prod sh = Base_List.prod sp /\ length (flat (rf_weights fo)) = n.
  split=> //; split; last by rewrite H7 H8.
  by case: H6 => [[_ ->]|[_ [_ ->]]] //; rewrite prod_app /=; lia.
pose rec := List.map (List.map cast) (snapshots data).
have Lr : length rec = nt by rewrite List.map_length snapshots_length /nrows H2.
move: Ecs Emu; rewrite -/rec -/n -/p => Ecs Emu.
pose w := w_of fo n : 'cV[C]_n; pose Phi : 'M[C]_(n, p) := cphi n (pcol fo s) p; pose X : 'M[C]_(length rec, n) := crec n rec.
have Ephi (i : 'I_n) (j : 'I_p) : phi i j = Phi i j by rewrite /phi -Ems; exact: (ravel_nth Phi i j).
have EP : matrix_of n p (flat ms) = Phi by apply/matrixP => i j; rewrite mxE -Ephi.
have Hw x : 0 <= w x 0.
  rewrite mxE; apply: HW; apply: List.nth_In; rewrite Hlw; apply/ssrnat.ltP; exact: ltn_ord.
rewrite EP in Hc.
have [HO HL] := C50_least_squares X (id_partition n) Hw Hsvd Hc.
have Ea (j : 'I_p) (t : 'I_(length rec)) : a j t = serial_coeffs w Phi X (@svd p) tol j t.
  rewrite /a -Ecs -[nt in (_ * nt)%N]Lr; exact: (ravel_nth (serial_coeffs w Phi X (@svd p) tol) j t).
have Ef (t : 'I_(length rec)) (i : 'I_n) : fluct t i = fluctuation X t i.
  rewrite /fluct -Emu nth_map_seq // /fluctuation /time_mean [X t i]mxE /cmean; congr (_ - _ / _); apply: eq_bigr => u _; by rewrite mxE.
have Ew (i : 'I_n) : W i = w i 0 by rewrite mxE.
split.
- move=> j t Hj Ht; rewrite -Lr in Ht.
  rewrite -[RHS](HO (Ordinal Hj) (Ordinal Ht)); apply: eq_bigr => i _; rewrite Ew -(Ephi i (Ordinal Hj)) -(Ef (Ordinal Ht)); congr (_ * (_ - _) * _).
  by apply: eq_bigr => k _; rewrite Ephi -(Ea k (Ordinal Ht)).
- move=> b t Ht; rewrite -Lr in Ht.
  have := HL (Ordinal Ht) (fun k => b k); rewrite /misfit => HH.
  have -> : \sum_(i < n) W i * `|fluct t i - \sum_(k < p) phi i k * a k t| ^+ 2
     = \sum_x w x 0 * `|fluctuation X (Ordinal Ht) x - \sum_j Phi x j * serial_coeffs w Phi X (@svd p) tol j (Ordinal Ht)| ^+ 2.
    apply: eq_bigr => i _; rewrite Ew -(Ef (Ordinal Ht)); congr (_ * `|_ - _| ^+ 2); by apply: eq_bigr => k _; rewrite Ephi -(Ea k (Ordinal Ht)).
  apply: le_trans HH _; rewrite le_eqVlt; apply/orP; left; apply/eqP; apply: eq_bigr => i _; rewrite Ew -(Ef (Ordinal Ht)); congr (_ * `|_ - _| ^+ 2); by apply: eq_bigr => k _; rewrite Ephi.
Qed.
End Theorems.
Print Assumptions C160_contents_of_the_files.
Print Assumptions C160_best_approximation.

(* the hypotheses are met: three snapshots of two points, one frequency with one mode, on one, two or three processes *)
Section Nonvacuous.
Variable C : numClosedFieldType.
Definition coef_d : nd C := Nd [:: 3; 2]%N [:: 1; 0; -1; 0; 0; 1].
Definition coef_fo : folder C := Folder 1 1 [:: inject_Z 0; inject_Z 1] 2 1 (Nd [:: 2; 1]%N [:: 1; 1]) (fun f => if f is 1%N then Some (Nd [:: 2; 1; 1]%N [:: 1; 0]) else None).
Definition coef_s : fsel := Fsel (inject_Z 1) 1 (inject_Z 1) 1 (Z.of_nat 1) [:: 1%N].
Example C160_nonvacuous :
  [/\ coef_data coef_fo coef_d 3 [:: 2%N] [:: 2; 1]%N,
      select_freqs (rf_freq coef_fo) (rf_nfreq coef_fo) (Some (inject_Z 1)) (Some (inject_Z 1)) None = Ok coef_s, coef_modes coef_fo coef_s [:: 2; 1]%N 1 &
      exists (svd : forall p, 'M[C]_p -> 'M[C]_p * 'rV[C]_p * 'M[C]_p), [/\ svd3_ok (@svd 1%N), (forall x, List.In x (flat (rf_weights coef_fo)) -> 0 <= x) &
        forall ms, well_conditioned 0 (svd _ (mode_gram (w_of coef_fo 2) (matrix_of 2 1 ms))).1.2]].
Proof.
split.
- by split; split=> //; right.
- by vm_compute.
- by split=> // f /= [<-|//]; eexists; split; [reflexivity|..].
- have [svd1 Hs] := svd3_routine_exists C 1.
  pose svd p : 'M[C]_p -> 'M[C]_p * 'rV[C]_p * 'M[C]_p := match @eqP _ 1%N p with ReflectT E => ecast p ('M[C]_p -> 'M[C]_p * 'rV[C]_p * 'M[C]_p) E svd1 | _ => fun _ => (0, 0, 0) end.
  have Ea : svd 1%N = svd1 by rewrite /svd; case: eqP => // E; rewrite eq_axiomK.
  exists svd; split; [by rewrite Ea|by move=> x /= [<-|[<-|//]]; exact: ler01|].
  move=> ms; rewrite Ea => i m _; have [_ _ H0 _ _] := Hs (mode_gram (w_of coef_fo 2) (matrix_of 2 1 ms)).
  have := H0 i; rewrite mul0r le_eqVlt => /orP [/eqP <-|]; [by left|by right].
Qed.
End Nonvacuous.
