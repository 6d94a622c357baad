(* C160, C163: a selected frequency without a mode file. *)
From Coq Require Import QArith.
From Verif Require Import Base_List Model_Parallel Model_Reader1 Model_Reader2 Model_Select Model_Pipeline Spec_Array Spec_Reader Proof_Parallel Proof_Npy2 Proof_Reader1 Proof_Pipeline Proof_PipelineCoef.
From Coq Require Import Sorting.Permutation.
From mathcomp Require Import all_ssreflect all_algebra.
From Verif Require Import Model_Spod Model_SpodPar Model_Coeffs Model_PipelineCoef Prop_PipelineCoef Model_PipelineConv Proof_PipelineConv Prop_PipelineConv.
Set Implicit Arguments.
Unset Strict Implicit.
Unset Printing Implicit Defensive.
Import Order.TTheory GRing.Theory Num.Theory.
Local Open Scope ring_scope.

Lemma all_ok_err (X Y : Type) (f : X -> res Y) e l : (forall x, List.In x l -> (exists y, f x = Ok y) \/ f x = Err e) -> (exists x, List.In x l /\ f x = Err e) ->
  all_ok (List.map f l) = Err e.
Proof.
elim: l => [|x l IH] H [z [Hz Ez]]; first by case: Hz.
rewrite /=; case: (H x (or_introl erefl)) => [[y Ey]|->] //; rewrite Ey /=.
rewrite IH //; first by move=> u Hu; apply: H; right.
by exists z; split=> //; case: Hz => // Exz; move: Ez; rewrite -Exz Ey.
Qed.
(* a file that fits *)
Definition fits (C : numClosedFieldType) (fo : folder C) (sh : list nat) (f : nat) : Prop :=
  exists a, [/\ rf_modes fo f = Some a, wf a & Model_Parallel.shape a = List.app sh [:: rf_nm fo]].

Section Theorems.
Variables (C : numClosedFieldType) (svd : forall p, 'M[C]_p -> 'M[C]_p * 'rV[C]_p * 'M[C]_p) (tol : C) (A : Type) (cast : A -> C).
(* the same folder with a file of zeros for every frequency *)
Definition filled (fo : folder C) (sh : list nat) : folder C :=
  Folder (rf_xdim fo) (rf_nv fo) (rf_freq fo) (rf_nfreq fo) (rf_nm fo) (rf_weights fo) (fun _ => Some (Nd (List.app sh [:: rf_nm fo]) (List.repeat 0 (Base_List.prod (List.app sh [:: rf_nm fo]))))).
Lemma filled_fits fo sh f : exists a, [/\ rf_modes (filled fo sh) f = Some a, wf a & Model_Parallel.shape a = List.app sh [:: rf_nm fo]].
Proof. by eexists; split; [reflexivity|rewrite /wf /= List.repeat_length|]. Qed.
Lemma load_fits (fo : folder C) nt sp sh (data : nd A) ax cm f : Model_Parallel.shape data = nt :: sp -> (0 < Base_List.prod sp)%N -> argmax sp = Ok ax ->
  length sp = (rf_xdim fo + 1)%N /\ sh = sp \/ length sp = rf_xdim fo /\ rf_nv fo = 1%N /\ sh = List.app sp [:: 1%N] ->
  comm_ok cm -> fits fo sh f -> exists c, load_modes fo ax (length (axis_ids sh ax cm)) cm f = Ok c.
Proof.
move=> Hs Hp Hax Hsh Hcm [a [Ea Wa Sa]].
pose fo1 := Folder (rf_xdim fo) (rf_nv fo) (rf_freq fo) (rf_nfreq fo) (rf_nm fo) (rf_weights fo) (fun _ => Some a).
pose s1 := Fsel (inject_Z 0) 0 (inject_Z 0) 0 (Z.of_nat 1) [:: f].
have H1 g : List.In g (freq_list s1) -> exists a, [/\ rf_modes fo1 g = Some a, wf a & Model_Parallel.shape a = List.app sh [:: rf_nm fo1]] by move=> _; exists a.
have [b [_ E]] := @load_modesE C A fo1 s1 0 nt sp sh data ax Hs Hp Hax Hsh H1 cm f Hcm (or_introl erefl).
move: E; rewrite /load_modes Ea [rf_modes fo1 f]/= [rf_nm fo1]/= => ->; by eexists.
Qed.
(* one selected frequency has no file: get_modes_at_freq returns a variable that was never set *)
Theorem C160_missing_modes_raise : forall (fo : folder C) (data : nd A) nt sp sh T_lb T_ub freq_idx s nf np,
  coef_data fo data nt sp sh -> select_freqs (rf_freq fo) (rf_nfreq fo) T_lb T_ub freq_idx = Ok s ->
  (0 < rf_nm fo)%N -> n_freq_r s = Z.of_nat nf -> (length (freq_list s) <= nf)%N ->
  (forall f, List.In f (freq_list s) -> fits fo sh f \/ rf_modes fo f = None) -> (exists f, List.In f (freq_list s) /\ rf_modes fo f = None) -> coef_procs np ->
  coef_array svd tol cast fo T_lb T_ub freq_idx data np = Err UnboundLocalError.
Proof.
move=> fo data nt sp sh T_lb T_ub freq_idx s nf np [[H1 H2 H3 H4 H5] [H6 H7 H8]] Hsel Hnm Hnf Hlen Hall [f0 [Hf0 Hnone]] Hnp.
have [ax Hax] : exists ax, argmax sp = Ok ax by case: (sp) H4 => // x l _; eexists.
rewrite /coef_array Hsel; cbn [bind].
have -> : alloc_coeffs s (rf_nm fo) (List.hd 0%N (Model_Parallel.shape data)) = Ok tt by rewrite /alloc_coeffs Hnf; case: Z.ltb_spec => // H; exfalso; clear -H; nia.
cbn [bind].
suff H cm : comm_ok cm -> coef_rank cast fo s data cm = Err UnboundLocalError.
  rewrite (@all_ok_err _ _ _ UnboundLocalError) //.
  - move=> cm Hin; right; apply: H; case: (np) Hin => [size /List.in_map_iff [r [<- /List.in_seq [_ Hr]]]|[<-|//]] //.
  - exists (List.hd None (comms np)); case: (np) Hnp => [[|size]|] // _; last by split; [left|exact: H].
    by split; [left|apply: H; exact: Nat.lt_0_succ].
move=> Hcm.
have Hne : freq_list s <> nil by move=> E; rewrite E in Hf0.
have [phi [E _]] := @coef_rankE C A cast (filled fo sh) s nf nt sp sh data ax H1 H2 H3 H5 Hax H6 (conj H7 H8) (fun f _ => filled_fits fo sh f) Hnm Hne Hnf Hlen cm Hcm.
move: E; rewrite /coef_rank.
case Ed: (distribute_data data cm) => [[[d ax'] sp']|e] //; cbn [bind].
rewrite [rf_weights (filled _ _)]/=.
case Ew: (distribute_dimension (rf_weights fo) ax' cm) => [w|e] //; cbn [bind].
case: ifP => // Hc E.
have [Ex Eax] : length (flat w) = length (axis_ids sh ax cm) /\ ax' = ax.
  move: E; case: (all_ok _) => [ys|e] //; cbn [bind]; case: (get_modes _ _ _ _ _) => [phi'|e] //; cbn [bind] => -[_ E2 _ _ _ E3]; by split.
rewrite Ex Eax (@all_ok_err _ _ _ UnboundLocalError) //.
- move=> f /Hall [Hfit|Hno]; [left; exact: (load_fits H2 H5 Hax H6 Hcm Hfit)|by right; rewrite /load_modes Hno].
- by exists f0; split=> //; rewrite /load_modes Hnone.
Qed.

Variables (n_dft : nat) (win : nat -> C) (omega : C) (junk : comm -> nat -> list C).
Theorem C163_missing_modes_raise : forall (fo : folder C) (data : nd A) nt sp sh T_lb T_ub freq_idx s ax np,
  coef_data fo data nt sp sh -> select_freqs (rf_freq fo) (rf_nfreq fo) T_lb T_ub freq_idx = Ok s -> argmax sp = Ok ax ->
  (1 < rf_nfreq fo <= n_dft)%N -> (1 < rf_nm fo)%N -> n_freq_r s = Z.of_nat (rf_nfreq fo) -> Permutation (freq_list s) (List.seq 0 (rf_nfreq fo)) ->
  (forall f, (f < rf_nfreq fo)%N -> fits fo sh f \/ rf_modes fo f = None) -> (exists f, (f < rf_nfreq fo)%N /\ rf_modes fo f = None) ->
  coef_procs np -> two_each sh ax np ->
  conv_array n_dft win omega junk cast fo T_lb T_ub freq_idx data np = Err UnboundLocalError.
Proof.
move=> fo data nt sp sh T_lb T_ub freq_idx s ax np [[H1 H2 H3 H4 H5] [H6 H7 H8]] Hsel Hax /andP [Hnf Hdft] Hnm Hfr Hfl Hall [f0 [Hf0 Hnone]] Hnp Htwo.
have [_ Hin] := freq_part A Hfl.
rewrite /conv_array Hsel; cbn [bind].
have -> : alloc_coeffs s (rf_nm fo) (List.hd 0%N (Model_Parallel.shape data)) = Ok tt by rewrite /alloc_coeffs Hfr; case: Z.ltb_spec => // H; exfalso; clear -H; nia.
cbn [bind].
have [_ /ssrnat.ltP Hlt' _ _] := @sh_facts C A (filled fo sh) s 0 nt sp sh data ax H2 H5 Hax H6 (fun f _ => filled_fits fo sh f).
suff H cm : comm_ok cm -> List.In cm (comms np) -> conv_rank n_dft junk cast fo s data cm = Err UnboundLocalError.
  rewrite (@all_ok_err _ _ _ UnboundLocalError) //.
  - move=> cm Hc; right; apply: (H cm) => //; case: (np) Hc => [size /List.in_map_iff [r [<- /List.in_seq [_ Hr]]]|[<-|//]] //.
  - exists (List.hd None (comms np)); case: (np) Hnp H => [[|size]|] // _ H; last by split; [left|apply: H => //; left].
    by split; [left|apply: H; [exact: Nat.lt_0_succ|left]].
move=> Hcm Hinc.
have Htw : (1 < length (axis_ids sh ax cm))%N by apply: (Htwo cm) => //; apply/holds_ids.
have [phi [E _]] := @conv_rankE C n_dft win junk A cast (filled fo sh) s nt sp sh data ax H1 H2 H3 H5 Hax H6 (conj H7 H8) (fun f _ => filled_fits fo sh f) Hnm Hnf Hdft Hfr Hfl cm Hcm Htw.
move: E; rewrite /conv_rank.
case Ed: (distribute_data data cm) => [[[d ax'] sp']|e] //; cbn [bind].
rewrite [rf_weights (filled _ _)]/=.
case Ew: (distribute_dimension (rf_weights fo) ax' cm) => [w|e] //; cbn [bind].
case: ifP => // Hc E.
have [Ex Eax] : length (flat w) = length (axis_ids sh ax cm) /\ ax' = ax.
  move: E; case: (all_ok _) => [ys|e] //; cbn [bind]; case: (all_ok _) => [us|e] //; cbn [bind]; case: (Model_ConvShape.conv_shapes _ _ _ _ _ _) => [u|e] //; cbn [bind] => -[_ E2 _ _ _ E3]; by split.
rewrite Ex Eax (@all_ok_err _ _ _ UnboundLocalError) //.
- move=> f /Hin Hf; have Hlf : Nat.ltb f (rf_nfreq fo) = true by apply/Nat.ltb_lt; exact/ssrnat.ltP.
  case: (Hall f Hf) => [Hfit|Hno]; [left|by right; rewrite /conv_load /load_modes Hno].
  by have [c Ec] := load_fits H2 H5 Hax H6 Hcm Hfit; rewrite /conv_load Ec; cbn [bind]; rewrite Hlf; eexists.
- by exists f0; split; [exact/Hin|rewrite /conv_load /load_modes Hnone].
Qed.
End Theorems.
Print Assumptions C160_missing_modes_raise.
Print Assumptions C163_missing_modes_raise.

(* the hypotheses are met: the folder of C163_nonvacuous without the file of frequency 1 *)
Section Nonvacuous.
Variable C : numClosedFieldType.
Definition miss_fo : folder C := Folder 1 1 [:: inject_Z 0; inject_Z 1] 2 2 (Nd [:: 4; 1]%N [:: 1; 1; 1; 1]) (fun f => if (f < 1)%N then Some (conv_f C) else None).
Example C163_missing_nonvacuous :
  [/\ coef_data miss_fo (conv_d C) 3 [:: 4%N] [:: 4; 1]%N, select_freqs (rf_freq miss_fo) (rf_nfreq miss_fo) None None None = Ok (conv_s [:: 0; 1]%N),
      (forall f, List.In f [:: 0; 1]%N -> fits miss_fo [:: 4; 1]%N f \/ rf_modes miss_fo f = None) & rf_modes miss_fo 1 = None].
Proof.
split=> //.
- by split; split=> //; right.
- by move=> f /= [<-|[<-|//]]; [left; exists (conv_f C)|right].
Qed.
End Nonvacuous.
