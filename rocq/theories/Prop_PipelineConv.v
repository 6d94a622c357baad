(* Property theorems C163: the whole computation of coefficients by convolution. *)
From Coq Require Import QArith.
From Verif Require Import Base_List Model_Parallel Model_Reader1 Model_Reader2 Model_Select Model_Pipeline Spec_Array Spec_Reader Proof_Parallel Proof_Npy2 Proof_Reader1 Proof_Pipeline Proof_PipelineCoef.
From Coq Require Import Sorting.Permutation.
From mathcomp Require Import all_ssreflect all_algebra.
From Verif Require Import Model_Spod Spec_Spod Spec_Coeffs Proof_Spod Model_SpodPar Proof_SpodPar Model_Coeffs Proof_StreamNum3 Proof_Svd Proof_Coeffs Prop_Coeffs Model_PipelineNum Proof_PipelineNum Prop_Pipeline
  Model_PipelineCoef Prop_PipelineCoef Model_PipelineConv Proof_PipelineConv.
Set Implicit Arguments.
Unset Strict Implicit.
Unset Printing Implicit Defensive.
Import Order.TTheory GRing.Theory Num.Theory.
Local Open Scope ring_scope.

(* ---- the calls the theorems are about: those that complete (C88) ---- *)
(* the selection covers all frequencies, each once, in any order; every frequency has a file with n_modes_save modes; at least two of each *)
Definition conv_modes (C : numClosedFieldType) (fo : folder C) (s : fsel) (sh : list nat) (n_dft : nat) : Prop :=
  [/\ (1 < rf_nfreq fo <= n_dft)%N, (1 < rf_nm fo)%N, n_freq_r s = Z.of_nat (rf_nfreq fo), Permutation (freq_list s) (List.seq 0 (rf_nfreq fo)) &
      forall f, (f < rf_nfreq fo)%N -> exists a, [/\ rf_modes fo f = Some a, wf a & Model_Parallel.shape a = List.app sh [:: rf_nm fo]]].
(* the entries of a snapshot that a process holds: its part of the array of positions *)
Definition holds (sh : list nat) (ax : nat) (cm : comm) (ids : list nat) : Prop :=
  exists a, distribute_dimension (Nd sh (List.seq 0 (Base_List.prod sh))) ax cm = Ok a /\ flat a = ids.
Definition two_each (sh : list nat) (ax : nat) (np : option nat) : Prop := forall cm ids, List.In cm (comms np) -> holds sh ax cm ids -> (1 < length ids)%N.
(* ---- what a coefficient is made of ---- *)
(* a record u of nt samples with h zeros before and behind *)
Definition around (C : numClosedFieldType) (nt h : nat) (u : nat -> C) (q : nat) : C := if (h <= q < h + nt)%N then u (q - h)%N else 0.
(* the windowed transform at frequency f of the n_dft samples from position t of the padded record *)
Definition spectrum_at (C : numClosedFieldType) (nt n_dft : nat) (win : nat -> C) (omega : C) (u : nat -> C) (f t : nat) : C :=
  \sum_(k < n_dft) around nt (h_pad n_dft) u (t + k) * win k * omega ^+ (f * k).
Definition file_of (C : numClosedFieldType) (fo : folder C) (f : nat) : list C := match rf_modes fo f with Some a => flat a | None => nil end.

Lemma holds_ids sh ax cm ids : (ax < length sh)%N -> holds sh ax cm ids <-> ids = axis_ids sh ax cm.
Proof.
move=> Hax.
suff [a [E F]] : exists a, distribute_dimension (Nd sh (List.seq 0 (Base_List.prod sh))) ax cm = Ok a /\ flat a = axis_ids sh ax cm.
  split=> [[b [E' <-]]|->]; [by move: E'; rewrite E => -[<-]|by exists a].
case: cm => [[size r]|]; last by eexists.
rewrite distribute_dimension_piece; last exact/ssrnat.ltP.
eexists; split; first reflexivity.
by rewrite /axis_ids /local_piece /piece /bd_s /bd_n [Model_Parallel.shape _]/=; case: (blockdist _ _ _).
Qed.
Lemma nth_nested (A : Type) (d : A) nf nt nm (g : nat -> nat -> list A) i t m : (forall i t, length (g i t) = nm) -> (i < nf)%N -> (t < nt)%N -> (m < nm)%N ->
  List.nth ((i * nt + t) * nm + m)%N (List.flat_map (fun i => List.flat_map (fun t => g i t) (List.seq 0 nt)) (List.seq 0 nf)) d = List.nth m (g i t) d.
Proof.
move=> Hg Hi Ht Hm.
have Hm0 : (0 < nm)%coq_nat by move/ssrnat.ltP: Hm; clear; lia.
have Ht0 : (0 < nt)%coq_nat by move/ssrnat.ltP: Ht; clear; lia.
have E : ((i * nt + t) * nm + m)%N = (Nat.add (Nat.mul i (Nat.mul nt nm)) (Nat.add (Nat.mul t nm) m)) by rewrite -!multE -!plusE; clear; nia.
have Hlt : (Nat.add (Nat.mul t nm) m < Nat.mul nt nm)%coq_nat by move/ssrnat.ltP: Hm; move/ssrnat.ltP: Ht; clear; nia.
have Hc : (0 < Nat.mul nt nm)%coq_nat by apply: Nat.mul_pos_pos.
have D1 : Nat.div (Nat.add (Nat.mul i (Nat.mul nt nm)) (Nat.add (Nat.mul t nm) m)) (Nat.mul nt nm) = i by clear -Hc Hlt; rewrite Nat.div_add_l ?Nat.div_small; lia.
have M1 : Nat.modulo (Nat.add (Nat.mul i (Nat.mul nt nm)) (Nat.add (Nat.mul t nm) m)) (Nat.mul nt nm) = Nat.add (Nat.mul t nm) m by clear -Hc Hlt; rewrite Nat.add_comm Nat.mod_add ?Nat.mod_small; lia.
have Hmc : (m < nm)%coq_nat by exact/ssrnat.ltP.
have D2 : Nat.div (Nat.add (Nat.mul t nm) m) nm = t by clear -Hmc; rewrite Nat.div_add_l ?Nat.div_small; lia.
have M2 : Nat.modulo (Nat.add (Nat.mul t nm) m) nm = m by clear -Hmc; rewrite Nat.add_comm Nat.mod_add ?Nat.mod_small; lia.
rewrite E (@nth_blocks _ _ (Nat.mul nt nm) nf) //; last 2 first.
- by move=> j _; apply: blocks_len => u; apply: Hg.
- by move/ssrnat.ltP: Hi; move: Hlt; clear; nia.
rewrite D1 M1 (@nth_blocks _ _ nm nt) //; by rewrite D2 M2.
Qed.

Section Theorems.
Variables (C : numClosedFieldType) (n_dft : nat) (win : nat -> C) (omega : C) (junk : comm -> nat -> list C) (A : Type) (cast : A -> C).

(* what entry x contributes to coefficient (i, t, m): the transform at the i-th selected frequency, the mode of frequency i *)
Definition contribution (fo : folder C) (s : fsel) (data : nd A) (nt : nat) (mu : list C) (i t m x : nat) : C :=
  spectrum_at nt n_dft win omega (fun u => sample cast data u x - List.nth x mu 0) (List.nth i (freq_list s) 0%N) t
  * List.nth x (flat (rf_weights fo)) 0 * (List.nth (x * rf_nm fo + m)%N (file_of fo i) 0)^*.

(* ---- C163 ---- *)
(* the call completes on any number of processes that hold at least two entries each.  coeffs.npy: the sums over the entries of the first process only.
   ltm.npy: the mean.  modes_r.npy: in the part of every process, the parts of the mode files it holds, one frequency after the other. *)
Theorem C163_contents_of_the_files : forall (fo : folder C) (data : nd A) nt sp sh T_lb T_ub freq_idx s ax np,
  coef_data fo data nt sp sh -> select_freqs (rf_freq fo) (rf_nfreq fo) T_lb T_ub freq_idx = Ok s -> conv_modes fo s sh n_dft ->
  argmax sp = Ok ax -> coef_procs np -> two_each sh ax np ->
  let n := Base_List.prod sh in let nf := rf_nfreq fo in let nm := rf_nm fo in
  exists cs ms mu,
  [/\ conv_array n_dft win omega junk cast fo T_lb T_ub freq_idx data np = Ok (Nd [:: nf; nt; nm] cs, ms, Nd sh mu, ax),
      forall mine, holds sh ax (List.hd None (comms np)) mine -> forall i t m, (i < nf)%N -> (t < nt)%N -> (m < nm)%N ->
        List.nth ((i * nt + t) * nm + m)%N cs 0 = corr nt n_dft win t * \sum_(x <- mine) contribution fo s data nt mu i t m x,
      length mu = n /\ (forall x, (x < n)%N -> List.nth x mu 0 = (\sum_(t < nt) sample cast data t x) / nt%:R),
      length cs = (nf * nt * nm)%N /\ Model_Parallel.shape ms = List.app sh [:: nf; nm] &
      forall cm, List.In cm (comms np) -> exists part, [/\ distribute_dimension ms ax cm = Ok part, length (flat part) = (nf * nm * length (axis_ids sh ax cm))%N &
        exists parts, Forall2 (fun f q => exists a, rf_modes fo f = Some a /\ distribute_dimension a ax cm = Ok q) (List.seq 0 nf) parts /\
          flat part = List.concat (List.map (@flat C) parts)]].
Proof.
move=> fo data nt sp sh T_lb T_ub freq_idx s ax np [[H1 H2 H3 H4 H5] [H6 H7 H8]] Hsel [/andP [Hnf Hdft] Hnm Hfr Hfl Hm] Hax Hnp Htwo n nf nm.
have Hm' f : List.In f (freq_list s) -> exists a, [/\ rf_modes fo f = Some a, wf a & Model_Parallel.shape a = List.app sh [:: nm]].
  by move=> /(proj2 (freq_part A Hfl)) /Hm.
have [Hlt /ssrnat.ltP Hlt' Hpr _] := sh_facts 0 H2 H5 Hax H6 Hm'.
have Hids cm : List.In cm (comms np) -> (1 < length (axis_ids sh ax cm))%N by move=> Hin; apply: (Htwo cm) => //; apply/holds_ids.
have [ms [E Ems Hparts]] := @conv_gen C n_dft win omega junk A cast fo s nt sp sh data ax H1 H2 H3 H5 Hax H6 (conj H7 H8) Hm Hnm Hnf Hdft Hfr Hfl T_lb T_ub freq_idx np Hnp Hids Hsel.
have Lr : length (List.map (List.map cast) (snapshots data)) = nt by rewrite List.map_length snapshots_length /nrows H2.
exists (vcoeffs n_dft win omega cast fo s data (axis_ids sh ax (List.hd None (comms np)))), ms, (List.map (cmean (List.map (List.map cast) (snapshots data))) (List.seq 0 n)).
have [Hfll _] := freq_part A Hfl.
split=> //.
- move=> mine /(holds_ids _ _ Hlt') -> i t m Hi Ht Hmm.
  rewrite /vcoeffs -/nf -/nm Lr (@nth_nested _ _ nf _ nm) //; last by move=> i' t'; rewrite List.map_length -[length _]/(seq.size _) size_enum_ord.
  rewrite (_ : m = val (Ordinal Hmm)) // nth_List -[List.map _ _]/(map _ _) (nth_map (Ordinal Hmm)) ?size_enum_ord // nth_ord_enum.
  congr (_ * _); rewrite big_seq [RHS]big_seq; apply: eq_bigr => x Hx.
  have Hxn : (x < n)%N.
    have Hin : List.In x (axis_ids sh ax (List.hd None (comms np))) by elim: (axis_ids _ _ _) Hx => //= y l IH; rewrite inE => /orP [/eqP ->|/IH]; [left|right].
    case: (np) Hnp Hin => [[|size']|] // _; last by move=> /List.in_seq [_ Hxx]; exact/ssrnat.ltP.
    rewrite [List.hd _ _]/= /axis_ids /local_piece => Hin.
    have := @owned_perm sh ax size'.+1 Hlt' (ltn0Sn _) => Hp.
    have : List.In x (List.concat (List.map (owned sh ax size'.+1) (List.seq 0 size'.+1))).
      apply/List.in_concat; exists (owned sh ax size'.+1 0); split; first by left.
      by move: Hin; rewrite /owned; case: (blockdist _ _ _).
    by move/(Permutation_in _ Hp) => /List.in_seq [_ Hxx]; exact/ssrnat.ltP.
  rewrite /cterm /contribution /spectrum_at; congr (_ * _ * _).
  + rewrite (_ : row_freq _ _ = List.nth i (freq_list s) 0%N); last first.
      rewrite /row_freq Hfll; case: Nat.eqb_spec => // E1; by move: Hnf; rewrite E1.
    apply: eq_bigr => k _; congr (_ * _ * _); rewrite /cfluct /around Lr; case: ifP => // _; by rewrite nth_map_seq // ltnW.
  + by rewrite (vcol_at win junk H6 Hm) // /mfile /file_of; case: (rf_modes fo i).
- split; first by rewrite List.map_length List.seq_length.
  by move=> x Hx; rewrite nth_map_seq // /cmean Lr.
- split=> //; rewrite /vcoeffs Lr -/nf -/nm (@blocks_len _ _ (Nat.mul nt nm)); first by rewrite -!multE; clear; nia.
  move=> i; rewrite (@blocks_len _ _ nm) // => t; by rewrite List.map_length -[length _]/(seq.size _) size_enum_ord.
- move=> cm Hin; have [part [E1 E2]] := Hparts cm Hin; exists part; split=> //.
    by rewrite E2 vmem_len -/nf -/nm -!multE; clear; nia.
  have Hc : comm_ok cm.
    case: (np) Hin => [size /List.in_map_iff [r [<- /List.in_seq [_ Hr]]]|[<-|//]] //.
  have HQ f : List.In f (List.seq 0 nf) -> exists q, (exists a, rf_modes fo f = Some a /\ distribute_dimension a ax cm = Ok q) /\ flat q = List.flat_map (point_row 0 nm (flat (mfile fo f))) (axis_ids sh ax cm).
    move=> /List.in_seq [_ /ssrnat.ltP Hf]; have [[ash afl] [Ea Hwa Hsa]] := Hm f Hf; rewrite /= in Hsa; subst ash.
    have Hla : length afl = Nat.mul (Base_List.prod sh) nm by move: Hwa; rewrite /wf /= prod_app /=; lia.
    have [q [Eq Fq]] := @distribute_points _ 0 sh nm afl ax cm Hc (elimT ssrnat.ltP Hlt') Hla.
    exists q; split; first by exists (Nd (List.app sh [:: nm]) afl).
    by rewrite Fq /mfile Ea.
  have [parts HP] : exists parts, Forall2 (fun f q => (exists a, rf_modes fo f = Some a /\ distribute_dimension a ax cm = Ok q) /\ flat q = List.flat_map (point_row 0 nm (flat (mfile fo f))) (axis_ids sh ax cm)) (List.seq 0 nf) parts.
    elim: (List.seq 0 nf) HQ => [|f l IH] HQ; first by exists nil; constructor.
    have [q Hq] := HQ f (or_introl erefl); have [ps Hps] := IH (fun g Hg => HQ g (or_intror Hg)); by exists (q :: ps); constructor.
  exists parts; split; first by elim: HP => [|f q l ps [Hq _] _ IH]; constructor.
  rewrite E2 /vmem -/nf -/nm; elim: HP => //= f q l ps [_ Hq] _ ->; by rewrite Hq.
Qed.
(* what a run on several processes leaves out: the sums over the entries of all processes but the first; rank independence fails exactly when they matter *)
Theorem C163_other_processes_are_lost : forall (fo : folder C) (data : nd A) nt sp sh T_lb T_ub freq_idx s ax size,
  coef_data fo data nt sp sh -> select_freqs (rf_freq fo) (rf_nfreq fo) T_lb T_ub freq_idx = Ok s -> conv_modes fo s sh n_dft ->
  argmax sp = Ok ax -> (0 < size)%N -> two_each sh ax (Some size) ->
  let nf := rf_nfreq fo in let nm := rf_nm fo in
  exists cs1 ms1 cs2 ms2 mu others,
  [/\ conv_array n_dft win omega junk cast fo T_lb T_ub freq_idx data None = Ok (Nd [:: nf; nt; nm] cs1, ms1, Nd sh mu, ax),
      conv_array n_dft win omega junk cast fo T_lb T_ub freq_idx data (Some size) = Ok (Nd [:: nf; nt; nm] cs2, ms2, Nd sh mu, ax),
      Forall2 (fun r ids => holds sh ax (Some (size, r)) ids) (List.seq 1 (size - 1)) others &
      forall i t m, (i < nf)%N -> (t < nt)%N -> (m < nm)%N ->
        List.nth ((i * nt + t) * nm + m)%N cs1 0 - List.nth ((i * nt + t) * nm + m)%N cs2 0
        = corr nt n_dft win t * \sum_(x <- List.concat others) contribution fo s data nt mu i t m x].
Proof.
move=> fo data nt sp sh T_lb T_ub freq_idx s ax size Hd Hsel Hm Hax Hsz Htwo nf nm.
have [[H1 H2 H3 H4 H5] [H6 H7 H8]] := Hd; have [/andP [Hnf Hdft] Hnm Hfr Hfl Hmm] := Hm.
have Hm' f : List.In f (freq_list s) -> exists a, [/\ rf_modes fo f = Some a, wf a & Model_Parallel.shape a = List.app sh [:: nm]].
  by move=> /(proj2 (freq_part A Hfl)) /Hmm.
have [Hlt /ssrnat.ltP Hlt' Hpr _] := sh_facts 0 H2 H5 Hax H6 Hm'.
have Hp := owned_perm Hlt' Hsz.
have Hown r : axis_ids sh ax (Some (size, r)) = owned sh ax size r by rewrite /axis_ids /local_piece /owned; case: (blockdist _ _ _).
have Hs1 : List.seq 0 size = 0%N :: List.seq 1 (size - 1) by case: (size) Hsz => //= k _; rewrite subSS subn0.
have Hserial : two_each sh ax None.
  move=> cm ids [<-|//] /(holds_ids _ _ Hlt') ->.
  have Hin : List.In (Some (size, 0%N)) (comms (Some size)) by rewrite /comms Hs1; left.
  have L0 := Htwo _ _ Hin (proj2 (holds_ids _ _ Hlt') erefl).
  apply: (leq_trans L0); rewrite Hown /axis_ids /local_piece /= List.seq_length.
  have := Permutation_length Hp; rewrite List.seq_length Hs1 [List.concat _]/= List.app_length => EE; apply/ssrnat.leP; move: EE; clear; lia.
have [cs1 [ms1 [mu1 [E1 F1 [L1 M1] _ _]]]] := C163_contents_of_the_files Hd Hsel Hm Hax (np := None) I Hserial.
have [cs2 [ms2 [mu2 [E2 F2 [L2 M2] _ _]]]] := C163_contents_of_the_files Hd Hsel Hm Hax (np := Some size) Hsz Htwo.
have Emu : mu2 = mu1.
  apply: (List.nth_ext _ _ 0 0); first by rewrite L1 L2.
  by move=> x; rewrite L2 => /ssrnat.ltP Hx; rewrite M2 // M1.
rewrite {M2 L2} Emu in E2 F2.
exists cs1, ms1, cs2, ms2, mu1, (List.map (owned sh ax size) (List.seq 1 (size - 1))); split=> //.
  by elim: (List.seq 1 (size - 1)) => //= r l IH; constructor=> //; apply/holds_ids.
move=> i t m Hi Ht Hmn.
rewrite (F1 _ (proj2 (holds_ids _ _ Hlt') erefl)) // (F2 _ (proj2 (holds_ids _ _ Hlt') erefl)) //.
have -> : List.hd None (comms (Some size)) = Some (size, 0%N) by rewrite /comms Hs1.
rewrite Hown -mulrBr; congr (_ * _).
have G (l l' : list nat) (F : nat -> C) : Permutation l l' -> \sum_(x <- l) F x = \sum_(x <- l') F x.
  elim=> [|x a b _ IH|x y a|a b c _ -> _ ->] //; rewrite !big_cons ?IH //; by rewrite addrCA.
rewrite -[axis_ids _ _ _]/(List.seq 0 (Base_List.prod sh)) -(G _ _ _ Hp) Hs1 /= big_cat /= addrC addKr.
by [].
Qed.

(* rows are paired with modes by position: with the frequencies given in another order (freq_idx), row i combines the transform at the i-th of them
   with the modes of frequency i.  So a frequency without energy in its modes has a zero row, whatever the data *)
Theorem C163_rows_follow_the_stored_order_refuted : forall (fo : folder C) (data : nd A) nt sp sh T_lb T_ub freq_idx s ax np i,
  coef_data fo data nt sp sh -> select_freqs (rf_freq fo) (rf_nfreq fo) T_lb T_ub freq_idx = Ok s -> conv_modes fo s sh n_dft ->
  argmax sp = Ok ax -> coef_procs np -> two_each sh ax np -> (i < rf_nfreq fo)%N ->
  (forall q, List.nth q (file_of fo i) 0 = 0) ->
  exists cs ms mu, conv_array n_dft win omega junk cast fo T_lb T_ub freq_idx data np = Ok (Nd [:: rf_nfreq fo; nt; rf_nm fo] cs, ms, mu, ax) /\
    forall t m, (t < nt)%N -> (m < rf_nm fo)%N -> List.nth ((i * nt + t) * rf_nm fo + m)%N cs 0 = 0.
Proof.
move=> fo data nt sp sh T_lb T_ub freq_idx s ax np i Hd Hsel Hm Hax Hnp Htwo Hi Hz.
have [[H1 H2 H3 H4 H5] [H6 H7 H8]] := Hd; have [/andP [Hnf Hdft] Hnm Hfr Hfl Hmm] := Hm.
have Hm' f : List.In f (freq_list s) -> exists a, [/\ rf_modes fo f = Some a, wf a & Model_Parallel.shape a = List.app sh [:: rf_nm fo]].
  by move=> /(proj2 (freq_part A Hfl)) /Hmm.
have [Hlt /ssrnat.ltP Hlt' Hpr _] := sh_facts 0 H2 H5 Hax H6 Hm'.
have [cs [ms [mu [E F _ _ _]]]] := C163_contents_of_the_files Hd Hsel Hm Hax Hnp Htwo.
exists cs, ms, (Nd sh mu); split=> // t m Ht Hmn.
rewrite (F _ (proj2 (holds_ids _ _ Hlt') erefl)) // big1 ?mulr0 // => x _.
by rewrite /contribution Hz conjC0 mulr0.
Qed.
End Theorems.
Print Assumptions C163_contents_of_the_files.
Print Assumptions C163_other_processes_are_lost.
Print Assumptions C163_rows_follow_the_stored_order_refuted.

(* the hypotheses are met: three snapshots of four points, two frequencies with two modes, on one process or two, with the frequencies in order or exchanged *)
Section Nonvacuous.
Variable C : numClosedFieldType.
Definition conv_d : nd C := Nd [:: 3; 4]%N [:: 1; 0; 0; 1; -1; 0; 0; 0; 0; 0; 1; 1].
Definition conv_f : nd C := Nd [:: 4; 1; 2]%N [:: 1; 0; 0; 1; 0; 0; 1; 1].
Definition conv_fo : folder C := Folder 1 1 [:: inject_Z 0; inject_Z 1] 2 2 (Nd [:: 4; 1]%N [:: 1; 1; 1; 1]) (fun f => if (f < 2)%N then Some conv_f else None).
Definition conv_s (l : list nat) : fsel := Fsel (inject_Z 0) 0 (inject_Z 1) 1 (Z.of_nat 2) l.
Lemma perm01 : Permutation (1 :: 0 :: nil)%N (0 :: 1 :: nil)%N.
Proof. exact: perm_swap. Qed.
Example C163_nonvacuous :
  [/\ coef_data conv_fo conv_d 3 [:: 4%N] [:: 4; 1]%N, argmax [:: 4%N] = Ok 0%N,
      select_freqs (rf_freq conv_fo) (rf_nfreq conv_fo) None None None = Ok (conv_s [:: 0; 1]%N) /\ conv_modes conv_fo (conv_s [:: 0; 1]%N) [:: 4; 1]%N 3,
      select_freqs (rf_freq conv_fo) (rf_nfreq conv_fo) (Some (inject_Z 1)) (Some (inject_Z 4)) (Some [:: 1; 0]%N) = Ok (conv_s [:: 1; 0]%N) /\ conv_modes conv_fo (conv_s [:: 1; 0]%N) [:: 4; 1]%N 3 &
      two_each [:: 4; 1]%N 0 (Some 2%N) /\ two_each [:: 4; 1]%N 0 None].
Proof.
have Hf f : (f < 2)%N -> exists a, [/\ rf_modes conv_fo f = Some a, wf a & Model_Parallel.shape a = List.app [:: 4; 1]%N [:: 2%N]].
  by move=> Hf; exists conv_f; split; rewrite //= Hf.
split=> //.
- by split; split=> //; right.
- by split; [vm_compute|split; [by []|by []|by []|exact: perm01|exact: Hf]].
- split=> cm ids; first by move=> /= [<-|[<-|//]] [a [E <-]]; move: E; vm_compute => -[<-].
  by move=> /= [<-|//] [a [E <-]]; move: E; vm_compute => -[<-].
Qed.
End Nonvacuous.
