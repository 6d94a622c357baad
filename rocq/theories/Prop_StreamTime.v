(* Property theorems C43, C44 and C49: the schedule of the streaming algorithm. *)
From Coq Require Import List Arith ZArith Lia.
Import ListNotations.
From Verif Require Import Base_List Model_Base Model_Streaming Proof_Streaming Spec_StreamTime Model_StreamShape Proof_StreamShape.

(* ---- C43 ---- *)
(* for every type of snapshot and of partial sum, every stream, every time t: snapshot t completes a sum
   exactly when t is the last snapshot of a window of n_dft consecutive snapshots starting at
   c*(n_par*hop+1)+j*hop, and the completed sum is the sum over that window, in order, each snapshot with
   its position in the window *)
Theorem C43_schedule : forall X A M B n_dft n_overlap (zeroA : A) (contrib : A -> nat -> X -> A)
    (mean_step : nat -> M -> X -> M) (basis_step : nat -> A -> M -> B -> B) (strm : nat -> X) mu0 b0 t h,
  n_overlap < n_dft ->
  let hop := n_dft - n_overlap in let n_par := windows_open n_dft hop in
  completed n_dft n_overlap zeroA contrib mean_step basis_step mu0 b0 strm t = Some h <->
  exists c j, j < n_par /\
    let s := c * (n_par * hop + 1) + j * hop in
    t + 1 = s + n_dft /\
    h = fold_left (fun a i => contrib a i (strm (s + i))) (seq 0 n_dft) zeroA.
Proof.
intros X A M B n_dft n_overlap zeroA contrib mean_step basis_step strm mu0 b0 t h Hov hop n_par.
rewrite (completed_iff zeroA contrib mean_step basis_step Hov strm mu0 b0 t h).
assert (Hp : 1 <= n_par) by exact (npar_pos Hov).
assert (Hp0 : n_par <> 0) by (clearbody n_par; lia).
split.
- intros [k [E ->]]. exists (k / n_par), (k mod n_par).
  assert (Hm : k mod n_par < n_par) by exact (Nat.mod_upper_bound k n_par Hp0).
  assert (Ek : k / n_par * n_par + k mod n_par = k) by (rewrite Nat.mul_comm; symmetry; exact (Nat.div_mod k n_par Hp0)).
  assert (Es : start n_dft n_overlap k = k / n_par * (n_par * hop + 1) + k mod n_par * hop).
  { pose proof (start_cj Hov (k / n_par) Hm) as Q. change (n_blocks_par n_dft n_overlap) with n_par in Q. rewrite Ek in Q. exact Q. }
  split; [exact Hm|]. cbv zeta. rewrite <- Es. split; [|reflexivity]. lia.
- intros [c [j [Hj [E ->]]]]. exists (c * n_par + j).
  assert (Es : start n_dft n_overlap (c * n_par + j) = c * (n_par * hop + 1) + j * hop) by exact (start_cj Hov c Hj).
  rewrite Es. split; [|reflexivity]. cbv zeta in E. lia.
Qed.
Print Assumptions C43_schedule.
Theorem C43_at_most_one_completion : forall X A M B n_dft n_overlap (zeroA : A) (contrib : A -> nat -> X -> A)
    (mean_step : nat -> M -> X -> M) (basis_step : nat -> A -> M -> B -> B) (strm : nat -> X) mu0 b0 t,
  n_overlap < n_dft ->
  length (finishing n_dft n_overlap zeroA contrib mean_step basis_step mu0 b0 strm t) <= 1.
Proof. intros. apply finishing_one. assumption. Qed.
Print Assumptions C43_at_most_one_completion.
(* n_dft = 4, overlap 2: two windows; the stream of times shows which snapshots are used with which position *)
Definition demo (t : nat) : option (list (nat * nat)) :=
  completed 4 2 nil (fun a i x => a ++ [(i, x)]) (fun _ m _ => m) (fun _ _ _ b => b) tt tt (fun t => t) t.
Example C43_nonvacuous :
  map demo (seq 0 9) = [None; None; None; Some [(0, 0); (1, 1); (2, 2); (3, 3)]; None;
    Some [(0, 2); (1, 3); (2, 4); (3, 5)]; None; None; Some [(0, 5); (1, 6); (2, 7); (3, 8)]].
Proof. reflexivity. Qed.

(* ---- C44 ---- *)
(* the k-th block used by the stream, against block k of the batch algorithm on a record of nt snapshots *)
Theorem C44_blocks_differ_refuted : forall X A M B n_dft n_overlap (zeroA : A) (contrib : A -> nat -> X -> A)
    (mean_step : nat -> M -> X -> M) (basis_step : nat -> A -> M -> B -> B) (strm : nat -> X) mu0 b0 nt k,
  n_overlap < n_dft ->
  let hop := n_dft - n_overlap in
  k * hop + n_dft <= nt ->
  let batch := Z.to_nat (Model_Base.block_offset (Z.of_nat nt) (Z.of_nat n_dft) (Z.of_nat n_overlap) (Z.of_nat k)) in
  let stream := batch + k / windows_open n_dft hop in
  let t := stream + n_dft - 1 in
  completed n_dft n_overlap zeroA contrib mean_step basis_step mu0 b0 strm t
    = Some (fold_left (fun a i => contrib a i (strm (stream + i))) (seq 0 n_dft) zeroA) /\
  Model_Streaming.block_i (run n_dft n_overlap zeroA contrib mean_step basis_step mu0 b0 strm t) = k /\
  (stream = batch <-> k < windows_open n_dft hop).
Proof.
intros X A M B n_dft n_overlap zeroA contrib mean_step basis_step strm mu0 b0 nt k Hov hop Hnt batch stream t.
assert (Hp : 1 <= windows_open n_dft hop) by exact (npar_pos Hov).
assert (Eb : batch = k * hop).
{ unfold batch, Model_Base.block_offset. replace (Z.of_nat n_dft - Z.of_nat n_overlap)%Z with (Z.of_nat hop) by (unfold hop; lia).
  clearbody hop. rewrite Z.min_l by nia. nia. }
assert (Es : stream = start n_dft n_overlap k) by (unfold stream; rewrite Eb; reflexivity).
split; [|split].
- apply (completed_iff zeroA contrib mean_step basis_step Hov). exists k. rewrite Es. split; [|reflexivity].
  unfold t. rewrite Es. clear - Hov. generalize (start n_dft n_overlap k). intro. lia.
- destruct (run_law zeroA contrib mean_step basis_step Hov strm mu0 b0 t) as [K [HK E]]. rewrite E. cbn [block_i].
  apply (due_unique Hov HK). unfold t. rewrite Es. exact (due_at Hov k).
- unfold stream. clearbody batch. clear - Hp. revert Hp. generalize (windows_open n_dft hop). intros p Hp. split; intro H.
  + assert (E : k / p = 0) by (revert H; generalize (k / p); clear; intros; lia). apply Nat.div_small_iff in E; lia.
  + rewrite (Nat.div_small _ _ H). apply Nat.add_0_r.
Qed.
Print Assumptions C44_blocks_differ_refuted.
(* the number of blocks: never more than the batch algorithm *)
Theorem C44_no_more_blocks : forall X A M B n_dft n_overlap (zeroA : A) (contrib : A -> nat -> X -> A)
    (mean_step : nat -> M -> X -> M) (basis_step : nat -> A -> M -> B -> B) (strm : nat -> X) mu0 b0 nt,
  n_overlap < n_dft -> n_dft <= nt ->
  (Z.of_nat (Model_Streaming.block_i (run n_dft n_overlap zeroA contrib mean_step basis_step mu0 b0 strm nt))
   <= Model_Base.n_blocks_of (Z.of_nat nt) (Z.of_nat n_dft) (Z.of_nat n_overlap))%Z.
Proof.
intros X A M B n_dft n_overlap zeroA contrib mean_step basis_step strm mu0 b0 nt Hov Hnt.
destruct (run_law zeroA contrib mean_step basis_step Hov strm mu0 b0 nt) as [K [[_ HK] E]]. rewrite E. cbn [block_i].
unfold Model_Base.n_blocks_of. apply Z.div_le_lower_bound; [lia|].
destruct K as [|K]; [lia|].
pose proof (HK K (Nat.lt_succ_diag_r K)) as H. unfold start, dn in H. revert H.
generalize (K / n_blocks_par n_dft n_overlap). clear - Hov. intros q H. nia.
Qed.
Print Assumptions C44_no_more_blocks.
Example C44_nonvacuous : 7 / windows_open 4 2 = 3 /\ 7 * 2 + 4 <= 20.
Proof. split; [reflexivity|lia]. Qed.

(* ---- C49 ---- *)
(* a fit on flat local entries, k requested modes and a stream that completes `blocks` transforms *)
Theorem C49_degenerate_shapes : forall flat k blocks,
  (exists u, fit_shapes flat k blocks = Ok u) <-> flat <> 1 /\ (k <> 1 \/ blocks = 0).
Proof. exact fit_ok_iff. Qed.
Print Assumptions C49_degenerate_shapes.
Theorem C49_one_mode_refuted : forall flat blocks, 1 <= blocks -> fit_shapes flat 1 blocks = Err ValueError.
Proof. intros flat [|b] H; [lia|]. unfold fit_shapes. cbn [Nat.eqb]. rewrite update_k1. reflexivity. Qed.
Print Assumptions C49_one_mode_refuted.
Example C49_nonvacuous : fit_shapes 6 2 5 = Ok tt /\ fit_shapes 6 1 5 = Err ValueError /\ fit_shapes 1 1 0 = Err TypeError.
Proof. repeat split. Qed.
