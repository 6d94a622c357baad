(* Property theorems C157: byte order of arrays given to allreduce and to the parallel npy_save. *)
From Coq Require Import List PeanoNat Permutation Lia NArith.
From Verif Require Import Base_List Model_Stat Model_ByteOrder.
Import ListNotations.
From Coq Require Import Permutation.

(* the number the same bytes stand for in the other byte order *)
Definition misread {B V} (dec : list B -> V) (a : array) (k : nat) (d : V) : V := nth k (map dec (numbers a)) d.
Section Sum.
Context {B V : Type}.
Variable dec : list B -> V.
Variables (add : V -> V -> V) (zero : V).
Hypothesis add_comm : forall x y, add x y = add y x.
Hypothesis add_assoc : forall x y z, add x (add y z) = add (add x y) z.
Hypothesis add_zero : forall x, add x zero = x.
Definition total (l : list V) : V := fold_right add zero l.
Lemma total_app l m : total (l ++ m) = add (total l) (total m).
Proof. unfold total; induction l as [|a l IH]; cbn; [now rewrite add_comm, add_zero|]. now rewrite IH, add_assoc. Qed.
Lemma total_perm l m : Permutation l m -> total l = total m.
Proof. unfold total; induction 1; cbn; try congruence; now rewrite !add_assoc, (add_comm x y). Qed.
Lemma reduced_len locs n t : (forall r, length (numbers (locs r)) = n) -> length (reduced dec add locs t) = n.
Proof using dec add.
  clear add_comm add_assoc add_zero zero.
  intros H; induction t as [r|l IHl r IHr]; cbn; [unfold values; cbn; now rewrite map_length|].
  rewrite map_length, combine_length. lia.
Qed.
Lemma reduced_nth locs n t k d : (forall r, length (numbers (locs r)) = n) -> k < n ->
  nth k (reduced dec add locs t) d = total (map (fun r => misread dec (locs r) k d) (leaves t)).
Proof.
  intros H Hk; induction t as [r|l IHl r IHr]; cbn; [now rewrite add_zero|].
  rewrite map_app, total_app, <- IHl, <- IHr.
  rewrite (nth_indep _ _ ((fun p => add (fst p) (snd p)) (d, d))) by (rewrite map_length, combine_length, !(reduced_len locs n); auto; lia).
  rewrite (map_nth (fun p => add (fst p) (snd p))), combine_nth by now rewrite !(reduced_len locs n).
  reflexivity.
Qed.
End Sum.

(* all arrays in the machine's byte order: every process gets the sum over all processes of the values, for every reduction order *)
Theorem C157_sum_of_native_arrays : forall B V (dec : list B -> V) add zero,
  (forall x y, add x y = add y x) -> (forall x y z, add x (add y z) = add (add x y) z) -> (forall x, add x zero = x) ->
  forall size n locs t d r k, Permutation (leaves t) (seq 0 size) -> (forall r, order (locs r) = Native /\ length (numbers (locs r)) = n) -> k < n ->
  length (allreduce dec add (Comm t) locs r) = n /\
  nth k (allreduce dec add (Comm t) locs r) d = fold_right add zero (map (fun q => nth k (values dec (locs q)) d) (seq 0 size)).
Proof.
  intros B V dec add zero Hc Ha Hz size n locs t d r k Ht Hn Hk.
  assert (Hl : forall r, length (numbers (locs r)) = n) by (intros q; apply Hn).
  split; cbn; [now apply reduced_len|].
  rewrite (reduced_nth dec add zero Hc Ha Hz locs n) by auto.
  change (fold_right add zero) with (total add zero). apply total_perm; auto.
  transitivity (map (fun r0 => misread dec (locs r0) k d) (seq 0 size)); [now apply Permutation_map|].
  erewrite map_ext; [reflexivity|]. intros q; unfold misread, values. destruct (Hn q) as [-> _]. reflexivity.
Qed.
Print Assumptions C157_sum_of_native_arrays.
(* in any byte orders: a swapped array enters the sum with its bytes misread; the serial code returns the array untouched *)
Theorem C157_swapped_arrays_misread_refuted : forall B V (dec : list B -> V) add zero,
  (forall x y, add x y = add y x) -> (forall x y z, add x (add y z) = add (add x y) z) -> (forall x, add x zero = x) ->
  forall size n locs t d r k, Permutation (leaves t) (seq 0 size) -> (forall r, length (numbers (locs r)) = n) -> k < n ->
  nth k (allreduce dec add (Comm t) locs r) d =
    fold_right add zero (map (fun q => dec (nth k (numbers (locs q)) [])) (seq 0 size)) /\
  allreduce dec add NoComm locs r = values dec (locs r) /\
  (* one process: the same as the serial code at this entry iff the bytes read the same both ways *)
  (order (locs 0) = Swapped -> size = 1 ->
     (nth k (allreduce dec add (Comm t) locs 0) d = nth k (values dec (locs 0)) d <->
      dec (nth k (numbers (locs 0)) []) = dec (rev (nth k (numbers (locs 0)) [])))).
Proof.
  intros B V dec add zero Hc Ha Hz size n locs t d r k Ht Hn Hk.
  assert (E : forall r', nth k (allreduce dec add (Comm t) locs r') d = fold_right add zero (map (fun q => dec (nth k (numbers (locs q)) [])) (seq 0 size))).
  { intros r'; cbn. rewrite (reduced_nth dec add zero Hc Ha Hz locs n) by auto.
    change (fold_right add zero) with (total add zero). apply total_perm; auto.
    transitivity (map (fun r0 => misread dec (locs r0) k d) (seq 0 size)); [now apply Permutation_map|].
    erewrite map_ext; [reflexivity|]. intros q; unfold misread.
    rewrite (nth_indep _ _ (dec [])) by now rewrite map_length, Hn. now rewrite map_nth. }
  split; [apply E|split; [reflexivity|]]. intros Ho ->. rewrite E. cbn. rewrite Hz.
  unfold values. rewrite Ho.
  rewrite (nth_indep _ d (dec (rev []))) by now rewrite map_length, Hn.
  rewrite (map_nth (fun b => dec (rev b))). reflexivity.
Qed.
Print Assumptions C157_swapped_arrays_misread_refuted.

(* npy_save: what np.load finds in the file. Native pieces are saved faithfully, serially any array is; a swapped piece is saved with its bytes
   misread, so that the file holds the array iff every number reads the same both ways *)
Theorem C157_saved_values : forall B V (dec : list B -> V) locs size,
  values dec (saved None locs) = values dec (locs 0) /\
  ((forall r, r < size -> order (locs r) = Native) -> values dec (saved (Some size) locs) = flat_map (fun r => values dec (locs r)) (seq 0 size)) /\
  ((forall r, r < size -> order (locs r) = Swapped) ->
    (values dec (saved (Some size) locs) = flat_map (fun r => values dec (locs r)) (seq 0 size) <->
     forall r b, r < size -> In b (numbers (locs r)) -> dec b = dec (rev b))).
Proof.
  intros B V dec locs size. split; [unfold values; cbn; now destruct (order (locs 0))|].
  assert (G : forall l, map dec (flat_map (fun r => numbers (locs r)) l) = flat_map (fun r => map dec (numbers (locs r))) l).
  { induction l as [|a l IH]; cbn; [reflexivity|]. now rewrite map_app, IH. }
  assert (G' : values dec (saved (Some size) locs) = flat_map (fun r => map dec (numbers (locs r))) (seq 0 size)) by (unfold values; cbn; apply G).
  split.
  - intros H. rewrite G'. clear G'. assert (Hs : forall r, In r (seq 0 size) -> order (locs r) = Native) by (intros r Hr; apply in_seq in Hr; apply H; lia).
    clear G H. induction (seq 0 size) as [|a l IH]; cbn; [reflexivity|]. rewrite IH by (intros r Hr; apply Hs; now right).
    f_equal. unfold values. rewrite (Hs a) by now left. reflexivity.
  - intros H. rewrite G'. clear G G'.
    assert (Hs : forall r, In r (seq 0 size) -> order (locs r) = Swapped) by (intros r Hr; apply in_seq in Hr; apply H; lia).
    transitivity (forall r b, In r (seq 0 size) -> In b (numbers (locs r)) -> dec b = dec (rev b)).
    2:{ split; intros K r b Hr Hb; apply (K r b); auto; [apply in_seq|apply in_seq in Hr]; lia. }
    clear H. induction (seq 0 size) as [|a l IH]; cbn; [split; [intros _ r b []|reflexivity]|].
    assert (Ea : values dec (locs a) = map (fun b => dec (rev b)) (numbers (locs a))) by (unfold values; now rewrite (Hs a) by now left).
    specialize (IH (fun r Hr => Hs r (or_intror Hr))). rewrite Ea. split.
    + intros E. assert (E1 : map dec (numbers (locs a)) = map (fun b => dec (rev b)) (numbers (locs a))).
      { apply (f_equal (firstn (length (numbers (locs a))))) in E. rewrite !firstn_app, !map_length, Nat.sub_diag, !firstn_O, !app_nil_r in E.
        rewrite !firstn_all2 in E by now rewrite map_length. exact E. }
      rewrite E1 in E. apply app_inv_head in E. pose proof (proj1 IH E) as E2.
      intros r b [<-|Hr] Hb; [|now apply (E2 r)].
      clear - E1 Hb. induction (numbers (locs a)) as [|x m IHm]; [destruct Hb|]. cbn in E1. injection E1 as Ex Em. destruct Hb as [<-|Hb]; auto.
    + intros K. f_equal.
      * apply map_ext_in. intros b Hb. apply (K a); auto.
      * apply IH. intros r b Hr Hb; apply (K r); auto.
Qed.
Print Assumptions C157_saved_values.

(* two-byte integers, low byte first: the number 1 in the other order, on two processes, sums to 512 instead of 2, and is saved as 256 *)
Definition dec2 (b : list nat) : nat := fold_right (fun x acc => x + 256 * acc) 0 b.
Example C157_nonvacuous :
  let locs (_ : nat) := Array Swapped [[0; 1]] in
  let t := Node (Leaf 1) (Leaf 0) in
  Permutation (leaves t) (seq 0 2) /\ values dec2 (locs 0) = [1] /\
  N.of_nat (nth 0 (allreduce dec2 Nat.add (Comm t) locs 0) 0) = 512%N /\ map N.of_nat (values dec2 (saved (Some 2) locs)) = [256; 256]%N /\
  values dec2 (saved None locs) = [1].
Proof. cbn zeta. split; [apply perm_swap|vm_compute; auto]. Qed.
