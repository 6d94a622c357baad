(* C125-C126: the point-to-point exchanges of the readers and of the mode files, for every interleaving of the processes, every
   arrival order and every choice of buffering by MPI. *)
From Coq Require Import Sorting.Permutation.
From Verif Require Import Base_List Model_Parallel Proof_Parallel Model_Reader2 Proof_Reader2 Spec_Reader2 Model_Standard Proof_Standard2 Model_Mpi Proof_Mpi.
Set Implicit Arguments.
Local Open Scope nat_scope.

(* ---------- the two programs are balanced ---------- *)
Section Lists.
Variable M : Type.
Lemma sends_recv d (l : list nat) : sends_to d (map (@Recv M) l) = [].
Proof. induction l; [reflexivity|exact IHl]. Qed.
Lemma recvs_send {X} s (f : X -> nat) (g : X -> M) (l : list X) : recvs_from s (map (fun d => Send (f d) (g d)) l) = 0.
Proof. induction l; [reflexivity|exact IHl]. Qed.
Lemma sends_seq d (g : nat -> M) : forall n b, sends_to d (map (fun i => Send i (g i)) (seq b n)) = if (b <=? d) && (d <? b + n) then [g d] else [].
Proof.
  induction n as [|n IH]; intros b; cbn [seq map].
  - destruct (Nat.leb_spec b d), (Nat.ltb_spec d (b + 0)); try reflexivity; lia.
  - change (sends_to d (Send b (g b) :: map (fun i => Send i (g i)) (seq (S b) n)))
      with ((if b =? d then [g b] else []) ++ sends_to d (map (fun i => Send i (g i)) (seq (S b) n))).
    rewrite IH. destruct (Nat.eqb_spec b d) as [->|Hn];
    [destruct (Nat.leb_spec (S d) d), (Nat.leb_spec d d), (Nat.ltb_spec d (d + S n)) | destruct (Nat.leb_spec (S b) d), (Nat.leb_spec b d), (Nat.ltb_spec d (S b + n)), (Nat.ltb_spec d (b + S n))];
    try reflexivity; lia.
Qed.
Lemma recvs_seq s : forall n b, recvs_from s (map (@Recv M) (seq b n)) = if (b <=? s) && (s <? b + n) then 1 else 0.
Proof.
  induction n as [|n IH]; intros b; cbn [seq map].
  - destruct (Nat.leb_spec b s), (Nat.ltb_spec s (b + 0)); try reflexivity; lia.
  - assert (E : recvs_from s (Recv b :: map (@Recv M) (seq (S b) n)) = (if b =? s then 1 else 0) + recvs_from s (map (@Recv M) (seq (S b) n))).
    { unfold recvs_from. cbn [filter]. now destruct (b =? s). }
    rewrite E, IH. clear E IH. destruct (Nat.eqb_spec b s) as [->|Hn];
    [destruct (Nat.leb_spec (S s) s), (Nat.leb_spec s s), (Nat.ltb_spec s (s + S n)) | destruct (Nat.leb_spec (S b) s), (Nat.leb_spec b s), (Nat.ltb_spec s (S b + n)), (Nat.ltb_spec s (b + S n))];
    try reflexivity; lia.
Qed.
End Lists.
Section Reader.
Variables (M : Type) (size : nat) (msg : nat -> nat -> nat -> M).
Notation prog := (reader_prog size msg).
Lemma reader_dst r a d x : In (Send d x) (prog r a) -> d < size.
Proof.
  unfold reader_prog. rewrite in_app_iff, !in_map_iff. intros [[s [E _]]|[d' [E H]]]; [discriminate|]. injection E as <- _. apply in_seq in H. lia.
Qed.
Lemma reader_src r a s : In (Recv s) (prog r a) -> s < size.
Proof.
  unfold reader_prog. rewrite in_app_iff, !in_map_iff. intros [[s' [E H]]|[d' [E H]]]; [|discriminate]. injection E as <-. apply in_seq in H. lia.
Qed.
Lemma reader_sends s d a : d < size -> sends_to d (prog s a) = [msg a s d].
Proof.
  intros Hd. unfold reader_prog. rewrite sends_app, sends_recv, sends_seq. destruct (Nat.leb_spec 0 d), (Nat.ltb_spec d (0 + size)); try reflexivity; lia.
Qed.
Lemma reader_recvs s d a : s < size -> recvs_from s (prog d a) = 1.
Proof.
  intros Hs. unfold reader_prog. rewrite recvs_app, (recvs_send s (fun d => d) (msg a d)), recvs_seq. destruct (Nat.leb_spec 0 s), (Nat.ltb_spec s (0 + size)); try reflexivity; lia.
Qed.
Lemma reader_bal s d a : s < size -> d < size -> length (sends_to d (prog s a)) = recvs_from s (prog d a).
Proof. intros Hs Hd. now rewrite reader_sends, reader_recvs. Qed.
Lemma reader_due r a : r < size -> due size prog r a = map (fun s => (s, msg a s r)) (seq 0 size).
Proof.
  intros Hr. unfold due. rewrite (flat_map_ext _ (fun s => [(s, msg a s r)])) by (intros s; now rewrite reader_sends).
  induction (seq 0 size) as [|s l IH]; [reflexivity|]. cbn. now rewrite IH.
Qed.
End Reader.

Section Modes.
Variables (M : Type) (size total : nat) (col : nat -> nat -> M).
Hypothesis Hsize : 0 < size.
Notation prog := (modes_prog size total col).
Notation range a := (seq (a * size) (Nat.min ((a + 1) * size) total - a * size)).
Lemma modes_dst r a d x : In (Send d x) (prog r a) -> d < size.
Proof.
  unfold modes_prog. rewrite in_flat_map. intros [i [_ H]]. destruct H as [E|H].
  - injection E as <- _. apply Nat.mod_upper_bound. lia.
  - destruct (r =? i mod size); [|destruct H]. apply in_map_iff in H as [s [E _]]. discriminate.
Qed.
Lemma modes_src r a s : In (Recv s) (prog r a) -> s < size.
Proof.
  unfold modes_prog. rewrite in_flat_map. intros [i [_ H]]. destruct H as [E|H]; [discriminate|].
  destruct (r =? i mod size); [|destruct H]. apply in_map_iff in H as [s' [E H]]. injection E as <-. apply in_seq in H. lia.
Qed.
Lemma sends_flat {X} d (f : X -> list (post M)) l : sends_to d (flat_map f l) = flat_map (fun x => sends_to d (f x)) l.
Proof. induction l as [|x l IH]; [reflexivity|]. cbn [flat_map]. now rewrite sends_app, IH. Qed.
Lemma flat_filter {X Y} (p : X -> bool) (g : X -> Y) l : flat_map (fun x => if p x then [g x] else []) l = map g (filter p l).
Proof. induction l as [|x l IH]; [reflexivity|]. cbn. destruct (p x); cbn; now rewrite IH. Qed.
Lemma modes_sends s d a : d < size -> sends_to d (prog s a) = if a * size + d <? total then [col s (a * size + d)] else [].
Proof.
  intros Hd. unfold modes_prog. rewrite sends_flat.
  rewrite (flat_map_ext _ (fun i => if d =? i mod size then [col s i] else [])).
  2:{ intros i. change (sends_to d (?p :: ?l)) with ((if i mod size =? d then [col s i] else []) ++ sends_to d l).
      assert (E : sends_to d (if s =? i mod size then map (@Recv M) (seq 0 size) else []) = []) by (destruct (s =? i mod size); [apply sends_recv|reflexivity]).
      rewrite E, app_nil_r, (Nat.eqb_sym (i mod size) d). reflexivity. }
  rewrite flat_filter, filter_mod_range; [|lia|lia|exact Hd].
  destruct (Nat.ltb_spec d (Nat.min ((a + 1) * size) total - a * size)), (Nat.ltb_spec (a * size + d) total); try reflexivity; lia.
Qed.
Lemma recvs_flat {X} s (f : X -> list (post M)) l : recvs_from s (flat_map f l) = list_sum (map (fun x => recvs_from s (f x)) l).
Proof. induction l as [|x l IH]; [reflexivity|]. cbn [flat_map]. rewrite recvs_app, IH. reflexivity. Qed.
Lemma sum_filter {X} (p : X -> bool) l : list_sum (map (fun x => if p x then 1 else 0) l) = length (filter p l).
Proof. induction l as [|x l IH]; [reflexivity|]. cbn. unfold list_sum in IH. rewrite IH. now destruct (p x). Qed.
Lemma modes_recvs s d a : s < size -> d < size -> recvs_from s (prog d a) = if a * size + d <? total then 1 else 0.
Proof.
  intros Hs Hd. unfold modes_prog. rewrite recvs_flat.
  rewrite (map_ext _ (fun i => if d =? i mod size then 1 else 0)).
  2:{ intros i. change (recvs_from s (Send (i mod size) (col d i) :: ?l)) with (recvs_from s l). destruct (d =? i mod size); [|reflexivity].
      rewrite recvs_seq. destruct (Nat.leb_spec 0 s), (Nat.ltb_spec s (0 + size)); try reflexivity; lia. }
  rewrite sum_filter, filter_mod_range; [|lia|lia|exact Hd].
  destruct (Nat.ltb_spec d (Nat.min ((a + 1) * size) total - a * size)), (Nat.ltb_spec (a * size + d) total); try reflexivity; lia.
Qed.
Lemma modes_bal s d a : s < size -> d < size -> length (sends_to d (prog s a)) = recvs_from s (prog d a).
Proof. intros Hs Hd. rewrite modes_sends, modes_recvs by assumption. now destruct (a * size + d <? total). Qed.
Lemma modes_due r a : r < size -> due size prog r a = if a * size + r <? total then map (fun s => (s, col s (a * size + r))) (seq 0 size) else [].
Proof.
  intros Hr. unfold due. rewrite (flat_map_ext _ (fun s => if a * size + r <? total then [(s, col s (a * size + r))] else [])).
  2:{ intros s. rewrite modes_sends by assumption. now destruct (a * size + r <? total). }
  destruct (a * size + r <? total); induction (seq 0 size) as [|s l IH]; try reflexivity; cbn; now rewrite IH.
Qed.
End Modes.


Lemma reader_ok M size R (msg : nat -> nat -> nat -> M) :
  (forall r a d x, r < size -> a < R -> In (Send d x) (reader_prog size msg r a) -> d < size) /\
  (forall r a s, r < size -> a < R -> In (Recv s) (reader_prog size msg r a) -> s < size) /\
  (forall s d a, s < size -> d < size -> a < R -> length (sends_to d (reader_prog size msg s a)) = recvs_from s (reader_prog size msg d a)).
Proof. repeat split; intros; [eapply reader_dst; eauto|eapply reader_src; eauto|now apply reader_bal]. Qed.
Lemma modes_ok M size total R (col : nat -> nat -> M) :
  (forall r a d x, r < size -> a < R -> In (Send d x) (modes_prog size total col r a) -> d < size) /\
  (forall r a s, r < size -> a < R -> In (Recv s) (modes_prog size total col r a) -> s < size) /\
  (forall s d a, s < size -> d < size -> a < R -> length (sends_to d (modes_prog size total col s a)) = recvs_from s (modes_prog size total col d a)).
Proof.
  repeat split; intros.
  - assert (Hs : 0 < size) by lia. eapply modes_dst; eassumption.
  - assert (Hs : 0 < size) by lia. eapply modes_src; eassumption.
  - assert (Hs : 0 < size) by lia. now apply modes_bal.
Qed.
Lemma sum_same {X} c (f : X -> nat) l : (forall x, In x l -> f x = c) -> list_sum (map f l) = c * length l.
Proof. intros H. rewrite (map_ext_in f (fun _ => c)) by exact H. apply list_sum_const. Qed.

(* ---------- C125: the exchanges complete ---------- *)
Theorem C125_reader_exchange_never_deadlocks : forall M size R (msg : nat -> nat -> nat -> M) n st,
  steps size R (reader_prog size msg) n st ->
  (* while a process has not finished all chunks, some process can go on or some message can arrive, even if MPI buffers nothing *)
  (~ finished size R st -> exists l st', step size R (reader_prog size msg) st l st' /\ match l with Buffer _ _ _ => False | _ => True end) /\
  (* an execution that cannot go on is one in which every process has finished *)
  ((forall l st', ~ step size R (reader_prog size msg) st l st') <-> finished size R st) /\
  (* and every execution ends: every process posts 2 size requests and waits twice per chunk, every message arrives once and is buffered at most once *)
  n <= R * size * (2 * size + 2) + 2 * (R * size * size).
Proof.
  intros M size R msg n st H. destruct (reader_ok size R msg) as (D & S & B).
  pose proof (inv_steps D S B H) as Hi. split; [exact (progress D S B Hi)|]. split; [split; [exact (stuck_finished D S B H)|exact (finished_stuck D S B H)]|].
  etransitivity; [exact (steps_bound D S B H)|]. unfold total_instr, total_msgs.
  assert (E1 : list_sum (map (fun r => list_sum (map (fun b => length (reader_prog size msg r b) + 2) (seq 0 R))) (seq 0 size)) = (2 * size + 2) * R * size).
  { erewrite (@sum_same _ ((2 * size + 2) * R)); [now rewrite seq_length|]. intros r _. erewrite (@sum_same _ (2 * size + 2)); [now rewrite seq_length|].
    intros b _. unfold reader_prog. rewrite app_length, !map_length, seq_length. lia. }
  assert (E2 : list_sum (map (fun s => list_sum (map (fun d => length (sends_to d (before (reader_prog size msg) s R))) (seq 0 size))) (seq 0 size)) = R * size * size).
  { erewrite (@sum_same _ (R * size)); [now rewrite seq_length|]. intros s _. erewrite (@sum_same _ R); [now rewrite seq_length|].
    intros d Hd. apply in_seq in Hd. clear - Hd. induction R as [|R' IH]; [reflexivity|]. rewrite before_S, sends_app, app_length, IH, reader_sends by lia. cbn. lia. }
  rewrite E1, E2. lia.
Qed.
Print Assumptions C125_reader_exchange_never_deadlocks.

Theorem C125_mode_exchange_never_deadlocks : forall M size total R (col : nat -> nat -> M) n st,
  steps size R (modes_prog size total col) n st ->
  (~ finished size R st -> exists l st', step size R (modes_prog size total col) st l st' /\ match l with Buffer _ _ _ => False | _ => True end) /\
  ((forall l st', ~ step size R (modes_prog size total col) st l st') <-> finished size R st) /\
  (* at most size sends and, for its own file, size receives per process and pass; one message per process and file *)
  n <= R * size * (2 * size + 2) + 2 * (R * size * size).
Proof.
  intros M size total R col n st H. destruct (modes_ok size total R col) as (D & S & B).
  pose proof (inv_steps D S B H) as Hi. split; [exact (progress D S B Hi)|]. split; [split; [exact (stuck_finished D S B H)|exact (finished_stuck D S B H)]|].
  etransitivity; [exact (steps_bound D S B H)|]. unfold total_instr, total_msgs.
  destruct (Nat.eq_dec size 0) as [->|Hs]; [cbn; lia|].
  assert (E1 : list_sum (map (fun r => list_sum (map (fun b => length (modes_prog size total col r b) + 2) (seq 0 R))) (seq 0 size)) <= (2 * size + 2) * R * size).
  { transitivity (list_sum (map (fun _ : nat => (2 * size + 2) * R) (seq 0 size))); [|rewrite list_sum_const, seq_length; lia].
    apply list_sum_le. intros r Hr. apply in_seq in Hr. transitivity (list_sum (map (fun _ : nat => 2 * size + 2) (seq 0 R))); [|rewrite list_sum_const, seq_length; lia].
    apply list_sum_le. intros b _. unfold modes_prog. rewrite length_flat_map. cbn [length].
    set (w := Nat.min ((b + 1) * size) total - b * size). assert (Hw : w <= size) by (unfold w; lia).
    rewrite (map_ext _ (fun i => 1 + size * (if r =? i mod size then 1 else 0))).
    2:{ intros i. destruct (r =? i mod size); cbn [length]; rewrite ?map_length, ?seq_length; lia. }
    assert (Z : forall l, list_sum (map (fun i => 1 + size * (if r =? i mod size then 1 else 0)) l) = length l + size * list_sum (map (fun i => if r =? i mod size then 1 else 0) l)).
    { induction l as [|i l IH]; [cbn; lia|]. cbn [map length]. change (list_sum (?x :: ?y)) with (x + list_sum y). rewrite IH. destruct (r =? i mod size); lia. }
    rewrite Z, sum_filter, filter_mod_range, seq_length by lia. destruct (r <? w); cbn [length]; lia. }
  assert (E2 : list_sum (map (fun s => list_sum (map (fun d => length (sends_to d (before (modes_prog size total col) s R))) (seq 0 size))) (seq 0 size)) <= R * size * size).
  { transitivity (list_sum (map (fun _ : nat => R * size) (seq 0 size))); [|rewrite list_sum_const, seq_length; lia].
    apply list_sum_le. intros s _. transitivity (list_sum (map (fun _ : nat => R) (seq 0 size))); [|rewrite list_sum_const, seq_length; lia].
    apply list_sum_le. intros d Hd. apply in_seq in Hd. clear - Hd Hs. induction R as [|R' IH]; [cbn; lia|]. rewrite before_S, sends_app, app_length, modes_sends by lia.
    destruct (R' * size + d <? total); cbn [length]; lia. }
  lia.
Qed.
Print Assumptions C125_mode_exchange_never_deadlocks.

(* non-vacuity: from the start a process can post its first request; three processes, two chunks, is a non-trivial system *)
Example C125_starts : exists st, steps 3 2 (reader_prog 3 (fun c s d => (c, s, d))) 1 st /\ ~ finished 3 2 st.
Proof.
  eexists. split; [eapply StepsS; [constructor|]; eapply (@SPost _ 3 2 _ _ 1 0 0); cbn; auto; lia|].
  intros F. specialize (F 0 ltac:(lia)). cbn in F. discriminate.
Qed.
(* ... and every execution can be continued to one in which every process has finished *)
Lemma can_finish M size R (prog : nat -> nat -> list (post M)) B :
  (forall n st, steps size R prog n st -> ~ finished size R st -> exists l st', step size R prog st l st') ->
  (forall n st, steps size R prog n st -> n <= B) ->
  forall n st, steps size R prog n st -> exists n' st', steps size R prog n' st' /\ finished size R st'.
Proof.
  intros Hp Hb.
  assert (HH : forall m n st, steps size R prog n st -> B < n + m -> exists n' st', steps size R prog n' st' /\ finished size R st').
  { induction m as [|m IH]; intros n st H Hm; [specialize (Hb n st H); lia|].
    assert (Hdec : finished size R st \/ ~ finished size R st).
    { destruct (@dec_bounded size (fun r => pos st r = (R, 0))) as [A|[r [Hr A]]].
      - intros r _. destruct (pos st r) as [a j]. destruct (Nat.eq_dec a R) as [->|], (Nat.eq_dec j 0) as [->|]; [now left|right; intros E; injection E; lia..].
      - now left.
      - right. intros F. apply A, F, Hr. }
    destruct Hdec as [F|F]; [eauto|]. destruct (Hp n st H F) as (l & st' & Hst). apply (IH (S n) st'); [eapply StepsS; eauto|lia]. }
  intros n st H. apply (HH (S B) n st H). lia.
Qed.
Theorem C125_exchanges_finish : forall M size total R (msg : nat -> nat -> nat -> M) (col : nat -> nat -> M),
  (exists n st, steps size R (reader_prog size msg) n st /\ finished size R st) /\
  (exists n st, steps size R (modes_prog size total col) n st /\ finished size R st).
Proof.
  intros. split.
  - apply (@can_finish M size R (reader_prog size msg) (R * size * (2 * size + 2) + 2 * (R * size * size))) with (n := 0) (st := start M); [| |constructor].
    + intros n st H F. destruct (proj1 (C125_reader_exchange_never_deadlocks H) F) as (l & st' & Hst & _). eauto.
    + intros n st H. apply (C125_reader_exchange_never_deadlocks H).
  - apply (@can_finish M size R (modes_prog size total col) (R * size * (2 * size + 2) + 2 * (R * size * size))) with (n := 0) (st := start M); [| |constructor].
    + intros n st H F. destruct (proj1 (C125_mode_exchange_never_deadlocks H) F) as (l & st' & Hst & _). eauto.
    + intros n st H. apply (C125_mode_exchange_never_deadlocks H).
Qed.
Print Assumptions C125_exchanges_finish.

(* ---------- C126: what has arrived when a chunk or a pass is over ---------- *)
(* out st r: for every chunk (pass) process r has finished, the messages it received in it, in order of arrival *)
Theorem C126_reader_arrivals : forall M size R (msg : nat -> nat -> nat -> M) n st r c,
  steps size R (reader_prog size msg) n st -> r < size -> c < fst (pos st r) ->
  exists order, Permutation order (seq 0 size) /\ nth_error (out st r) c = Some (map (fun s => (s, msg c s r)) order).
Proof.
  intros M size R msg n st r c H Hr Hc. destruct (reader_ok size R msg) as (D & S & B).
  destruct (@inv_out _ _ _ _ st (inv_steps D S B H) r Hr) as [L P]. specialize (P c Hc). rewrite reader_due in P by exact Hr.
  apply Permutation_map_inv in P as (order & E & P). exists order. split; [now apply Permutation_sym|].
  rewrite <- E. apply nth_error_nth'. lia.
Qed.
Print Assumptions C126_reader_arrivals.

Theorem C126_mode_arrivals : forall M size total R (col : nat -> nat -> M) n st r p,
  steps size R (modes_prog size total col) n st -> r < size -> p < fst (pos st r) ->
  (* the process that writes file p*size+r has its column from every process, the others nothing *)
  (p * size + r < total -> exists order, Permutation order (seq 0 size) /\ nth_error (out st r) p = Some (map (fun s => (s, col s (p * size + r))) order)) /\
  (total <= p * size + r -> nth_error (out st r) p = Some []).
Proof.
  intros M size total R col n st r p H Hr Hc. destruct (modes_ok size total R col) as (D & S & B).
  destruct (@inv_out _ _ _ _ st (inv_steps D S B H) r Hr) as [L P]. specialize (P p Hc). rewrite modes_due in P by lia.
  destruct (Nat.ltb_spec (p * size + r) total) as [Ht|Ht]; split; intros Ht'; try lia.
  - apply Permutation_map_inv in P as (order & E & P). exists order. split; [now apply Permutation_sym|].
    rewrite <- E. apply nth_error_nth'. lia.
  - apply Permutation_sym, Permutation_nil in P. rewrite <- P. apply nth_error_nth'. lia.
Qed.
Print Assumptions C126_mode_arrivals.

(* the data of chunk c on process r after the exchange: its points of the rows of the chunk, in row order.
   rows c: the rows of chunk c; input c q: those process q has read (its block of the readers' distribution) *)
Theorem C126_chunk_data_independent_of_schedule :
  forall A (zero : A) size nreaders nxyz nv R (rows : nat -> list (list A)) (input : nat -> nat -> list (list A)) n st r c arrivals,
  0 < nreaders <= size -> r < size ->
  (forall c row, c < R -> In row (rows c) -> length row = nxyz * nv) ->
  (forall c q, c < R -> q < size -> input c q = window (bd_s (length (rows c)) nreaders q) (bd_n (length (rows c)) nreaders q) (rows c)) ->
  steps size R (reader_prog size (fun c s d => message size nxyz nv (input c) s d)) n st ->
  nth_error (out st r) c = Some arrivals ->
  chunk_data zero size nreaders nxyz nv (length (rows c)) r arrivals = concat (map (own_points nxyz nv size r) (rows c)).
Proof.
  intros A zero size nreaders nxyz nv R rows input n st r c arrivals Hn Hr Hrow Hin H Harr.
  destruct (reader_ok size R (fun c s d => message size nxyz nv (input c) s d)) as (D & S & B).
  pose proof (inv_steps D S B H) as Hi. destruct (@inv_out _ _ _ _ st Hi r Hr) as [L _].
  assert (Hc : c < fst (pos st r)) by (rewrite <- L; apply nth_error_Some; congruence).
  assert (HcR : c < R) by (destruct (@inv_pos _ _ _ _ st Hi r Hr) as [[V _]|V]; [lia|rewrite V in Hc; exact Hc]).
  destruct (C126_reader_arrivals H Hr Hc) as (order & P & E). rewrite E in Harr. injection Harr as <-.
  rewrite <- (@receive_all_spec A zero size nreaders nxyz nv (input c) (rows c) (length (rows c)) r order Hn Hr eq_refl (fun row => Hrow c row HcR) (fun q => Hin c q HcR) P).
  unfold chunk_data, place_all, receive_all. generalize (repeat zero (length (rows c) * (fst (blockdist nxyz size r) * nv))). clear.
  induction order as [|q order IH]; intros init; [reflexivity|]. cbn [map fold_left fst snd]. apply IH.
Qed.
Print Assumptions C126_chunk_data_independent_of_schedule.

(* the file assembled by process r in pass p, if it has one: the pieces of all processes of the mode, in process order *)
Theorem C126_mode_file_independent_of_schedule :
  forall A (zero : A) size n_freq n_modes (phi : nat -> nat -> nat -> list A) n st r p arrivals f m,
  0 < n_modes -> r < size ->
  (forall s f m, s < size -> f < n_freq -> m < n_modes -> length (phi s f m) = length (phi s 0 0)) ->
  steps size (n_passes size n_freq n_modes) (modes_prog size (n_freq * n_modes) (fun s i => padded zero size phi s (i / n_modes) (i mod n_modes))) n st ->
  nth_error (out st r) p = Some arrivals ->
  p * size + r = f * n_modes + m -> f < n_freq -> m < n_modes ->
  mode_data zero size phi arrivals = concat (map (fun s => phi s f m) (seq 0 size)).
Proof.
  intros A zero size n_freq n_modes phi n st r p arrivals f m Hm Hr Hphi H Harr Hfm Hf Hm'.
  set (col := fun s i => padded zero size phi s (i / n_modes) (i mod n_modes)) in *.
  destruct (modes_ok size (n_freq * n_modes) (n_passes size n_freq n_modes) col) as (D & S & B).
  pose proof (inv_steps D S B H) as Hi. destruct (@inv_out _ _ _ _ st Hi r Hr) as [L _].
  assert (Hc : p < fst (pos st r)) by (rewrite <- L; apply nth_error_Some; congruence).
  assert (Ht : p * size + r < n_freq * n_modes) by (rewrite Hfm; nia).
  destruct (proj1 (C126_mode_arrivals H Hr Hc) Ht) as (order & P & E). rewrite E in Harr. injection Harr as <-.
  assert (Ef : (p * size + r) / n_modes = f) by (rewrite Hfm, Nat.div_add_l, Nat.div_small by lia; lia).
  assert (Em : (p * size + r) mod n_modes = m) by (rewrite Hfm, Nat.add_comm, Nat.mod_add, Nat.mod_small by lia; lia).
  assert (Epf : pass_file zero size n_freq n_modes phi p r order = Some (f, m, mode_data zero size phi (map (fun s => (s, col s (p * size + r))) order))).
  { unfold pass_file. rewrite pass_write_eq by lia. unfold total_files. apply Nat.ltb_lt in Ht as Ht'. rewrite Ht', Ef, Em. f_equal. f_equal.
    unfold mode_data, buffer, place_all. do 2 f_equal. generalize (repeat zero (phi0_max size phi * size)). clear - Hr Ht Hm Hphi.
    induction order as [|q order IH]; intros init; [reflexivity|]. cbn [map fold_left fst snd]. rewrite received by (assumption || (unfold total_files; lia)). apply IH. }
  rewrite pass_file_eq in Epf by (assumption || lia).
  unfold total_files in Epf. apply Nat.ltb_lt in Ht as Ht'. rewrite Ht' in Epf. injection Epf as _ _ Epf. rewrite Ef, Em in Epf. symmetry. exact Epf.
Qed.
Print Assumptions C126_mode_file_independent_of_schedule.

(* non-vacuity: 3 processes of which 2 read, 2 chunks of 3 and 2 rows of 4 points: there is an execution in which process 1 has
   finished both chunks, and then it holds points 2 of the rows *)
Definition Ex_rows (c : nat) : list (list nat) := if c =? 0 then [[0;1;2;3]; [10;11;12;13]; [20;21;22;23]] else [[30;31;32;33]; [40;41;42;43]].
Definition Ex_input (c q : nat) : list (list nat) := window (bd_s (length (Ex_rows c)) 2 q) (bd_n (length (Ex_rows c)) 2 q) (Ex_rows c).
Example C126_case : exists n st a0 a1,
  steps 3 2 (reader_prog 3 (fun c s d => message 3 4 1 (Ex_input c) s d)) n st /\ out st 1 = [a0; a1] /\
  chunk_data 0 3 2 4 1 (length (Ex_rows 0)) 1 a0 = [2; 12; 22] /\ chunk_data 0 3 2 4 1 (length (Ex_rows 1)) 1 a1 = [32; 42].
Proof.
  destruct (proj1 (C125_exchanges_finish 3 0 2 (fun c s d => message 3 4 1 (Ex_input c) s d) (fun _ _ => []))) as (n & st & H & F).
  destruct (reader_ok 3 2 (fun c s d => message 3 4 1 (Ex_input c) s d)) as (D & S & B).
  destruct (@inv_out _ _ _ _ st (inv_steps D S B H) 1 ltac:(lia)) as [L _]. rewrite (F 1 ltac:(lia)) in L. cbn in L.
  destruct (out st 1) as [|a0 [|a1 [|]]] eqn:E; try discriminate. exists n, st, a0, a1. split; [exact H|]. split; [exact E|].
  assert (R1 : forall c row, c < 2 -> In row (Ex_rows c) -> length row = 4 * 1).
  { intros c row _. unfold Ex_rows. destruct (c =? 0); cbn; intuition (subst; reflexivity). }
  split.
  - rewrite (@C126_chunk_data_independent_of_schedule nat 0 3 2 4 1 2 Ex_rows Ex_input n st 1 0 a0); [reflexivity|lia|lia|exact R1|reflexivity|exact H|now rewrite E].
  - rewrite (@C126_chunk_data_independent_of_schedule nat 0 3 2 4 1 2 Ex_rows Ex_input n st 1 1 a1); [reflexivity|lia|lia|exact R1|reflexivity|exact H|now rewrite E].
Qed.
