(* C146: turning the Fourier coefficients loses none and needs room for one extra frequency only. *)
From Verif Require Import Base_List Model_Flip.
Set Implicit Arguments.

Lemma lookup_map {X} (F : nat -> X) k : forall n s, s <= k < s + n -> lookup (map (fun i => (i, F i)) (seq s n)) k = Ok (F k).
Proof.
  induction n as [|n IH]; intros s H; [lia|]. cbn [seq map lookup]. destruct (Nat.eqb_spec s k) as [->|Hn]; [reflexivity|]. apply IH. lia.
Qed.
Lemma store_map {X} (F : nat -> X) k x : forall n s, s <= k < s + n ->
  store (map (fun i => (i, F i)) (seq s n)) k x = map (fun i => (i, if i =? k then x else F i)) (seq s n).
Proof.
  induction n as [|n IH]; intros s H; [lia|]. cbn [seq map store]. destruct (Nat.eqb_spec s k) as [->|Hn].
  - f_equal. apply map_ext_in. intros i Hi. apply in_seq in Hi. now replace (i =? k) with false by lia.
  - f_equal. apply IH. lia.
Qed.
Lemma store_new {X} (F : nat -> X) k x : forall n s, s + n <= k -> store (map (fun i => (i, F i)) (seq s n)) k x = map (fun i => (i, F i)) (seq s n) ++ [(k, x)].
Proof.
  induction n as [|n IH]; intros s H; [reflexivity|]. cbn [seq map store]. replace (s =? k) with false by lia. cbn [app]. f_equal. apply IH. lia.
Qed.
Lemma store_last {X} (F : nat -> X) k x y : forall n s, s + n <= k -> store (map (fun i => (i, F i)) (seq s n) ++ [(k, x)]) k y = map (fun i => (i, F i)) (seq s n) ++ [(k, y)].
Proof.
  induction n as [|n IH]; intros s H; cbn [seq map app store]; [now rewrite Nat.eqb_refl|]. replace (s =? k) with false by lia. f_equal. apply IH. lia.
Qed.
Lemma lookup_last {X} (F : nat -> X) k x : forall n s, s + n <= k -> lookup (map (fun i => (i, F i)) (seq s n) ++ [(k, x)]) k = Ok x.
Proof.
  induction n as [|n IH]; intros s H; cbn [seq map app lookup]; [now rewrite Nat.eqb_refl|]. replace (s =? k) with false by lia. apply IH. lia.
Qed.
Lemma lookup_old {X} (F : nat -> X) k j x : forall n s, s <= j < s + n -> lookup (map (fun i => (i, F i)) (seq s n) ++ [(k, x)]) j = Ok (F j).
Proof.
  induction n as [|n IH]; intros s H; cbn [seq map app lookup]; [lia|]. destruct (Nat.eqb_spec s j) as [->|Hn]; [reflexivity|]. apply IH. lia.
Qed.
Lemma fold_store {X} (F : nat -> X) : forall n s m, fold_left (fun e f => store e f (F f)) (seq (s + m) n) (map (fun i => (i, F i)) (seq s m)) = map (fun i => (i, F i)) (seq s (m + n)).
Proof.
  induction n as [|n IH]; intros s m; cbn [seq fold_left]; [now rewrite Nat.add_0_r|].
  rewrite store_new by lia. replace (map (fun i => (i, F i)) (seq s m) ++ [(s + m, F (s + m))]) with (map (fun i => (i, F i)) (seq s (S m))) by (rewrite seq_S, map_app; reflexivity).
  replace (S (s + m)) with (s + S m) by lia. rewrite IH. now replace (S m + n) with (m + S n) by lia.
Qed.


Section S.
Variable V : Type.
Variable zero : V.
Variables (n_freq n_blocks xv : nat) (q : nat -> nat -> list V).
Hypothesis Hq : forall b f, b < n_blocks -> f < n_freq -> length (q b f) = xv.
Notation st := (st V).

(* the blocks still holding the frequencies from (from b) on *)
Definition rest (from : nat -> nat) : dict (dict (list V)) := map (fun b => (b, map (fun f => (f, q b f)) (seq (from b) (n_freq - from b)))) (seq 0 n_blocks).
Definition ready (f : nat) : dict (list (list V)) := map (fun g => (g, map (fun b => q b g) (seq 0 n_blocks))) (seq 0 f).
Definition part (k f : nat) : list (list V) := map (fun b => q b f) (seq 0 k) ++ repeat (repeat zero xv) (n_blocks - k).
Definition clean (f : nat) : st := St (rest (fun _ => f)) (ready f).
Definition filling (f k : nat) : st := St (rest (fun _ => f)) (ready f ++ [(f, part k f)]).
Definition dropping (f k : nat) : st := St (rest (fun b => if b <? k then S f else f)) (ready (S f)).

Lemma blocks_of_rest : blocks_of n_blocks n_freq q = rest (fun _ => 0).
Proof. clear Hq.
  unfold blocks_of, rest.
  rewrite (map_ext (fun b => (b, map (fun f => (f, q b f)) (seq 0 (n_freq - 0)))) (fun b => (b, (fun b => fold_left (fun e f => store e f (q b f)) (seq 0 n_freq) []) b))).
  - exact (@fold_store _ (fun b => fold_left (fun e f => store e f (q b f)) (seq 0 n_freq) []) n_blocks 0 0).
  - intros b. f_equal. rewrite Nat.sub_0_r. symmetry. exact (@fold_store _ (q b) n_freq 0 0).
Qed.
Lemma step_new f : step zero xv n_blocks (New f) (clean f) = Ok (filling f 0).
Proof. clear Hq. cbn [step clean per_block per_freq]. unfold ready at 1. rewrite store_new by lia. unfold filling, ready, part. now rewrite Nat.sub_0_r. Qed.
Lemma lookup_rest from b : b < n_blocks -> lookup (rest from) b = Ok (map (fun f => (f, q b f)) (seq (from b) (n_freq - from b))).
Proof. clear Hq. intros H. unfold rest. now rewrite (@lookup_map _ (fun b => map (fun f => (f, q b f)) (seq (from b) (n_freq - from b)))) by lia. Qed.
Lemma upd_mid {X} (l : list X) x y r : upd_nth (length l) y (l ++ x :: r) = l ++ y :: r.
Proof. induction l as [|z l IH]; cbn; [reflexivity|]. now rewrite IH. Qed.
Lemma step_fill f k : f < n_freq -> k < n_blocks -> step zero xv n_blocks (Fill f k) (filling f k) = Ok (filling f (S k)).
Proof.
  intros Hf Hk. cbn [step filling per_block per_freq]. rewrite lookup_rest by assumption. cbn [bind]. rewrite (@lookup_map _ (q k)) by lia. cbn [bind].
  unfold ready at 1. rewrite (@lookup_last _ (fun g => map (fun b => q b g) (seq 0 n_blocks))) by lia. cbn [bind]. replace (k <? n_blocks) with true by lia.
  unfold assign. rewrite Hq, Nat.eqb_refl by assumption. cbn [bind]. unfold ready at 1. rewrite (@store_last _ (fun g => map (fun b => q b g) (seq 0 n_blocks))) by lia.
  unfold filling. f_equal. f_equal. unfold ready. f_equal. f_equal. f_equal. unfold part.
  replace (n_blocks - k) with (S (n_blocks - S k)) by lia. cbn [repeat].
  assert (L : length (map (fun b => q b f) (seq 0 k)) = k) by now rewrite map_length, seq_length. rewrite <- L at 1. rewrite upd_mid, seq_S, map_app, <- app_assoc. reflexivity.
Qed.
Lemma filled f : filling f n_blocks = dropping f 0.
Proof. clear Hq.
  unfold filling, dropping. f_equal. unfold ready, part. rewrite Nat.sub_diag, seq_S, map_app. cbn [repeat map]. now rewrite app_nil_r.
Qed.
Lemma delete_hd {X} (F : nat -> X) s n : 0 < n -> delete (map (fun i => (i, F i)) (seq s n)) s = Ok (map (fun i => (i, F i)) (seq (S s) (n - 1))).
Proof. destruct n as [|n]; [lia|]. intros _. cbn [seq map delete]. rewrite Nat.eqb_refl. now rewrite Nat.sub_succ, Nat.sub_0_r. Qed.
Lemma step_drop f k : f < n_freq -> k < n_blocks -> step zero xv n_blocks (Drop k f) (dropping f k) = Ok (dropping f (S k)).
Proof.
  intros Hf Hk. cbn [step dropping per_block per_freq]. rewrite lookup_rest by assumption. cbn [bind]. rewrite Nat.ltb_irrefl.
  rewrite (@delete_hd _ (q k)) by lia. cbn [bind]. unfold dropping. f_equal. f_equal. unfold rest.
  rewrite (@store_map _ (fun b => map (fun f0 => (f0, q b f0)) (seq (if b <? k then S f else f) (n_freq - (if b <? k then S f else f))))) by lia.
  apply map_ext_in. intros b Hb. f_equal. destruct (Nat.eqb_spec b k) as [->|Hn].
  - replace (k <? S k) with true by lia. f_equal. f_equal. lia.
  - destruct (Nat.ltb_spec b k), (Nat.ltb_spec b (S k)); try lia; reflexivity.
Qed.
Lemma dropped f : dropping f n_blocks = clean (S f).
Proof.
  unfold dropping, clean. f_equal. unfold rest. apply map_ext_in. intros b Hb. apply in_seq in Hb. now replace (b <? n_blocks) with true by lia.
Qed.

Lemma run_app (P : st -> Prop) ops1 ops2 : forall s s1 tr1, run zero xv n_blocks ops1 s = (tr1, Ok s1) -> Forall P tr1 ->
  forall tr2 r, run zero xv n_blocks ops2 s1 = (tr2, r) -> Forall P tr2 -> exists tr, run zero xv n_blocks (ops1 ++ ops2) s = (tr, r) /\ Forall P tr.
Proof.
  induction ops1 as [|o ops1 IH]; intros s s1 tr1 H1 HP tr2 r H2 HP2; cbn [run app] in *.
  - injection H1 as <- <-. eauto.
  - destruct (step zero xv n_blocks o s) as [s'|e]; [|discriminate]. destruct (run zero xv n_blocks ops1 s') as [t1 r1] eqn:E.
    injection H1 as <- ->. inversion HP as [|? ? Ha Hc]; subst. destruct (IH _ _ _ E Hc _ _ H2 HP2) as (tr & -> & HT). eexists. split; [reflexivity|]. now constructor.
Qed.
Lemma run_map (P : st -> Prop) (o : nat -> op) (S0 : nat -> st) m : (forall k, k < m -> step zero xv n_blocks (o k) (S0 k) = Ok (S0 (S k))) -> (forall k, k <= m -> P (S0 k)) ->
  forall k, k <= m -> exists tr, run zero xv n_blocks (map o (seq k (m - k))) (S0 k) = (tr, Ok (S0 m)) /\ Forall P tr.
Proof.
  intros Hs HP. assert (G : forall j k, k + j = m -> exists tr, run zero xv n_blocks (map o (seq k j)) (S0 k) = (tr, Ok (S0 m)) /\ Forall P tr).
  { induction j as [|j IH]; intros k E; cbn [seq map run].
    - replace k with m by lia. eexists. split; [reflexivity|]. constructor; [apply HP; lia|constructor].
    - rewrite Hs by lia. destruct (IH (S k) ltac:(lia)) as (tr & -> & HT). eexists. split; [reflexivity|]. constructor; [apply HP; lia|assumption]. }
  intros k Hk. apply G. lia.
Qed.

Section Run.
Variable P : st -> Prop.
Hypothesis P_clean : forall f, f <= n_freq -> P (clean f).
Hypothesis P_filling : forall f k, f < n_freq -> k <= n_blocks -> P (filling f k).
Hypothesis P_dropping : forall f k, f < n_freq -> k <= n_blocks -> P (dropping f k).
Lemma run_one f : f < n_freq -> exists tr, run zero xv n_blocks (New f :: map (Fill f) (seq 0 n_blocks) ++ map (fun b => Drop b f) (seq 0 n_blocks)) (clean f) = (tr, Ok (clean (S f))) /\ Forall P tr.
Proof.
  intros Hf. cbn [run]. rewrite step_new.
  destruct (@run_map P (Fill f) (filling f) n_blocks (fun k Hk => step_fill Hf Hk) (fun k Hk => P_filling Hf Hk) 0 ltac:(lia)) as (t1 & E1 & F1).
  destruct (@run_map P (fun b => Drop b f) (dropping f) n_blocks (fun k Hk => step_drop Hf Hk) (fun k Hk => P_dropping Hf Hk) 0 ltac:(lia)) as (t2 & E2 & F2).
  rewrite Nat.sub_0_r in E1, E2. rewrite filled in E1. destruct (@run_app P _ _ _ _ _ E1 F1 _ _ E2 F2) as (tr & -> & F). rewrite dropped. eexists. split; [reflexivity|].
  constructor; [apply P_clean; lia|exact F].
Qed.
Lemma run_all : forall j f, f + j = n_freq ->
  exists tr, run zero xv n_blocks (flat_map (fun f => New f :: map (Fill f) (seq 0 n_blocks) ++ map (fun b => Drop b f) (seq 0 n_blocks)) (seq f j)) (clean f) = (tr, Ok (clean n_freq)) /\ Forall P tr.
Proof.
  induction j as [|j IH]; intros f E; cbn [seq flat_map].
  - cbn [run]. replace f with n_freq by lia. eexists. split; [reflexivity|]. constructor; [apply P_clean; lia|constructor].
  - destruct (@run_one f ltac:(lia)) as (t1 & E1 & F1), (IH (S f) ltac:(lia)) as (t2 & E2 & F2). exact (@run_app P _ _ _ _ _ E1 F1 _ _ E2 F2).
Qed.
End Run.

Lemma flip_run (P : st -> Prop) : 0 < n_blocks -> 0 < n_freq ->
  (forall f, f <= n_freq -> P (clean f)) -> (forall f k, f < n_freq -> k <= n_blocks -> P (filling f k)) -> (forall f k, f < n_freq -> k <= n_blocks -> P (dropping f k)) ->
  exists tr, flip zero n_freq n_blocks (blocks_of n_blocks n_freq q) = (tr, Ok (ready n_freq)) /\ Forall P tr.
Proof.
  intros Hb Hf P1 P2 P3. rewrite blocks_of_rest. destruct (@run_all P P1 P2 P3 n_freq 0 eq_refl) as (tr & E & F). exists tr. split; [|exact F].
  assert (RV : forall X (F : nat -> X) m, 0 < m -> rev (map F (seq 0 m)) = F (m - 1) :: rev (map F (seq 0 (m - 1)))).
  { intros X G m Hm. replace m with (S (m - 1)) at 1 by lia. rewrite seq_S, map_app, rev_app_distr. reflexivity. }
  unfold flip. assert (R1 : rev (rest (fun _ => 0)) = (n_blocks - 1, map (fun f => (f, q (n_blocks - 1) f)) (seq 0 (n_freq - 0))) :: rev (map (fun b => (b, map (fun f => (f, q b f)) (seq 0 (n_freq - 0)))) (seq 0 (n_blocks - 1)))) by (unfold rest; now rewrite RV).
  rewrite R1, Nat.sub_0_r, RV by assumption.
  rewrite Hq by lia. unfold program. replace (map fst (rest (fun _ => 0))) with (seq 0 n_blocks).
  - unfold clean in E at 1. change (ready 0) with (@nil (nat * list (list V))) in E. rewrite E. reflexivity.
  - unfold rest. rewrite map_map. cbn [fst]. now rewrite map_id.
Qed.

(* counting *)
Lemma sum_const {X} (F : X -> nat) k l : (forall x, In x l -> F x = k) -> sum (map F l) = length l * k.
Proof. induction l as [|x l IH]; intros H; [reflexivity|]. cbn [map length]. rewrite sum_cons, IH, (H x); [lia|now left|intros; apply H; now right]. Qed.
Lemma rest_values from : (forall b, from b <= n_freq) ->
  sum (map (fun be => sum (map (fun fv => length (snd fv)) (snd be))) (rest from)) = sum (map (fun b => (n_freq - from b) * xv) (seq 0 n_blocks)).
Proof.
  intros Hb. unfold rest. rewrite map_map. f_equal. apply map_ext_in. intros b Hin. apply in_seq in Hin. cbn [snd]. rewrite map_map. cbn [snd].
  rewrite (@sum_const _ _ xv); [now rewrite seq_length|]. intros f Hf. apply in_seq in Hf. apply Hq; [lia|]. specialize (Hb b). lia.
Qed.
Lemma ready_values f : f <= n_freq -> sum (map (fun fm => sum (map (@length V) (snd fm))) (ready f)) = f * (n_blocks * xv).
Proof.
  intros Hf. unfold ready. rewrite map_map. cbn [snd]. rewrite (@sum_const _ _ (n_blocks * xv)); [now rewrite seq_length|]. intros g Hg. apply in_seq in Hg.
  rewrite map_map. rewrite (@sum_const _ _ xv); [now rewrite seq_length|]. intros b Hb. apply in_seq in Hb. apply Hq; lia.
Qed.
Lemma part_values k f : f < n_freq -> k <= n_blocks -> sum (map (@length V) (part k f)) = n_blocks * xv.
Proof.
  intros Hf Hk. unfold part. rewrite map_app, sum_app, map_map. rewrite (@sum_const _ _ xv) by (intros b Hb; apply in_seq in Hb; apply Hq; lia).
  rewrite (@sum_const _ _ xv) by (intros l Hl; apply repeat_spec in Hl; subst; apply repeat_length). rewrite seq_length, repeat_length, <- Nat.mul_add_distr_r. f_equal. lia.
Qed.
Lemma clean_values f : f <= n_freq -> values (clean f) = n_freq * n_blocks * xv.
Proof.
  intros Hf. unfold values, clean. cbn [per_block per_freq]. rewrite rest_values by auto. rewrite ready_values by assumption.
  rewrite (@sum_const _ _ ((n_freq - f) * xv)) by auto. rewrite seq_length.
  replace (n_blocks * ((n_freq - f) * xv)) with ((n_freq - f) * (n_blocks * xv)) by lia. rewrite <- Nat.mul_add_distr_r. replace (n_freq - f + f) with n_freq by lia. lia.
Qed.
Lemma filling_values f k : f < n_freq -> k <= n_blocks -> values (filling f k) = n_freq * n_blocks * xv + n_blocks * xv.
Proof.
  intros Hf Hk. rewrite <- (@clean_values f) by lia. unfold values, filling, clean. cbn [per_block per_freq]. rewrite map_app, sum_app. cbn [map snd]. rewrite sum_cons, sum_nil, part_values by assumption. lia.
Qed.
Lemma dropping_values f k : f < n_freq -> k <= n_blocks -> values (dropping f k) <= n_freq * n_blocks * xv + n_blocks * xv.
Proof.
  intros Hf Hk. rewrite <- (@filling_values f n_blocks) by (auto; lia). rewrite filled. unfold values, dropping. cbn [per_block per_freq].
  rewrite !rest_values by (intros b; destruct (_ <? _); lia). apply Nat.add_le_mono_r.
  generalize (seq 0 n_blocks). induction l as [|b l IH]; [reflexivity|]. cbn [map]. rewrite !sum_cons. apply Nat.add_le_mono; [|exact IH].
  apply Nat.mul_le_mono_r. cbn [Nat.ltb]. destruct (b <? k); cbn; lia.
Qed.

(* a coefficient can be found: still in its block, or already in its frequency *)
Definition found (s : st) (b f : nat) (v : list V) : Prop :=
  (exists e, lookup (per_block s) b = Ok e /\ lookup e f = Ok v) \/ (exists cols, lookup (per_freq s) f = Ok cols /\ nth_error cols b = Some v).
Lemma found_ready f g b : g < f -> b < n_blocks -> exists cols, lookup (ready f) g = Ok cols /\ nth_error cols b = Some (q b g).
Proof. clear Hq.
  intros Hg Hb. eexists. split; [unfold ready; rewrite (@lookup_map _ (fun g => map (fun b => q b g) (seq 0 n_blocks))) by lia; reflexivity|].
  rewrite nth_error_map_seq. now replace (b <? n_blocks) with true by lia.
Qed.
Lemma found_rest from b g : b < n_blocks -> from b <= g < n_freq -> exists e, lookup (rest from) b = Ok e /\ lookup e g = Ok (q b g).
Proof. clear Hq. intros Hb Hg. eexists. split; [now apply lookup_rest|]. apply lookup_map. lia. Qed.
Lemma found_old f x g b : g < f -> b < n_blocks -> exists cols, lookup (ready f ++ [(f, x)]) g = Ok cols /\ nth_error cols b = Some (q b g).
Proof. clear Hq.
  intros Hg Hb. eexists. split; [unfold ready; rewrite (@lookup_old _ (fun g => map (fun b => q b g) (seq 0 n_blocks))) by lia; reflexivity|].
  rewrite nth_error_map_seq. now replace (b <? n_blocks) with true by lia.
Qed.
End S.

(* ---- C146 ---- *)
(* whatever the coefficients: the matrix of frequency f has the coefficients of block b in column b; on the way no coefficient is missing at any
   moment and at most one frequency more than the coefficients themselves is held; the blocks are empty in the end *)
Theorem C146_every_coefficient_in_its_column : forall V (zero : V) n_freq n_blocks xv (q : nat -> nat -> list V),
  0 < n_blocks -> 0 < n_freq -> (forall b f, b < n_blocks -> f < n_freq -> length (q b f) = xv) ->
  exists tr d, flip zero n_freq n_blocks (blocks_of n_blocks n_freq q) = (tr, Ok d) /\ map fst d = seq 0 n_freq /\
    (forall f, f < n_freq -> exists cols, lookup d f = Ok cols /\ length cols = n_blocks /\ forall b, b < n_blocks -> nth_error cols b = Some (q b f)).
Proof.
  intros V zero nf nb xv q Hb Hf Hq. destruct (@flip_run V zero nf nb xv q Hq (fun _ => True)) as (tr & E & _); auto.
  exists tr, (ready nb q nf). split; [exact E|]. split.
  - unfold ready. rewrite map_map. cbn [fst]. apply map_id.
  - intros f Hlt. eexists. split; [unfold ready; rewrite (@lookup_map _ (fun g => map (fun b => q b g) (seq 0 nb))) by lia; reflexivity|].
    split; [now rewrite map_length, seq_length|]. intros b Hbb. rewrite nth_error_map_seq. now replace (b <? nb) with true by lia.
Qed.
Print Assumptions C146_every_coefficient_in_its_column.

Theorem C146_room_for_one_frequency : forall V (zero : V) n_freq n_blocks xv (q : nat -> nat -> list V),
  0 < n_blocks -> 0 < n_freq -> (forall b f, b < n_blocks -> f < n_freq -> length (q b f) = xv) ->
  exists tr d, flip zero n_freq n_blocks (blocks_of n_blocks n_freq q) = (tr, Ok d) /\
    (forall s, In s tr -> values s <= n_freq * n_blocks * xv + n_blocks * xv /\
       forall b f, b < n_blocks -> f < n_freq -> found s b f (q b f)) /\
    (exists s, nth_error tr 1 = Some s /\ values s = n_freq * n_blocks * xv + n_blocks * xv).
Proof.
  intros V zero nf nb xv q Hb Hf Hq.
  destruct (@flip_run V zero nf nb xv q Hq (fun s => values s <= nf * nb * xv + nb * xv /\ forall b f, b < nb -> f < nf -> found s b f (q b f))) as (tr & E & F); auto.
  - intros f H. split; [rewrite (@clean_values V nf nb xv q Hq) by assumption; lia|]. intros b g Hbb Hg. destruct (Nat.lt_ge_cases g f).
    + right. now apply found_ready.
    + left. now apply found_rest.
  - intros f k H Hk. split; [now rewrite (@filling_values V zero nf nb xv q Hq)|]. intros b g Hbb Hg. destruct (Nat.lt_ge_cases g f).
    + right. now apply found_old.
    + left. now apply found_rest.
  - intros f k H Hk. split; [now apply dropping_values|]. intros b g Hbb Hg. destruct (Nat.lt_ge_cases g (S f)).
    + right. now apply found_ready.
    + left. apply found_rest; [assumption|]. destruct (b <? k); lia.
  - exists tr, (ready nb q nf). split; [exact E|]. split; [now apply Forall_forall|].
    exists (filling zero nf nb xv q 0 0). split; [|now apply filling_values; [assumption| |lia]].
    revert E. rewrite blocks_of_rest. unfold flip. destruct (rev (rest nf nb q (fun _ => 0))) as [|[? l] ?] eqn:E1; [discriminate|]. destruct (rev l) as [|[? v] ?] eqn:E2; [discriminate|].
    assert (length v = xv).
    { assert (In (n, l) (rest nf nb q (fun _ => 0))) by (rewrite in_rev, E1; now left). unfold rest in H. apply in_map_iff in H as (b & [= <- <-] & Hin). apply in_seq in Hin.
      assert (In (n0, v) (map (fun f => (f, q b f)) (seq 0 (nf - 0)))) by (rewrite in_rev, E2; now left). apply in_map_iff in H as (f & [= <- <-] & Hin2). apply in_seq in Hin2. apply Hq; lia. }
    rewrite H. unfold program. destruct nf as [|nf']; [lia|]. cbn [seq flat_map]. cbn [app run].
    change (St (rest (S nf') nb q (fun _ : nat => 0)) []) with (clean (S nf') nb q 0). rewrite (@step_new V zero (S nf') nb xv q 0).
    match goal with |- context [run zero xv nb ?o ?s] => destruct (run zero xv nb o s) as [t r] eqn:E3 end. intros [= <- _]. cbn [nth_error].
    match type of E3 with run _ _ _ ?o _ = _ => destruct o as [|o1 os]; cbn [run] in E3 end; [now injection E3 as <- _|].
    destruct (step zero xv nb o1 _) as [s1|e1]; [|now injection E3 as <- _]. destruct (run zero xv nb os s1); now injection E3 as <- _.
Qed.
Print Assumptions C146_room_for_one_frequency.

(* without a block (refused before) the conversion would raise *)
Theorem C146_no_blocks : forall V (zero : V) n_freq q, snd (flip zero n_freq 0 (blocks_of 0 n_freq q)) = Err IndexError.
Proof. reflexivity. Qed.
Print Assumptions C146_no_blocks.

Example C146_nonvacuous :
  snd (flip 0 2 3 (blocks_of 3 2 (fun b f => [10 * b + f; 100 + 10 * b + f]))) =
  Ok [(0, [[0; 100]; [10; 110]; [20; 120]]); (1, [[1; 101]; [11; 111]; [21; 121]])].
Proof. reflexivity. Qed.
