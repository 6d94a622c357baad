From Coq Require Import List ZArith Lia PeanoNat.
Import ListNotations.
From Verif Require Import Model_Streaming.
Set Implicit Arguments.

Lemma zmin_le l v : In v l -> (zmin l <= v)%Z.
Proof.
destruct l as [|a l]; [easy|]. unfold zmin. revert a v. induction l as [|b l IH]; simpl; intros a v H.
- destruct H as [->|[]]; lia.
- destruct H as [->|[->|H]].
  + specialize (IH v v (or_introl eq_refl)); lia.
  + lia.
  + specialize (IH a v (or_intror H)); lia.
Qed.
Lemma zmin_in l : l <> [] -> In (zmin l) l.
Proof.
destruct l as [|a l]; [easy|intros _]. unfold zmin. induction l as [|b l IH]; simpl; [now left|].
destruct (Z.min_spec b (fold_right Z.min a l)) as [[_ E]|[_ E]]; rewrite E.
- now right; left.
- destruct IH as [<-|IH]; [now left|now right; right].
Qed.
Lemma zmin_eq l v : In v l -> (forall u, In u l -> (v <= u)%Z) -> zmin l = v.
Proof.
intros Hin Hmin. assert (l <> []) by (intros ->; destruct Hin).
pose proof (zmin_le l v Hin). pose proof (Hmin _ (zmin_in H)). lia.
Qed.

Section S.
Variables X A M B : Type.
Variables (n_dft n_overlap : nat).
Variable zeroA : A.
Variable contrib : A -> nat -> X -> A.
Variable mean_step : nat -> M -> X -> M.
Variable basis_step : nat -> A -> M -> B -> B.
Notation hop := (dn n_dft n_overlap).
Notation npar := (n_blocks_par n_dft n_overlap).
Notation pass := (pass n_dft n_overlap zeroA contrib).
Hypothesis Hov : n_overlap < n_dft.

Lemma hop_pos : 1 <= hop. Proof. unfold dn; lia. Qed.
Lemma npar_spec : n_dft <= npar * hop /\ npar * hop <= n_dft + hop - 1.
Proof.
pose proof hop_pos. unfold n_blocks_par. generalize hop H. intros h Hh.
pose proof (Nat.div_mod (n_dft + h - 1) h ltac:(lia)).
pose proof (Nat.mod_upper_bound (n_dft + h - 1) h ltac:(lia)). nia.
Qed.
Lemma npar_pos : 1 <= npar.
Proof. pose proof npar_spec. pose proof hop_pos. destruct npar; lia. Qed.

Definition adv (x : X) (p : Z * A) : Z * A :=
  ((fst p + 1)%Z, if (-1 <? fst p)%Z then contrib (snd p) (Z.to_nat (fst p)) x else snd p).
Lemma pass_none x todo done hat : (forall p, In p todo -> fst p <> (Z.of_nat n_dft - 1)%Z) ->
  pass x done todo hat = (done ++ map (adv x) todo, hat).
Proof.
revert done. induction todo as [|[t a] rest IH]; simpl; intros done H.
- now rewrite app_nil_r.
- replace (t =? Z.of_nat n_dft - 1)%Z with false.
  2:{ symmetry; apply Z.eqb_neq; apply (H (t, a)); now left. }
  rewrite IH by (intros; apply H; now right). rewrite <- app_assoc. reflexivity.
Qed.
Lemma pass_one x pre t a post done hat :
  (forall p, In p pre -> fst p <> (Z.of_nat n_dft - 1)%Z) ->
  (forall p, In p post -> fst p <> (Z.of_nat n_dft - 1)%Z) ->
  t = (Z.of_nat n_dft - 1)%Z ->
  pass x done (pre ++ (t, a) :: post) hat
  = (done ++ map (adv x) pre ++
     ((zmin (map fst (done ++ map (adv x) pre) ++ t :: map fst post) - Z.of_nat hop)%Z, zeroA) :: map (adv x) post,
     Some (contrib a (n_dft - 1) x)).
Proof.
revert done. induction pre as [|[u b] pre IH]; simpl; intros done H1 H2 Ht.
- replace (t =? Z.of_nat n_dft - 1)%Z with true by (symmetry; now apply Z.eqb_eq).
  rewrite pass_none by exact H2. rewrite <- app_assoc. simpl. rewrite app_nil_r.
  rewrite !map_app. simpl. repeat f_equal.
  replace (-1 <? t)%Z with true by (symmetry; apply Z.ltb_lt; lia).
  f_equal. lia.
- replace (u =? Z.of_nat n_dft - 1)%Z with false.
  2:{ symmetry; apply Z.eqb_neq; apply (H1 (u, b)); now left. }
  rewrite IH; auto. rewrite <- !app_assoc. simpl. unfold adv at 5 6. simpl. reflexivity.
Qed.

(* block k = c*npar + r starts at *)
Definition start (k : nat) : nat := k * hop + k / npar.
Definition slot_block (K j : nat) : nat := if j <? K mod npar then (K / npar + 1) * npar + j else K / npar * npar + j.
Variable strm : nat -> X.
Definition partial (s t : nat) : A := fold_left (fun a i => contrib a i (strm (s + i))) (seq 0 (t - s)) zeroA.
Definition slot_val (K t j : nat) : Z * A :=
  let s := start (slot_block K j) in ((Z.of_nat t - Z.of_nat s)%Z, partial s t).
Lemma start_cj c j : j < npar -> start (c * npar + j) = c * (npar * hop + 1) + j * hop.
Proof.
intros Hj. unfold start. rewrite Nat.div_add_l by lia. rewrite (Nat.div_small j) by lia. nia.
Qed.
Lemma start_mono k l : k < l -> start k + hop <= start l.
Proof.
intros H. unfold start. pose proof hop_pos. pose proof npar_pos.
assert (k / npar <= l / npar) by (apply Nat.div_le_mono; lia). nia.
Qed.
Lemma slot_block_ge K j : j < npar -> K <= slot_block K j.
Proof.
intros Hj. unfold slot_block. pose proof npar_pos as Hp.
pose proof (Nat.div_mod K npar ltac:(lia)) as E. pose proof (Nat.mod_upper_bound K npar ltac:(lia)) as U.
revert E U. generalize (K / npar), (K mod npar). intros q r E U.
destruct (Nat.ltb_spec j r); nia.
Qed.
Lemma slot_block_self K : slot_block K (K mod npar) = K.
Proof.
unfold slot_block. rewrite Nat.ltb_irrefl. pose proof npar_pos as Hp.
pose proof (Nat.div_mod K npar ltac:(lia)) as E. nia.
Qed.
Lemma slot_block_mod K j : j < npar -> slot_block K j mod npar = j.
Proof.
intros Hj. unfold slot_block. destruct (j <? K mod npar);
rewrite Nat.add_comm, Nat.mod_add by lia; now apply Nat.mod_small.
Qed.
Lemma slot_block_neq K j : j < npar -> j <> K mod npar -> K < slot_block K j.
Proof.
intros Hj Hn. pose proof (slot_block_ge K Hj). destruct (Nat.eq_dec K (slot_block K j)) as [E|]; [|lia].
exfalso; apply Hn. rewrite E at 1. now rewrite slot_block_mod.
Qed.
Lemma succ_divmod K : (K mod npar + 1 < npar -> S K / npar = K / npar /\ S K mod npar = K mod npar + 1) /\
  (K mod npar + 1 = npar -> S K / npar = K / npar + 1 /\ S K mod npar = 0).
Proof.
pose proof npar_pos as Hp. pose proof (Nat.div_mod K npar ltac:(lia)) as E.
revert E. generalize (K / npar), (K mod npar). intros q r E. generalize dependent npar. intros p Hp E.
split; intros H.
- assert (S K = q * p + (r + 1)) as -> by nia. rewrite Nat.div_add_l, (Nat.add_comm (q*p)), Nat.mod_add by lia.
  rewrite (Nat.div_small (r+1)), (Nat.mod_small (r+1)) by lia. lia.
- assert (S K = (q + 1) * p) as -> by nia. rewrite Nat.div_mul, Nat.mod_mul by lia. lia.
Qed.
Lemma slot_block_succ_same K j : j < npar -> j <> K mod npar -> slot_block (S K) j = slot_block K j.
Proof.
intros Hj Hn. unfold slot_block. pose proof npar_pos as Hp. pose proof (succ_divmod K) as [H1 H2].
pose proof (Nat.mod_upper_bound K npar ltac:(lia)) as U.
destruct (Nat.eq_dec (K mod npar + 1) npar) as [E|E].
- destruct (H2 E) as [-> ->]. destruct (Nat.ltb_spec j 0); [lia|]. destruct (Nat.ltb_spec j (K mod npar)); lia.
- destruct (H1 ltac:(lia)) as [-> ->].
  destruct (Nat.ltb_spec j (K mod npar + 1)), (Nat.ltb_spec j (K mod npar)); lia.
Qed.
Lemma slot_block_succ_self K : slot_block (S K) (K mod npar) = K + npar.
Proof.
unfold slot_block. pose proof npar_pos as Hp. pose proof (succ_divmod K) as [H1 H2].
pose proof (Nat.mod_upper_bound K npar ltac:(lia)) as U. pose proof (Nat.div_mod K npar ltac:(lia)) as E0.
destruct (Nat.eq_dec (K mod npar + 1) npar) as [E|E].
- destruct (H2 E) as [-> ->]. destruct (Nat.ltb_spec (K mod npar) 0); [lia|nia].
- destruct (H1 ltac:(lia)) as [-> ->]. destruct (Nat.ltb_spec (K mod npar) (K mod npar + 1)); [nia|lia].
Qed.
Lemma start_shift K : start (K + npar) = start K + npar * hop + 1.
Proof.
pose proof npar_pos. unfold start. replace (K + npar) with (K + 1 * npar) at 2 by lia.
rewrite Nat.div_add by lia. nia.
Qed.

Lemma partial_step s t x : strm t = x ->
  (if (-1 <? Z.of_nat t - Z.of_nat s)%Z then contrib (partial s t) (Z.to_nat (Z.of_nat t - Z.of_nat s)) x else partial s t)
  = partial s (S t).
Proof.
intros Hx. unfold partial. destruct (Z.ltb_spec (-1) (Z.of_nat t - Z.of_nat s)).
- replace (S t - s) with (S (t - s)) by lia. rewrite seq_S, fold_left_app. simpl.
  replace (Z.to_nat (Z.of_nat t - Z.of_nat s)) with (t - s) by lia. replace (s + (t - s)) with t by lia. now rewrite Hx.
- now replace (S t - s) with (t - s) by lia.
Qed.
Lemma adv_slot K t j : adv (strm t) (slot_val K t j) = slot_val K (S t) j.
Proof.
unfold adv, slot_val. cbv zeta. cbn [fst snd]. rewrite partial_step by reflexivity. f_equal. lia.
Qed.
Definition clocks (K t : nat) : list (Z * A) := map (slot_val K t) (seq 0 npar).
Lemma pass_noblock K t : t + 1 < start K + n_dft -> pass (strm t) [] (clocks K t) None = (clocks K (S t), None).
Proof.
intros Ht. rewrite pass_none.
- simpl. f_equal. unfold clocks. rewrite map_map. apply map_ext. intros; apply adv_slot.
- intros p Hp. apply in_map_iff in Hp. destruct Hp as [j [<- Hj]]. apply in_seq in Hj. simpl.
  pose proof (slot_block_ge K (j:=j) ltac:(lia)) as G.
  assert (start K <= start (slot_block K j)).
  { destruct (Nat.eq_dec K (slot_block K j)) as [<-|]; [lia|]. pose proof (@start_mono K (slot_block K j)). lia. }
  lia.
Qed.
Lemma seq_split3 r n : r < n -> seq 0 n = seq 0 r ++ r :: seq (S r) (n - S r).
Proof.
intros H. replace n with (r + S (n - S r)) at 1 by lia. now rewrite seq_app.
Qed.
Lemma pass_block K t : t + 1 = start K + n_dft ->
  pass (strm t) [] (clocks K t) None = (clocks (S K) (S t), Some (partial (start K) (S t))).
Proof.
intros Ht. set (r := K mod npar). pose proof npar_pos as Hp.
assert (Hr : r < npar) by (apply Nat.mod_upper_bound; lia).
unfold clocks at 1. rewrite (seq_split3 Hr), map_app. simpl map.
assert (Hne : forall j, j < npar -> j <> r -> (fst (slot_val K t j) < Z.of_nat n_dft - 1)%Z).
{ intros j Hj Hn. simpl. pose proof (slot_block_neq K Hj Hn) as G. apply start_mono in G. pose proof hop_pos. lia. }
assert (Er : slot_val K t r = ((Z.of_nat n_dft - 1)%Z, partial (start K) t)).
{ unfold slot_val, r. rewrite slot_block_self. cbv zeta. f_equal. lia. }
rewrite Er. rewrite pass_one; auto.
2:{ intros p Hin. apply in_map_iff in Hin. destruct Hin as [j [<- Hj]]. apply in_seq in Hj. pose proof (Hne j). lia. }
2:{ intros p Hin. apply in_map_iff in Hin. destruct Hin as [j [<- Hj]]. apply in_seq in Hj. pose proof (Hne j). lia. }
f_equal.
- cbn [app]. unfold clocks. rewrite (seq_split3 Hr), map_app. simpl map. match goal with |- ?a ++ ?b :: ?c = ?a' ++ ?b' :: ?c' => enough (a = a' /\ b = b' /\ c = c') as (-> & -> & ->) by reflexivity; split; [|split] end.
  + rewrite map_map. apply map_ext_in. intros j Hj. apply in_seq in Hj. rewrite adv_slot.
    unfold slot_val. rewrite slot_block_succ_same; [reflexivity|lia|unfold r in *; lia].
  + assert (Es : slot_val (S K) (S t) r = ((Z.of_nat (S t) - Z.of_nat (start K + npar * hop + 1))%Z, zeroA)).
    { unfold slot_val, r. rewrite slot_block_succ_self. cbv zeta. rewrite start_shift. f_equal.
      unfold partial. replace (S t - (start K + npar * hop + 1)) with 0; [reflexivity|].
      pose proof npar_spec. lia. }
    rewrite Es. clear Es. apply (f_equal (fun z => (z, zeroA))).
    rewrite zmin_eq with (v := (Z.of_nat t - Z.of_nat (start K) - (Z.of_nat npar - 1) * Z.of_nat hop)%Z).
    * nia.
    * (* the slot that started last *)
      destruct (Nat.eq_dec r 0) as [E0|E0].
      { rewrite E0. cbn [seq map app fst]. destruct (Nat.eq_dec npar 1) as [E1|E1].
        - left. rewrite E1. lia.
        - right. rewrite map_map. apply in_map_iff. exists (npar - 1). split.
          + cbn [fst slot_val]. unfold slot_val. cbv zeta. cbn [fst].
            assert (Eb : slot_block K (npar - 1) = K + (npar - 1)).
            { unfold slot_block. fold r. rewrite E0. simpl.
              pose proof (Nat.div_mod K npar ltac:(lia)) as E. fold r in E. nia. }
            rewrite Eb. assert (Es : start (K + (npar - 1)) = start K + (npar - 1) * hop).
            { unfold start. assert ((K + (npar - 1)) / npar = K / npar).
              { pose proof (Nat.div_mod K npar ltac:(lia)) as E. fold r in E. rewrite E0 in E.
                replace (K + (npar - 1)) with (K / npar * npar + (npar - 1)) by nia.
                rewrite Nat.div_add_l by lia. rewrite (Nat.div_small (npar - 1)) by lia. lia. }
              rewrite H. nia. }
            rewrite Es. nia.
          + apply in_seq. lia. }
      { apply in_or_app. left. rewrite !map_map. apply in_map_iff. exists (r - 1). split.
        - rewrite adv_slot. unfold slot_val. cbv zeta. cbn [fst].
          assert (Eb : slot_block K (r - 1) = K + (npar - 1)).
          { unfold slot_block. fold r. replace (r - 1 <? r) with true by (symmetry; apply Nat.ltb_lt; lia).
            pose proof (Nat.div_mod K npar ltac:(lia)) as E. fold r in E. nia. }
          rewrite Eb. assert (Es : start (K + (npar - 1)) = start K + (npar - 1) * hop + 1).
          { unfold start. assert ((K + (npar - 1)) / npar = K / npar + 1).
            { pose proof (Nat.div_mod K npar ltac:(lia)) as E. fold r in E.
              replace (K + (npar - 1)) with ((K / npar + 1) * npar + (r - 1)) by nia.
              rewrite Nat.div_add_l by lia. rewrite (Nat.div_small (r - 1)) by lia. lia. }
            rewrite H. nia. }
          rewrite Es. nia.
        - apply in_seq. lia. }
    * (* every other clock is at least that *)
      assert (Hb : forall j, j < npar -> j <> r -> exists i, 1 <= i /\ i <= npar - 1 /\ slot_block K j = K + i /\
                    (start (K + i) <= start K + i * hop + (if j <? r then 1 else 0))).
      { intros j Hj Hn. pose proof (Nat.div_mod K npar ltac:(lia)) as E. fold r in E.
        unfold slot_block. fold r. destruct (Nat.ltb_spec j r).
        - exists (npar - r + j). split; [lia|]. split; [lia|]. split; [nia|].
          unfold start. assert ((K + (npar - r + j)) / npar = K / npar + 1).
          { replace (K + (npar - r + j)) with ((K / npar + 1) * npar + j) by nia.
            rewrite Nat.div_add_l by lia. rewrite (Nat.div_small j) by lia. lia. }
          rewrite H0. nia.
        - exists (j - r). split; [lia|]. split; [lia|]. split; [nia|].
          unfold start. assert ((K + (j - r)) / npar = K / npar).
          { replace (K + (j - r)) with (K / npar * npar + j) by nia.
            rewrite Nat.div_add_l by lia. rewrite (Nat.div_small j) by lia. lia. }
          rewrite H0. nia. }
      intros u Hu. apply in_app_or in Hu. destruct Hu as [Hu|[<-|Hu]].
      { rewrite !map_map in Hu. apply in_map_iff in Hu. destruct Hu as [j [<- Hj]]. apply in_seq in Hj.
        rewrite adv_slot. unfold slot_val. cbv zeta. cbn [fst].
        destruct (Hb j ltac:(lia) ltac:(lia)) as [i [I1 [I2 [-> I4]]]].
        replace (j <? r) with true in I4 by (symmetry; apply Nat.ltb_lt; lia). nia. }
      { nia. }
      { rewrite map_map in Hu. apply in_map_iff in Hu. destruct Hu as [j [<- Hj]]. apply in_seq in Hj.
        unfold slot_val. cbv zeta. cbn [fst].
        destruct (Hb j ltac:(lia) ltac:(lia)) as [i [I1 [I2 [-> I4]]]].
        replace (j <? r) with false in I4 by (symmetry; apply Nat.ltb_ge; lia). nia. }
  + rewrite map_map. apply map_ext_in. intros j Hj. apply in_seq in Hj. rewrite adv_slot.
    unfold slot_val. rewrite slot_block_succ_same; [reflexivity|lia|unfold r in *; lia].
- f_equal. unfold partial. replace (S t - start K) with (S (t - start K)) by lia.
  rewrite seq_S, fold_left_app. simpl. replace (n_dft - 1) with (t - start K) by lia.
  replace (start K + (t - start K)) with t by lia. reflexivity.
Qed.

(* the whole run *)
Variables (mu0 : M) (b0 : B).
Notation run := (run n_dft n_overlap zeroA contrib mean_step basis_step mu0 b0 strm).
Notation completed := (completed n_dft n_overlap zeroA contrib mean_step basis_step mu0 b0 strm).
Definition mean_after (n : nat) : M := fold_left (fun m t => mean_step t m (strm t)) (seq 0 n) mu0.
Definition block_sum (s : nat) : A := fold_left (fun a i => contrib a i (strm (s + i))) (seq 0 n_dft) zeroA.
Definition basis_after (K : nat) : B :=
  fold_left (fun b k => basis_step (S k) (block_sum (start k)) (mean_after (start k + n_dft)) b) (seq 0 K) b0.
Definition due (n K : nat) : Prop := n < start K + n_dft /\ (forall k, k < K -> start k + n_dft <= n).
Lemma due_0 : due 0 0.
Proof. split; lia. Qed.
Lemma due_next n K : due n K -> (S n < start K + n_dft /\ due (S n) K) \/ (S n = start K + n_dft /\ due (S n) (S K)).
Proof.
intros [H1 H2]. destruct (Nat.eq_dec (S n) (start K + n_dft)) as [E|E].
- right. split; [exact E|]. split.
  + pose proof (@start_mono K (S K)). pose proof hop_pos. lia.
  + intros k Hk. destruct (Nat.eq_dec k K) as [->|]; [lia|]. specialize (H2 k). lia.
- left. split; [lia|]. split; [lia|]. intros k Hk. specialize (H2 k). lia.
Qed.
Lemma due_unique n K L : due n K -> due n L -> K = L.
Proof.
intros [H1 H2] [H3 H4]. destruct (Nat.lt_trichotomy K L) as [H|[H|H]]; [|exact H|].
- specialize (H4 K H). lia.
- specialize (H2 L H). lia.
Qed.
Lemma init_clocks : init_slots n_dft n_overlap zeroA = clocks 0 0.
Proof.
unfold init_slots, clocks. apply map_ext_in. intros j Hj. apply in_seq in Hj. unfold slot_val. cbv zeta.
assert (E : slot_block 0 j = j).
{ unfold slot_block. pose proof npar_pos. rewrite Nat.div_0_l, Nat.mod_0_l by lia. simpl. lia. }
rewrite E. unfold start. rewrite (Nat.div_small j) by lia. f_equal. nia.
Qed.
Lemma run_law n : exists K, due n K /\ run n = St (clocks K n) (mean_after n) K (basis_after K).
Proof.
induction n as [|n [K [HK IH]]].
- exists 0. split; [apply due_0|]. simpl. now rewrite init_clocks.
- assert (Em : mean_step n (mean_after n) (strm n) = mean_after (S n)).
  { unfold mean_after. rewrite seq_S, fold_left_app. reflexivity. }
  destruct (due_next HK) as [[E H]|[E H]].
  + exists K. split; [exact H|]. simpl. rewrite IH. unfold step. cbn [slots mu block_i basis].
    rewrite pass_noblock by lia. simpl. now rewrite Em.
  + exists (S K). split; [exact H|]. simpl. rewrite IH. unfold step. cbn [slots mu block_i basis].
    rewrite pass_block by lia. simpl. rewrite Em. f_equal.
    unfold basis_after. rewrite seq_S, fold_left_app. simpl. f_equal.
    * unfold partial, block_sum. now replace (S n - start K) with n_dft by lia.
    * now rewrite E.
Qed.
Lemma completed_law t K : due t K ->
  completed t = if S t =? start K + n_dft then Some (block_sum (start K)) else None.
Proof.
intros HK. unfold Model_Streaming.completed. destruct (run_law t) as [K' [HK' ->]].
rewrite (due_unique HK' HK). clear K' HK'. unfold step. cbn [slots mu block_i basis].
destruct (Nat.eqb_spec (S t) (start K + n_dft)) as [E|E].
- rewrite pass_block by lia. simpl. f_equal. unfold partial, block_sum. now replace (S t - start K) with n_dft by lia.
- destruct HK as [H1 _]. rewrite pass_noblock by lia. reflexivity.
Qed.
Lemma due_exists n : exists K, due n K.
Proof. destruct (run_law n) as [K [H _]]. now exists K. Qed.
Lemma due_at k : due (start k + n_dft - 1) k.
Proof.
split; [lia|]. intros l Hl. pose proof (start_mono Hl). pose proof hop_pos. lia.
Qed.
Lemma completed_iff t h : completed t = Some h <-> exists k, S t = start k + n_dft /\ h = block_sum (start k).
Proof.
destruct (due_exists t) as [K HK]. rewrite (completed_law HK). split.
- destruct (Nat.eqb_spec (S t) (start K + n_dft)) as [E|E]; [|discriminate]. intros [= <-]. now exists K.
- intros [k [E ->]]. assert (K = k).
  { apply (due_unique HK). replace t with (start k + n_dft - 1) by lia. apply due_at. }
  subst K. now rewrite E, Nat.eqb_refl.
Qed.
Lemma finishing_one t : length (finishing n_dft n_overlap zeroA contrib mean_step basis_step mu0 b0 strm t) <= 1.
Proof.
unfold finishing. destruct (run_law t) as [K [[H1 H2] ->]]. cbn [slots].
assert (G : forall j, In j (seq 0 npar) ->
   (fst (nth j (clocks K t) (0%Z, zeroA)) =? Z.of_nat n_dft - 1)%Z = true -> j = K mod npar).
{ intros j Hj E. apply in_seq in Hj. apply Z.eqb_eq in E.
  unfold clocks in E. rewrite nth_indep with (d' := slot_val K t 0) in E by (rewrite map_length, seq_length; lia).
  rewrite map_nth, seq_nth in E by lia. simpl in E.
  destruct (Nat.eq_dec j (K mod npar)); [assumption|].
  pose proof (@slot_block_neq K j ltac:(lia) ltac:(assumption)) as L. apply start_mono in L. pose proof hop_pos. lia. }
pose proof (NoDup_filter (fun j => (fst (nth j (clocks K t) (0%Z, zeroA)) =? Z.of_nat n_dft - 1)%Z) (seq_NoDup npar 0)) as Hnd.
remember (filter _ _) as l eqn:El.
assert (forall j, In j l -> j = K mod npar).
{ intros j Hj. subst l. apply filter_In in Hj. now apply G. }
clear El G. destruct l as [|a [|b l]]; simpl; try lia.
inversion Hnd as [|? ? Hn _]; subst. exfalso; apply Hn. left.
rewrite (H a (or_introl eq_refl)). apply H. right; now left.
Qed.
End S.
