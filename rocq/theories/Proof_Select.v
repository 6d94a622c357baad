From Coq Require Import QArith Qabs String Ascii Sorted Lqa.
From Verif Require Import Base_List Model_Select Spec_Select.
Set Implicit Arguments.
Local Open Scope nat_scope.

(* ---- argmin ---- *)
Lemma argmin_from_spec l : forall i best bv pre,
  length pre = i -> nth_error pre best = Some bv ->
  (forall j w, nth_error pre j = Some w -> (bv <= w)%Q) ->
  (forall j w, j < best -> nth_error pre j = Some w -> (bv < w)%Q) ->
  exists v, nth_error (pre ++ l) (argmin_from i best bv l) = Some v /\
  (forall j w, nth_error (pre ++ l) j = Some w -> (v <= w)%Q) /\
  (forall j w, j < argmin_from i best bv l -> nth_error (pre ++ l) j = Some w -> (v < w)%Q).
Proof.
induction l as [|x r IH]; intros i best bv pre Hi Hb Hmin Hfst.
- exists bv. rewrite app_nil_r. auto.
- cbn [argmin_from].
  assert (Hlast : nth_error (pre ++ [x]) i = Some x) by (rewrite nth_error_app2, Hi, Nat.sub_diag by lia; reflexivity).
  assert (Hlt : forall j w, nth_error (pre ++ [x]) j = Some w -> nth_error pre j = Some w \/ (j = i /\ w = x)).
  { intros j w Hj. destruct (Nat.lt_ge_cases j i) as [H|H].
    - left. rewrite nth_error_app1 in Hj by lia. exact Hj.
    - right. rewrite nth_error_app2 in Hj by lia. destruct (j - length pre) as [|q] eqn:E.
      + cbn in Hj. injection Hj as <-. split; [lia|reflexivity].
      + cbn in Hj. destruct q; discriminate. }
  assert (Hbl : best < i) by (rewrite <- Hi; apply nth_error_Some; congruence).
  replace (pre ++ x :: r) with ((pre ++ [x]) ++ r) by (rewrite <- app_assoc; reflexivity).
  destruct (Qle_bool bv x) eqn:E.
  + apply Qle_bool_iff in E. apply IH.
    * rewrite app_length. cbn. lia.
    * rewrite nth_error_app1 by lia. exact Hb.
    * intros j w Hj. destruct (Hlt j w Hj) as [H|[_ ->]]; [eauto|exact E].
    * intros j w Hjb Hj. destruct (Hlt j w Hj) as [H|[-> _]]; [eauto|lia].
  + assert (E' : (x < bv)%Q). { apply Qnot_le_lt. intro H. apply Qle_bool_iff in H. congruence. }
    apply IH.
    * rewrite app_length. cbn. lia.
    * exact Hlast.
    * intros j w Hj. destruct (Hlt j w Hj) as [H|[_ ->]]; [|apply Qle_refl]. specialize (Hmin j w H). lra.
    * intros j w Hjb Hj. destruct (Hlt j w Hj) as [H|[-> _]]; [|lia]. specialize (Hmin j w H). lra.
Qed.
Lemma argmin_spec l : l <> [] -> exists i v, argmin l = Ok i /\ nth_error l i = Some v /\
  (forall j w, nth_error l j = Some w -> (v <= w)%Q) /\ (forall j w, j < i -> nth_error l j = Some w -> (v < w)%Q).
Proof.
destruct l as [|x r]; [congruence|]. intros _. cbn [argmin].
destruct (@argmin_from_spec r 1 0 x [x] eq_refl eq_refl) as [v [H1 [H2 H3]]].
- intros [|j] w H; [|destruct j; discriminate]. injection H as <-. apply Qle_refl.
- intros j w H; lia.
- eauto 10.
Qed.
Lemma nearest_spec req freq : freq <> [] -> exists v i, find_nearest_freq req freq = Ok (v, i) /\ nearest freq req v i.
Proof.
intros Hf. unfold find_nearest_freq.
destruct (@argmin_spec (map (fun f => Qabs (f - req)) freq)) as [i [d [E [H1 [H2 H3]]]]]; [destruct freq; cbn; congruence|].
rewrite E. cbn [bind]. rewrite nth_error_map in H1. destruct (nth_error freq i) as [v|] eqn:Ei; [|discriminate].
cbn in H1. injection H1 as <-. rewrite (nth_error_nth _ _ 0%Q Ei). exists v, i. split; [reflexivity|].
split; [exact Ei|]. split.
- intros j w Hj. apply (H2 j). rewrite nth_error_map, Hj. reflexivity.
- intros j w Hl Hj. apply (H3 j _ Hl). rewrite nth_error_map, Hj. reflexivity.
Qed.
Lemma nearest_unique freq req v i v' i' : nearest freq req v i -> nearest freq req v' i' -> i = i' /\ v = v'.
Proof.
intros [H1 [H2 H3]] [H1' [H2' H3']].
assert (i = i').
{ destruct (Nat.lt_trichotomy i i') as [H|[H|H]]; [|exact H|]; exfalso.
  - pose proof (H3' _ _ H H1) as A. pose proof (H2 _ _ H1') as B. lra.
  - pose proof (H3 _ _ H H1') as A. pose proof (H2' _ _ H1) as B. lra. }
subst i'. split; [reflexivity|congruence].
Qed.

(* ---- get_modes ---- *)
Section Modes.
Variable A : Type.
Variable zero : A.
Variable modes_at : nat -> option (list A).
Lemma set_col_ok i a (l : list A) : i < length l -> exists l', set_col i a l = Ok l' /\ length l' = length l /\
  forall j, nth_error l' j = if j =? i then Some a else nth_error l j.
Proof.
intros H. unfold set_col. destruct (Nat.ltb_spec i (length l)) as [_|?]; [|lia].
eexists. split; [reflexivity|]. assert (Hf : length (firstn i l) = i) by (rewrite firstn_length; lia). split.
- rewrite app_length. cbn [length]. rewrite skipn_length. lia.
- intros j. destruct (Nat.eqb_spec j i) as [->|Hj].
  + rewrite nth_error_app2, Hf, Nat.sub_diag by lia. reflexivity.
  + destruct (Nat.lt_ge_cases j i) as [Hl|Hl].
    * rewrite nth_error_app1 by lia. apply nth_error_firstn_lt. exact Hl.
    * rewrite nth_error_app2, Hf by lia. destruct (j - i) as [|q] eqn:E; [lia|].
      change (nth_error (a :: skipn (S i) l) (S q)) with (nth_error (skipn (S i) l) q).
      rewrite nth_error_skipn. f_equal. lia.
Qed.
Lemma put_ok nm cnt : forall cols i (p : list A), (forall j, j < length cols -> nm * cnt + i + j < length p) ->
  exists p', put nm cnt i cols p = Ok p' /\ length p' = length p /\
  forall j, nth_error p' j = if (nm * cnt + i <=? j) && (j <? nm * cnt + i + length cols) then nth_error cols (j - (nm * cnt + i)) else nth_error p j.
Proof.
induction cols as [|a r IH]; intros i p Hj; cbn [put].
- exists p. split; [reflexivity|]. split; [reflexivity|]. intros j. cbn [length].
  destruct (Nat.leb_spec (nm * cnt + i) j); destruct (Nat.ltb_spec j (nm * cnt + i + 0)); cbn [andb]; (lia || reflexivity).
- destruct (@set_col_ok (nm * cnt + i) a p) as [p1 [E1 [L1 N1]]]; [specialize (Hj 0); cbn [length] in Hj; lia|].
  rewrite E1. cbn [bind].
  destruct (IH (S i) p1) as [p2 [E2 [L2 N2]]].
  { intros j Hjl. rewrite L1. specialize (Hj (S j)). cbn [length] in Hj. lia. }
  exists p2. split; [exact E2|]. split; [lia|]. intros j. rewrite N2, N1. cbn [length].
  set (o := nm * cnt) in *. clearbody o.
  destruct (Nat.leb_spec (o + S i) j); destruct (Nat.leb_spec (o + i) j);
  destruct (Nat.ltb_spec j (o + S i + length r)); destruct (Nat.ltb_spec j (o + i + S (length r))); cbn [andb]; try lia.
  + replace (j - (o + i)) with (S (j - (o + S i))) by lia. reflexivity.
  + destruct (Nat.eqb_spec j (o + i)); [lia|reflexivity].
  + destruct (Nat.eqb_spec j (o + i)); [|lia]. subst j. rewrite Nat.sub_diag. reflexivity.
  + destruct (Nat.eqb_spec j (o + i)); [lia|reflexivity].
Qed.
Lemma put_fail nm cnt : forall cols i (p : list A), length p <= nm * cnt + i -> cols <> [] -> put nm cnt i cols p = Err IndexError.
Proof.
intros [|a r] i p H Hc; [congruence|]. cbn [put]. unfold set_col. destruct (Nat.ltb_spec (nm * cnt + i) (length p)); [lia|reflexivity].
Qed.
Definition good nm f := exists cols, modes_at f = Some cols /\ length cols = nm.
Lemma gather_ok nm : forall freqs cnt (p : list A), (forall f, In f freqs -> good nm f) ->
  nm * (cnt + length freqs) <= length p ->
  exists p', gather modes_at nm cnt freqs p = Ok p' /\ length p' = length p /\
  (forall k f cols m, nth_error freqs k = Some f -> modes_at f = Some cols -> m < nm ->
     nth_error p' (nm * (cnt + k) + m) = nth_error cols m) /\
  (forall j, j < nm * cnt \/ nm * (cnt + length freqs) <= j -> nth_error p' j = nth_error p j).
Proof.
induction freqs as [|f r IH]; intros cnt p Hg Hl; cbn [gather].
- exists p. split; [reflexivity|]. split; [reflexivity|]. split; [intros [|k] ? ? ? H; discriminate|reflexivity].
- destruct (Hg f (or_introl eq_refl)) as [cols [Ec Lc]]. rewrite Ec, Lc, Nat.eqb_refl. cbn [length] in Hl.
  destruct (@put_ok nm cnt cols 0 p) as [p1 [E1 [L1 N1]]]; [intros j Hj; nia|].
  rewrite E1. cbn [bind].
  destruct (IH (S cnt) p1) as [p2 [E2 [L2 [N2 O2]]]]; [intros; apply Hg; right; assumption|nia|].
  exists p2. split; [exact E2|]. split; [lia|]. split.
  + intros [|k] f' cols' m Hk Hm Hmn.
    * cbn in Hk. injection Hk as <-. rewrite Ec in Hm. injection Hm as <-.
      rewrite O2 by (left; nia). rewrite N1. rewrite !Nat.add_0_r, Lc.
      destruct (Nat.leb_spec (nm * cnt) (nm * cnt + m)); [|lia].
      destruct (Nat.ltb_spec (nm * cnt + m) (nm * cnt + nm)); [|lia]. cbn [andb]. f_equal. lia.
    * cbn in Hk. specialize (N2 k f' cols' m Hk Hm Hmn). rewrite <- N2. f_equal. lia.
  + intros j Hj. cbn [length] in Hj. rewrite O2 by nia. rewrite N1, Nat.add_0_r, Lc.
    destruct (Nat.leb_spec (nm * cnt) j); destruct (Nat.ltb_spec j (nm * cnt + nm)); cbn [andb]; try reflexivity; nia.
Qed.
Lemma gather_good nm : forall freqs cnt (p p' : list A), gather modes_at nm cnt freqs p = Ok p' -> forall f, In f freqs -> good nm f.
Proof.
induction freqs as [|f r IH]; intros cnt p p' H g Hg; [destruct Hg|]. cbn [gather] in H.
destruct (modes_at f) as [cols|] eqn:E; [|discriminate]. destruct (Nat.eqb_spec (length cols) nm) as [L|]; [|discriminate].
destruct (put nm cnt 0 cols p) as [p1|] eqn:E1; [|discriminate]. cbn [bind] in H.
destruct Hg as [<-|Hg]; [exists cols; auto|]. exact (IH _ _ _ H g Hg).
Qed.
Lemma gather_fit nm : forall freqs cnt (p p' : list A), 1 <= nm -> length p mod nm = 0 -> nm * cnt <= length p ->
  gather modes_at nm cnt freqs p = Ok p' -> nm * (cnt + length freqs) <= length p.
Proof.
induction freqs as [|f r IH]; intros cnt p p' Hn Hm Hc H; cbn [length]; [lia|]. cbn [gather] in H.
destruct (modes_at f) as [cols|] eqn:E; [|discriminate]. destruct (Nat.eqb_spec (length cols) nm) as [L|]; [|discriminate].
assert (Hc2 : nm * S cnt <= length p).
{ destruct (Nat.le_gt_cases (nm * S cnt) (length p)) as [Q|Q]; [exact Q|exfalso].
  assert (length p = nm * cnt). { apply Nat.mod_divide in Hm; [|lia]. destruct Hm as [q Hq]. rewrite Hq in *. clear - Hn Hc Q. assert (cnt <= q) by nia. assert (q < S cnt) by nia. assert (q = cnt) by lia. subst q. lia. }
  rewrite (@put_fail nm cnt cols 0 p) in H; [discriminate|lia|]. destruct cols; cbn in L; [lia|congruence]. }
destruct (put nm cnt 0 cols p) as [p1|] eqn:E1; [|discriminate]. cbn [bind] in H.
assert (L1 : length p1 = length p).
{ destruct (@put_ok nm cnt cols 0 p) as [q [Eq [Lq _]]]; [intros; nia|]. rewrite Eq in E1. injection E1 as <-. exact Lq. }
specialize (IH (S cnt) p1 p'). rewrite L1 in IH. specialize (IH Hn Hm Hc2 H). nia.
Qed.
Lemma nth_error_repeat n j : nth_error (repeat zero n) j = if j <? n then Some zero else None.
Proof.
destruct (Nat.ltb_spec j n) as [H|H].
- rewrite (nth_error_nth' _ zero) by (rewrite repeat_length; exact H). rewrite nth_repeat. reflexivity.
- apply nth_error_None. rewrite repeat_length. exact H.
Qed.
End Modes.

(* ---- times ---- *)
Lemma norm_all_ok nt : forall l, (forall i, In i l -> (0 <= i < Z.of_nat nt)%Z) -> norm_all nt l = Ok (map Z.to_nat l).
Proof.
induction l as [|i r IH]; intros H; [reflexivity|]. cbn [norm_all map].
unfold norm_index. specialize (IH (fun i Hi => H i (or_intror Hi))). specialize (H i (or_introl eq_refl)).
destruct (Z.leb_spec 0 i); [|lia]. destruct (Z.ltb_spec i (Z.of_nat nt)); [|lia]. cbn [andb bind]. rewrite IH. reflexivity.
Qed.
Lemma norm_all_inv nt : forall l r, norm_all nt l = Ok r -> forall i, In i l -> (- Z.of_nat nt <= i < Z.of_nat nt)%Z.
Proof.
induction l as [|i l IH]; intros r H j Hj; [destruct Hj|]. cbn [norm_all] in H.
destruct (norm_index nt i) as [a|] eqn:E; [|discriminate]. cbn [bind] in H.
destruct (norm_all nt l) as [b|] eqn:Eb; [|discriminate]. destruct Hj as [<-|Hj]; [|exact (IH _ eq_refl j Hj)].
unfold norm_index in E.
destruct (Z.leb_spec 0 i); destruct (Z.ltb_spec i (Z.of_nat nt)); cbn [andb] in E; try lia;
destruct (Z.leb_spec (- Z.of_nat nt) i); destruct (Z.ltb_spec i 0); cbn [andb] in E; try discriminate; lia.
Qed.
Lemma norm_all_total nt : forall l, (forall i, In i l -> (- Z.of_nat nt <= i < Z.of_nat nt)%Z) ->
  norm_all nt l = Ok (map (fun i => Z.to_nat (if (i <? 0)%Z then i + Z.of_nat nt else i)) l).
Proof.
induction l as [|i r IH]; intros H; [reflexivity|]. cbn [norm_all map].
specialize (IH (fun i Hi => H i (or_intror Hi))). specialize (H i (or_introl eq_refl)). rewrite IH.
unfold norm_index.
destruct (Z.leb_spec 0 i); destruct (Z.ltb_spec i (Z.of_nat nt)); cbn [andb]; try lia;
destruct (Z.leb_spec (- Z.of_nat nt) i); destruct (Z.ltb_spec i 0); cbn [andb bind]; try lia; reflexivity.
Qed.
Lemma arange_times nt d : 1 <= d -> exists l, norm_all nt (arange nt d) = Ok l /\ Sorted lt l /\ forall i, In i l <-> i < nt /\ Nat.divide d i.
Proof.
intros Hd. exists (map (fun i => i * d) (seq 0 ((nt + d - 1) / d))). split; [|split].
- unfold arange. rewrite norm_all_ok.
  + rewrite map_map. f_equal. apply map_ext. intros. apply Nat2Z.id.
  + intros i Hi. apply in_map_iff in Hi as [k [<- Hk]]. apply in_seq in Hk. split; [lia|]. apply inj_lt.
    assert (Hq : (nt + d - 1) / d * d <= nt + d - 1) by (rewrite Nat.mul_comm; apply Nat.mul_div_le; lia).
    revert Hk Hq. generalize ((nt + d - 1) / d). clear - Hd. intros q Hk Hq. nia.
- generalize ((nt + d - 1) / d) as q. generalize 0 as s. intros s q. revert s. induction q as [|q IH]; intros s; cbn [seq map]; constructor.
  + apply IH.
  + destruct q; cbn [seq map]; constructor. nia.
- intros i. rewrite in_map_iff. split.
  + intros [k [<- Hk]]. apply in_seq in Hk. split; [|exists k; reflexivity].
    assert (Hq : (nt + d - 1) / d * d <= nt + d - 1) by (rewrite Nat.mul_comm; apply Nat.mul_div_le; lia).
    revert Hk Hq. generalize ((nt + d - 1) / d). clear - Hd. intros q Hk Hq. nia.
  + intros [Hi [k Hk]]. exists k. split; [lia|]. apply in_seq. split; [lia|]. cbn [Nat.add].
    assert (nt + d - 1 < d * S ((nt + d - 1) / d)) by (apply Nat.mul_succ_div_gt; lia).
    revert H. generalize ((nt + d - 1) / d). clear - Hd Hi Hk. intros q H. nia.
Qed.

(* ---- conv file ---- *)
Section Conv.
Variable A : Type.
Variable M : nat -> nat -> nat -> A.
Lemma flat_map_nth B (g : nat -> list B) c : (forall i, length (g i) = c) -> forall n s k j, j < c -> k < n ->
  nth_error (flat_map g (seq s n)) (k * c + j) = nth_error (g (s + k)) j.
Proof.
intros Hg. induction n as [|n IH]; intros s k j Hj Hk; [lia|]. cbn [seq flat_map].
destruct k as [|k].
- rewrite nth_error_app1 by (rewrite Hg; lia). rewrite Nat.add_0_r. f_equal. 
- rewrite nth_error_app2 by (rewrite Hg; nia). rewrite Hg. replace (S k * c + j - c) with (k * c + j) by nia.
  rewrite IH by lia. f_equal. f_equal. lia.
Qed.
Lemma flat_map_len B (g : nat -> list B) c n s : (forall i, length (g i) = c) -> length (flat_map g (seq s n)) = n * c.
Proof. intros Hg. revert s. induction n as [|n IH]; intros s; cbn [seq flat_map]; [reflexivity|]. rewrite app_length, IH, Hg. lia. Qed.
Lemma conv_entry nf xs nm x f m : x < xs -> f < nf -> m < nm ->
  conv_file_entry M nf xs nm x f m = Some (M ((x * nf + f) / xs) ((x * nf + f) mod xs) m).
Proof.
intros Hx Hf Hm. unfold conv_file_entry, conv_phir. set (q := x * nf + f).
assert (Hq : q < nf * xs) by (unfold q; nia). clearbody q.
assert (Hdm : q = (q / xs) * xs + q mod xs) by (rewrite Nat.mul_comm; apply Nat.div_mod; lia).
assert (Hmod : q mod xs < xs) by (apply Nat.mod_upper_bound; lia).
assert (Hdiv : q / xs < nf) by (apply Nat.div_lt_upper_bound; lia).
set (F := fun f0 => flat_map (fun x0 => map (fun m0 => M f0 x0 m0) (seq 0 nm)) (seq 0 xs)).
assert (HF : forall f0, length (F f0) = xs * nm) by (intros; apply flat_map_len; intros; rewrite map_length, seq_length; reflexivity).
replace (q * nm + m) with (q / xs * (xs * nm) + (q mod xs * nm + m)) by (rewrite Hdm at 3; ring).
rewrite (flat_map_nth F HF) by nia. unfold F. rewrite flat_map_nth by (try (intros; rewrite map_length, seq_length; reflexivity); lia).
rewrite nth_error_map. cbn [Nat.add].
rewrite (nth_error_nth' _ 0) by (rewrite seq_length; lia). rewrite seq_nth by lia. reflexivity.
Qed.
End Conv.
(* facts about the zero padding used for the convolution *)
Lemma h_pad_bounds (n_dft : nat) : 2 <= n_dft -> 0 < Z.to_nat (half_up n_dft) < n_dft.
Proof. intro H. unfold half_up. assert (1 <= (Z.of_nat n_dft + 1) / 2 < Z.of_nat n_dft)%Z by (split; [apply Z.div_le_lower_bound|apply Z.div_lt_upper_bound]; lia). lia. Qed.
Lemma in_sum_last (nt n_dft : nat) : 2 <= n_dft -> n_dft < nt -> in_sum nt n_dft 0 (n_dft - 1) = true.
Proof.
intros H1 H2. pose proof (h_pad_bounds H1) as Hb. unfold in_sum, corr_range.
destruct (Z.ltb_spec (Z.of_nat 0) (half_up n_dft - 2)).
- apply andb_true_iff. split; [apply Z.leb_le|apply Z.ltb_lt]; lia.
- rewrite Z.geb_leb. destruct (Z.leb_spec (Z.of_nat nt - half_up n_dft) (Z.of_nat 0)); [lia|reflexivity].
Qed.

(* a segment inside the record, ceil(n_dft/2) before its end, gets no correction *)
Lemma no_corr nt n_dft o : o + 2 * Z.to_nat (half_up n_dft) < nt ->
  corr_range nt n_dft (o + Z.to_nat (half_up n_dft)) = None.
Proof.
  intros H. unfold corr_range. assert (Hp : (0 <= half_up n_dft)%Z) by (unfold half_up; apply Z.div_pos; lia).
  destruct (Z.ltb_spec (Z.of_nat (o + Z.to_nat (half_up n_dft))) (half_up n_dft - 2)); [lia|].
  rewrite Z.geb_leb. destruct (Z.leb_spec (Z.of_nat nt - half_up n_dft) (Z.of_nat (o + Z.to_nat (half_up n_dft)))); [lia|reflexivity].
Qed.
