(* C104: the peaks reported by plot_report. *)
From Coq Require Import QArith Qabs Sorted Lqa.
From Verif Require Import Base_List Model_Select Model_Plot2 Spec_Select Proof_Select Prop_Plot3.
Set Implicit Arguments.
Local Open Scope nat_scope.

(* ---- specification ---- *)
Definition increasing (l : list Q) : Prop := forall i j x y, i < j -> nth_error l i = Some x -> nth_error l j = Some y -> (x < y)%Q.
(* mean of the values at the positions i-5, ..., i+4 that exist *)
Definition near (n i : nat) : list nat := filter (fun k => (i <=? k + 5) && (k <? i + 5)) (seq 0 n).
Definition mean_near (vals : list Q) (i : nat) : Q :=
  (fold_right Qplus 0%Q (map (fun k => nth k vals 0%Q) (near (length vals) i)) / inject_Z (Z.of_nat (length (near (length vals) i))))%Q.
(* more than one and a half times the mean of its neighbourhood, larger than both neighbours, and not smaller than any value at
   a frequency within ten percent *)
Definition peak (vals fr : list Q) (i : nat) : Prop :=
  exists v f, nth_error vals i = Some v /\ nth_error fr i = Some f /\
    ((3 # 2) * mean_near vals i < v)%Q /\
    (forall j w, nth_error vals j = Some w -> S j = i \/ j = S i -> (w < v)%Q) /\
    (forall j w g, nth_error vals j = Some w -> nth_error fr j = Some g -> (f * (9 # 10) <= g)%Q -> (g <= f * (11 # 10))%Q -> (w <= v)%Q).

Lemma Qlt_b_iff a b : Qlt_b a b = true <-> (a < b)%Q.
Proof.
  unfold Qlt_b. rewrite Bool.negb_true_iff. split; intros H.
  - destruct (Qlt_le_dec a b) as [|L]; [assumption|]. apply Qle_bool_iff in L. congruence.
  - destruct (Qle_bool b a) eqn:E; [|reflexivity]. apply Qle_bool_iff in E. exfalso. apply (Qlt_not_le _ _ H E).
Qed.
(* ---- bisection ---- *)
Lemma bisect_range below fr n lo hi : lo <= hi -> lo <= bisect n below fr lo hi <= hi.
Proof.
  revert lo hi. induction n as [|n IH]; intros lo hi H; cbn [bisect]; [lia|]. destruct (Nat.ltb_spec lo hi); [|lia].
  set (mid := lo + (hi - lo) / 2). assert (lo <= mid < hi). { unfold mid. assert (((hi - lo) / 2 < hi - lo)%nat) by (apply Nat.div_lt; lia). lia. }
  destruct (below _); [specialize (IH (S mid) hi)|specialize (IH lo mid)]; lia.
Qed.
Lemma bisect_mono b1 b2 fr n lo hi : (forall x, b1 x = true -> b2 x = true) -> lo <= hi -> hi - lo <= n ->
  bisect n b1 fr lo hi <= bisect n b2 fr lo hi.
Proof.
  intros Hb. revert lo hi. induction n as [|n IH]; intros lo hi H Hn; cbn [bisect]; [lia|]. destruct (Nat.ltb_spec lo hi); [|lia].
  set (mid := lo + (hi - lo) / 2). assert (lo <= mid < hi). { unfold mid. assert (((hi - lo) / 2 < hi - lo)%nat) by (apply Nat.div_lt; lia). lia. }
  destruct (b1 (nth mid fr 0%Q)) eqn:E1.
  - rewrite (Hb _ E1). apply IH; lia.
  - destruct (b2 (nth mid fr 0%Q)).
    + assert (B1 := @bisect_range b1 fr n lo mid ltac:(lia)). assert (B2 := @bisect_range b2 fr n (S mid) hi ltac:(lia)). lia.
    + apply IH; lia.
Qed.
Lemma bisect_spec below fr n lo hi :
  (forall i j, i <= j -> j < length fr -> below (nth j fr 0%Q) = true -> below (nth i fr 0%Q) = true) -> lo <= hi -> hi <= length fr -> hi - lo <= n ->
  (forall j, j < lo -> below (nth j fr 0%Q) = true) -> (forall j, hi <= j -> j < length fr -> below (nth j fr 0%Q) = false) ->
  forall j, j < length fr -> (j < bisect n below fr lo hi <-> below (nth j fr 0%Q) = true).
Proof.
  intros Hm. revert lo hi. induction n as [|n IH]; intros lo hi H Hl Hn L U j Hj; cbn [bisect].
  - destruct (Nat.lt_ge_cases j lo) as [G|G]; [split; auto|]. rewrite U by lia. split; [lia|discriminate].
  - destruct (Nat.ltb_spec lo hi) as [G0|G0].
    + set (mid := lo + (hi - lo) / 2). assert (lo <= mid < hi). { unfold mid. assert (((hi - lo) / 2 < hi - lo)%nat) by (apply Nat.div_lt; lia). lia. }
      destruct (below (nth mid fr 0%Q)) eqn:E.
      * apply IH; try lia; auto. intros k Hk. apply (Hm k mid); [lia|lia|exact E].
      * apply IH; try lia; auto. intros k Hk Hk'. destruct (below (nth k fr 0%Q)) eqn:E'; [|reflexivity]. rewrite (Hm mid k) in E; [discriminate|lia|lia|exact E'].
    + destruct (Nat.lt_ge_cases j lo) as [G|G]; [split; auto|]. rewrite U by lia. split; [lia|discriminate].
Qed.
Lemma nth_err (l : list Q) i : i < length l -> nth_error l i = Some (nth i l 0%Q).
Proof. intros H. now apply nth_error_nth'. Qed.
Lemma inc_le fr i j : increasing fr -> i <= j -> j < length fr -> (nth i fr 0%Q <= nth j fr 0%Q)%Q.
Proof.
  intros H Hij Hj. destruct (Nat.eq_dec i j) as [->|Hn]; [apply Qle_refl|]. apply Qlt_le_weak. apply (H i j); [lia|apply nth_err; lia|apply nth_err; lia].
Qed.
Lemma search_left_spec fr v j : increasing fr -> j < length fr -> (j < search_left fr v <-> (nth j fr 0%Q < v)%Q).
Proof.
  intros H Hj. unfold search_left. rewrite bisect_spec; try lia.
  - apply Qlt_b_iff.
  - intros a b Hab Hb E. apply Qlt_b_iff in E. apply Qlt_b_iff. eapply Qle_lt_trans; [|exact E]. now apply inc_le.
Qed.
Lemma search_right_spec fr v j : increasing fr -> j < length fr -> (j < search_right fr v <-> (nth j fr 0%Q <= v)%Q).
Proof.
  intros H Hj. unfold search_right. rewrite bisect_spec; try lia.
  - apply Qle_bool_iff.
  - intros a b Hab Hb E. apply Qle_bool_iff in E. apply Qle_bool_iff. eapply Qle_trans; [|exact E]. now apply inc_le.
Qed.
(* ---- the neighbourhood ---- *)
Lemma window_map (vals : list Q) s n : s + n <= length vals -> window s n vals = map (fun k => nth k vals 0%Q) (seq s n).
Proof.
  revert s vals. induction n as [|n IH]; intros s vals H; unfold window in *; [reflexivity|].
  cbn [seq map]. rewrite <- IH by lia. clear IH. revert vals H. induction s as [|s IHs]; intros vals H.
  - destruct vals as [|x l]; [cbn in H; lia|]. cbn. reflexivity.
  - destruct vals as [|x l]; [cbn in H; lia|]. cbn [skipn nth]. rewrite IHs by (cbn in H; lia). reflexivity.
Qed.
Lemma filter_none B (P : B -> bool) l : (forall x, In x l -> P x = false) -> filter P l = [].
Proof. induction l as [|x l IH]; intros H; [reflexivity|]. cbn. rewrite H by (now left). apply IH. intros y I. apply H. now right. Qed.
Lemma filter_all B (P : B -> bool) l : (forall x, In x l -> P x = true) -> filter P l = l.
Proof. induction l as [|x l IH]; intros H; [reflexivity|]. cbn. rewrite H by (now left). f_equal. apply IH. intros y I. apply H. now right. Qed.
Lemma near_seq n i : i < n -> near n i = seq (i - 5) (Nat.min (i + 5) n - (i - 5)).
Proof.
  intros H. unfold near. set (a := i - 5). set (b := Nat.min (i + 5) n).
  assert (E : seq 0 n = seq 0 a ++ seq a (b - a) ++ seq b (n - b)).
  { transitivity (seq 0 (a + ((b - a) + (n - b)))); [f_equal; lia|]. rewrite seq_app, seq_app. cbn [Nat.add]. repeat f_equal; lia. }
  rewrite E, !filter_app. rewrite (@filter_none _ _ (seq 0 a)), (@filter_none _ _ (seq b (n - b))), app_nil_r.
  - cbn [app]. apply filter_all. intros k I. apply in_seq in I. destruct (Nat.leb_spec i (k + 5)); [|lia]. destruct (Nat.ltb_spec k (i + 5)); [|lia]. reflexivity.
  - intros k I. apply in_seq in I. destruct (Nat.ltb_spec k (i + 5)); [lia|]. apply Bool.andb_false_r.
  - intros k I. apply in_seq in I. destruct (Nat.leb_spec i (k + 5)); [lia|]. reflexivity.
Qed.
Lemma mean_window vals i : i < length vals -> qmean (window (i - 5) (Nat.min (i + 5) (length vals) - (i - 5)) vals) = mean_near vals i.
Proof.
  intros H. unfold mean_near. rewrite near_seq by exact H. unfold qmean, qsumw. rewrite window_map by lia. now rewrite map_length, seq_length.
Qed.

(* ---- one position ---- *)
Lemma is_peak_spec vals fr i : increasing fr -> Forall (fun f => (0 < f)%Q) fr -> length fr = length vals -> i < length vals ->
  exists b, is_peak 5 vals fr i = Ok b /\ (b = true <-> peak vals fr i).
Proof.
  intros Hi Hp Hl Hlt. unfold is_peak. cbv zeta. rewrite mean_window by exact Hlt.
  set (v := nth i vals 0%Q). set (f := nth i fr 0%Q).
  assert (Ev : nth_error vals i = Some v) by (now apply nth_err). assert (Ef : nth_error fr i = Some f) by (apply nth_err; lia).
  assert (Pf : (0 < f)%Q). { rewrite Forall_forall in Hp. apply Hp. eapply nth_error_In; eauto. }
  set (lo := search_left fr (f * (9 # 10))). set (hi := Nat.min (search_right fr (f * (11 # 10))) (length vals)).
  assert (Hlo : forall j, j < length fr -> (lo <= j <-> (f * (9 # 10) <= nth j fr 0%Q)%Q)).
  { intros j Hj. assert (S := @search_left_spec fr (f * (9 # 10)) j Hi Hj). fold lo in S. split; intros G.
    - destruct (Qlt_le_dec (nth j fr 0%Q) (f * (9 # 10))) as [L|L]; [|exact L]. apply S in L. lia.
    - destruct (Nat.le_gt_cases lo j) as [|L]; [assumption|]. apply S in L. exfalso. apply (Qlt_not_le _ _ L G). }
  assert (Hhi : forall j, j < length fr -> (j < hi <-> (nth j fr 0%Q <= f * (11 # 10))%Q)).
  { intros j Hj. assert (S := @search_right_spec fr (f * (11 # 10)) j Hi Hj). unfold hi. rewrite <- S. lia. }
  assert (Il : lo <= i) by (apply Hlo; [lia|]; fold f; lra). assert (Ih : i < hi) by (apply Hhi; [lia|]; fold f; lra).
  assert (Hw : window lo (hi - lo) vals = map (fun k => nth k vals 0%Q) (seq lo (hi - lo))) by (apply window_map; unfold hi; lia).
  assert (Iv : In v (window lo (hi - lo) vals)). { rewrite Hw. apply in_map_iff. exists i. split; [reflexivity|]. apply in_seq. lia. }
  destruct (@qmaxl_some (window lo (hi - lo) vals)) as [top Et]. { intros E. rewrite E in Iv. destruct Iv. }
  destruct (qmaxl_spec _ Et) as [It Mt].
  assert (Up : (if 0 <? i then Qlt_b (nth (i - 1) vals 0%Q) v else true) = true <-> (forall j w, nth_error vals j = Some w -> S j = i -> (w < v)%Q)).
  { destruct (Nat.ltb_spec 0 i) as [G|G].
    - rewrite Qlt_b_iff. split; [|intros X; apply (X (i - 1)); [apply nth_err; lia|lia]]. intros X j w Ej <-. replace (S j - 1) with j in X by lia.
      now rewrite (nth_error_nth _ _ _ Ej) in X.
    - split; [|reflexivity]. intros _ j w _ E. lia. }
  assert (Dn : (if i <? length vals - 1 then Qlt_b (nth (i + 1) vals 0%Q) v else true) = true <-> (forall j w, nth_error vals j = Some w -> j = S i -> (w < v)%Q)).
  { destruct (Nat.ltb_spec i (length vals - 1)) as [G|G].
    - rewrite Qlt_b_iff. split; [|intros X; apply (X (i + 1)); [apply nth_err; lia|lia]]. intros X j w Ej ->. replace (i + 1) with (S i) in X by lia.
      now rewrite (nth_error_nth _ _ _ Ej) in X.
    - split; [|reflexivity]. intros _ j w Ej ->. assert (S i < length vals) by (apply nth_error_Some; congruence). lia. }
  assert (Mx : (v == top)%Q <-> (forall j w g, nth_error vals j = Some w -> nth_error fr j = Some g -> (f * (9 # 10) <= g)%Q -> (g <= f * (11 # 10))%Q -> (w <= v)%Q)).
  { split.
    - intros E j w g Ej Eg L1 L2. rewrite E. apply Mt. rewrite Hw. apply in_map_iff. exists j. split; [now apply nth_error_nth|]. apply in_seq.
      assert (Lj : j < length fr) by (apply nth_error_Some; congruence). rewrite <- (nth_error_nth _ _ 0%Q Eg) in L1, L2. apply Hlo in L1; [|exact Lj]. apply Hhi in L2; [|exact Lj]. lia.
    - intros X. apply Qle_antisym; [apply Mt, Iv|]. rewrite Hw in It. apply in_map_iff in It as (j & Ej & Ij). apply in_seq in Ij.
      assert (Lj : j < length fr) by (unfold hi in *; lia).
      apply (X j top (nth j fr 0%Q)); [rewrite <- Ej; apply nth_err; lia|apply nth_err; lia|apply Hlo; lia|apply Hhi; lia]. }
  assert (Pk : peak vals fr i <-> ((3 # 2) * mean_near vals i < v)%Q /\ (forall j w, nth_error vals j = Some w -> S j = i \/ j = S i -> (w < v)%Q) /\
     (forall j w g, nth_error vals j = Some w -> nth_error fr j = Some g -> (f * (9 # 10) <= g)%Q -> (g <= f * (11 # 10))%Q -> (w <= v)%Q)).
  { split; [intros (v' & f' & E1 & E2 & R)|intros R; exists v, f; auto]. rewrite Ev in E1. rewrite Ef in E2. injection E1 as <-. injection E2 as <-. exact R. }
  rewrite Et. cbn [bind].
  destruct (Qlt_b ((3 # 2) * mean_near vals i) v && (if 0 <? i then Qlt_b (nth (i - 1) vals 0%Q) v else true) && (if i <? length vals - 1 then Qlt_b (nth (i + 1) vals 0%Q) v else true)) eqn:C.
  - apply andb_prop in C as [C C3]. apply andb_prop in C as [C1 C2]. apply Qlt_b_iff in C1. rewrite Up in C2. rewrite Dn in C3. eexists. split; [reflexivity|].
    rewrite Qeq_bool_iff, Mx, Pk. split; [intros X; split; [exact C1|]; split; [|exact X]|intros (_ & _ & X); exact X]. intros j w Ej [E|E]; eauto.
  - eexists. split; [reflexivity|]. split; [discriminate|]. rewrite Pk. intros (P1 & P2 & _). exfalso. apply Bool.not_true_iff_false in C. apply C.
    rewrite !andb_true_iff. split; [split|]; [now apply Qlt_b_iff|apply Up; eauto|apply Dn; eauto].
Qed.
Lemma peaks_from_spec vals fr l : (forall i, In i l -> exists b, is_peak 5 vals fr i = Ok b /\ (b = true <-> peak vals fr i)) -> StronglySorted lt l ->
  exists r, peaks_from 5 vals fr l = Ok r /\ StronglySorted lt r /\ forall i, In i r <-> In i l /\ peak vals fr i.
Proof.
  intros H S. induction S as [|i l S IH F]; cbn [peaks_from].
  - exists []. split; [reflexivity|]. split; [constructor|]. cbn. tauto.
  - destruct (H i (or_introl eq_refl)) as (b & E & B). rewrite E. cbn [bind]. destruct IH as (r & Er & Sr & Ir); [intros j I; apply H; now right|]. rewrite Er. cbn [bind].
    eexists. split; [reflexivity|]. destruct b.
    + split.
      * constructor; [exact Sr|]. rewrite Forall_forall in F |- *. intros j I. apply F. now apply Ir.
      * intros j. cbn. rewrite Ir. split; [intros [<-|[I P]]; [split; [now left|]; now apply B|tauto]|]. intros [[<-|I] P]; [now left|right; tauto].
    + split; [exact Sr|]. intros j. rewrite Ir. cbn. split; [tauto|]. intros [[<-|I] P]; [apply B in P; discriminate|tauto].
Qed.
Lemma seq_sorted s n : StronglySorted lt (seq s n).
Proof. revert s. induction n as [|n IH]; intros s; cbn; constructor; [apply IH|]. apply Forall_forall. intros j I. apply in_seq in I. lia. Qed.
(* For increasing positive frequencies the search reports exactly the peaks, in order. *)
Theorem C104_exactly_the_peaks : forall vals fr, increasing fr -> Forall (fun f => (0 < f)%Q) fr -> length fr = length vals ->
  exists l, find_peaks vals fr = Ok l /\ StronglySorted lt l /\ forall i, In i l <-> peak vals fr i.
Proof.
  intros vals fr Hi Hp Hl. destruct (@peaks_from_spec vals fr (seq 0 (length vals))) as (r & E & S & I).
  - intros i I. apply in_seq in I. apply is_peak_spec; auto; lia.
  - apply seq_sorted.
  - exists r. split; [exact E|]. split; [exact S|]. intros i. rewrite I. split; [tauto|]. intros P. split; [|exact P]. destruct P as (v & f & Ev & _). apply in_seq.
    assert (i < length vals) by (apply nth_error_Some; congruence). lia.
Qed.
(* Two reported peaks less than ten percent apart have the same height. *)
Theorem C104_close_peaks_equal : forall vals fr l i j fi fj vi vj, increasing fr -> Forall (fun f => (0 < f)%Q) fr -> length fr = length vals ->
  find_peaks vals fr = Ok l -> In i l -> In j l ->
  nth_error fr i = Some fi -> nth_error fr j = Some fj -> nth_error vals i = Some vi -> nth_error vals j = Some vj ->
  (fi <= fj)%Q -> (fj <= fi * (11 # 10))%Q -> (vi == vj)%Q.
Proof.
  intros vals fr l i j fi fj vi vj Hi Hp Hl E Ii Ij Fi Fj Vi Vj L1 L2.
  destruct (@C104_exactly_the_peaks vals fr Hi Hp Hl) as (l' & E' & _ & Pk). rewrite E in E'. injection E' as <-.
  apply Pk in Ii as (v & f & E1 & E2 & _ & _ & M1). apply Pk in Ij as (w & g & E3 & E4 & _ & _ & M2).
  rewrite E1 in Vi. rewrite E2 in Fi. rewrite E3 in Vj. rewrite E4 in Fj. injection Vi as ->. injection Fi as ->. injection Vj as ->. injection Fj as ->.
  assert (P1 : (0 < fi)%Q) by (rewrite Forall_forall in Hp; apply Hp; eapply nth_error_In; eauto).
  apply Qle_antisym.
  - apply (M2 i vi fi E1 E2); lra.
  - apply (M1 j vj fj E3 E4); lra.
Qed.
Lemma sorted_ext l r : StronglySorted lt l -> StronglySorted lt r -> (forall i, In i l <-> In i r) -> l = r.
Proof.
  intros Sl. revert r. induction Sl as [|x l Sl IH Fx]; intros r Sr H.
  - destruct r as [|y r]; [reflexivity|]. exfalso. apply (H y). now left.
  - destruct r as [|y r]; [exfalso; apply (H x); now left|]. inversion Sr as [|? ? Sr' Fy]; subst. rewrite Forall_forall in Fx, Fy.
    assert (x = y).
    { destruct (proj1 (H x) (or_introl eq_refl)) as [->|Ix]; [reflexivity|]. destruct (proj2 (H y) (or_introl eq_refl)) as [->|Iy]; [reflexivity|].
      specialize (Fx y Iy). specialize (Fy x Ix). lia. }
    subst y. f_equal. apply IH; [exact Sr'|]. intros i. split; intros I.
    + destruct (proj1 (H i) (or_intror I)) as [<-|I']; [|exact I']. specialize (Fx _ I). lia.
    + destruct (proj2 (H i) (or_intror I)) as [<-|I']; [|exact I']. specialize (Fy _ I). lia.
Qed.
Lemma nth_err_scale c vals i : nth_error (map (Qmult c) vals) i = option_map (Qmult c) (nth_error vals i).
Proof. revert i. induction vals as [|x l IH]; intros [|i]; cbn; auto. Qed.
Lemma mean_scale c vals i : (mean_near (map (Qmult c) vals) i == c * mean_near vals i)%Q.
Proof.
  unfold mean_near. rewrite map_length. generalize (near (length vals) i). intros l.
  assert (S : (fold_right Qplus 0 (map (fun k => nth k (map (Qmult c) vals) 0) l) == c * fold_right Qplus 0 (map (fun k => nth k vals 0%Q) l))%Q).
  { induction l as [|k l IH]; cbn [map fold_right]; [ring|]. rewrite IH.
    assert (N : (nth k (map (Qmult c) vals) 0 == c * nth k vals 0%Q)%Q).
    { destruct (Nat.lt_ge_cases k (length vals)) as [G|G].
      - erewrite nth_error_nth; [reflexivity|]. rewrite nth_err_scale, (nth_err _ G). reflexivity.
      - rewrite !nth_overflow by (rewrite ?map_length; lia). ring. }
    rewrite N. ring. }
  rewrite S. unfold Qdiv. ring.
Qed.
(* Rescaling the eigenvalues (other units) does not change the report. *)
Theorem C104_scale_invariant : forall c vals fr, (0 < c)%Q -> increasing fr -> Forall (fun f => (0 < f)%Q) fr -> length fr = length vals ->
  find_peaks (map (Qmult c) vals) fr = find_peaks vals fr.
Proof.
  intros c vals fr Hc Hi Hp Hl. destruct (@C104_exactly_the_peaks vals fr Hi Hp Hl) as (l & E & S & I).
  destruct (@C104_exactly_the_peaks (map (Qmult c) vals) fr Hi Hp) as (l' & E' & S' & I'); [now rewrite map_length|].
  rewrite E, E'. f_equal. apply sorted_ext; auto. intros i. rewrite I, I'. clear E E' I I' S S' l l'.
  assert (M := mean_scale c vals i). assert (Ml : forall a b : Q, (c * a < c * b)%Q <-> (a < b)%Q) by (intros; split; [apply Qmult_lt_l; exact Hc|intros; apply Qmult_lt_l; assumption]).
  assert (Me : forall a b : Q, (c * a <= c * b)%Q <-> (a <= b)%Q) by (intros; apply Qmult_le_l; exact Hc).
  split.
  - intros (v & f & Ev & Ef & P1 & P2 & P3). rewrite nth_err_scale in Ev. destruct (nth_error vals i) as [w|] eqn:Ew; [|discriminate]. injection Ev as <-.
    exists w, f. split; [exact Ew|]. split; [exact Ef|]. split; [|split].
    + rewrite M in P1. apply Ml. setoid_replace (c * ((3 # 2) * mean_near vals i))%Q with ((3 # 2) * (c * mean_near vals i))%Q by ring. exact P1.
    + intros j x Ej Hj. apply Ml. apply (P2 j); [rewrite nth_err_scale, Ej; reflexivity|exact Hj].
    + intros j x g Ej Eg G1 G2. apply Me. apply (P3 j _ g); [rewrite nth_err_scale, Ej; reflexivity|exact Eg|exact G1|exact G2].
  - intros (w & f & Ew & Ef & P1 & P2 & P3). exists (c * w)%Q, f. split; [now rewrite nth_err_scale, Ew|]. split; [exact Ef|]. split; [|split].
    + rewrite M. setoid_replace ((3 # 2) * (c * mean_near vals i))%Q with (c * ((3 # 2) * mean_near vals i))%Q by ring. now apply Ml.
    + intros j x Ej Hj. rewrite nth_err_scale in Ej. destruct (nth_error vals j) as [y|] eqn:Ey; [|discriminate]. injection Ej as <-. apply Ml. eauto.
    + intros j x g Ej Eg G1 G2. rewrite nth_err_scale in Ej. destruct (nth_error vals j) as [y|] eqn:Ey; [|discriminate]. injection Ej as <-. apply Me. eauto.
Qed.
(* A maximum shared by two neighbouring frequencies is not reported. *)
Theorem C104_flat_top_refuted : forall vals fr l i v w, increasing fr -> Forall (fun f => (0 < f)%Q) fr -> length fr = length vals ->
  find_peaks vals fr = Ok l -> nth_error vals i = Some v -> nth_error vals (S i) = Some w -> (v == w)%Q -> ~ In i l /\ ~ In (S i) l.
Proof.
  intros vals fr l i v w Hi Hp Hl E Ev Ew Eq. destruct (@C104_exactly_the_peaks vals fr Hi Hp Hl) as (l' & E' & _ & Pk). rewrite E in E'. injection E' as <-.
  split; intros I; apply Pk in I as (x & f & E1 & E2 & _ & P & _).
  - rewrite Ev in E1. injection E1 as <-. specialize (P (S i) w Ew (or_intror eq_refl)). rewrite Eq in P. apply (Qlt_irrefl _ P).
  - rewrite Ew in E1. injection E1 as <-. specialize (P i v Ev (or_introl eq_refl)). rewrite Eq in P. apply (Qlt_irrefl _ P).
Qed.
(* Whatever the order of the frequencies: a candidate (larger than its neighbours and than 1.5 times the mean) at a negative frequency
   makes the report fail. *)
Theorem C104_negative_frequency_refuted : forall vals fr i v f, nth_error vals i = Some v -> nth_error fr i = Some f -> (f < 0)%Q ->
  ((3 # 2) * mean_near vals i < v)%Q -> (forall j w, nth_error vals j = Some w -> S j = i \/ j = S i -> (w < v)%Q) ->
  find_peaks vals fr = Err ValueError.
Proof.
  intros vals fr i v f Ev Ef Hf Hm Hn. assert (Hlt : i < length vals) by (apply nth_error_Some; congruence).
  assert (Ei : is_peak 5 vals fr i = Err ValueError).
  { unfold is_peak. cbv zeta. rewrite mean_window by exact Hlt. rewrite (nth_error_nth _ _ _ Ev), (nth_error_nth _ _ _ Ef).
    assert (C1 : Qlt_b ((3 # 2) * mean_near vals i) v = true) by (now apply Qlt_b_iff).
    assert (C2 : (if 0 <? i then Qlt_b (nth (i - 1) vals 0%Q) v else true) = true).
    { destruct (Nat.ltb_spec 0 i); [|reflexivity]. apply Qlt_b_iff. apply (Hn (i - 1)); [apply nth_err; lia|lia]. }
    assert (C3 : (if i <? length vals - 1 then Qlt_b (nth (i + 1) vals 0%Q) v else true) = true).
    { destruct (Nat.ltb_spec i (length vals - 1)); [|reflexivity]. apply Qlt_b_iff. apply (Hn (i + 1)); [apply nth_err; lia|lia]. }
    rewrite C1, C2, C3. cbn [andb].
    assert (Le : search_right fr (f * (11 # 10)) <= search_left fr (f * (9 # 10))).
    { unfold search_right, search_left. apply bisect_mono; [|lia|lia]. intros x Hx. apply Qle_bool_iff in Hx. apply Qlt_b_iff. lra. }
    replace (Nat.min _ _ - _) with 0 by lia. reflexivity. }
  assert (Any : forall j, (exists b, is_peak 5 vals fr j = Ok b) \/ is_peak 5 vals fr j = Err ValueError).
  { intros j. unfold is_peak. cbv zeta. destruct (_ && _ && _); [|eauto]. destruct (window _ _ vals) as [|x l]; cbn [qmaxl bind]; eauto. }
  unfold find_peaks. assert (I : In i (seq 0 (length vals))) by (apply in_seq; lia). revert I. generalize (seq 0 (length vals)). intros l. induction l as [|j l IH]; intros I; [destruct I|].
  cbn [peaks_from]. destruct (Any j) as [[b E]|E]; rewrite E; cbn [bind]; [|reflexivity]. destruct I as [->|I]; [congruence|]. now rewrite (IH I).
Qed.
(* The modes drawn are those of the reported frequency: position p of the search is frequency p + 1. *)
Theorem C104_report_draws_its_modes : forall freq vals r, increasing freq -> report_one freq vals = Ok r -> length vals = length freq ->
  exists ps, find_peaks (tl vals) (tl freq) = Ok ps /\ Forall2 (fun p e => e = (p, S p)) ps r.
Proof.
  intros freq vals r Hi H Hl. unfold report_one in H. destruct (find_peaks (tl vals) (tl freq)) as [ps|] eqn:E; [|discriminate]. cbn [bind] in H. exists ps. split; [reflexivity|].
  assert (B : Forall (fun p => p < length (tl freq)) ps).
  { apply Forall_forall. intros p I. assert (G : forall l q, peaks_from 5 (tl vals) (tl freq) l = Ok q -> forall x, In x q -> In x l).
    { induction l as [|j l IH]; intros q Eq x Ix; cbn [peaks_from] in Eq; [injection Eq as <-; exact Ix|]. destruct (is_peak _ _ _ j) as [b|]; [|discriminate]. cbn [bind] in Eq.
      destruct (peaks_from 5 (tl vals) (tl freq) l) as [q'|]; [|discriminate]. cbn [bind] in Eq. injection Eq as <-. destruct b; [destruct Ix as [->|Ix]; [now left|]|]; right; eauto. }
    specialize (G _ _ E p I). apply in_seq in G. destruct vals, freq; cbn in *; lia. }
  clear E. revert r H. induction B as [|p ps Hp B IH]; intros r H; cbn [draw_each] in H; [injection H as <-; constructor|].
  destruct (find_nearest_freq (nth p (tl freq) 0%Q) freq) as [[x k]|] eqn:Ef; [|discriminate]. cbn [bind snd] in H. destruct (draw_each _ ps) as [rs|]; [|discriminate]. cbn [bind] in H. injection H as <-.
  constructor; [|apply IH; reflexivity]. f_equal.
  destruct freq as [|f0 fs]; [cbn in Hp; lia|]. cbn [tl] in *.
  assert (Ep : nth_error (f0 :: fs) (S p) = Some (nth p fs 0%Q)) by (cbn; now apply nth_err).
  destruct (@nearest_spec (nth p fs 0%Q) (f0 :: fs)) as (x' & k' & Ef' & (Ek & Mk & _)); [discriminate|]. rewrite Ef in Ef'. injection Ef' as <- <-.
  specialize (Mk (S p) (nth p fs 0%Q) Ep).
  assert (Z : (x == nth p fs 0%Q)%Q).
  { revert Mk. generalize (nth p fs 0%Q). intros q Mk. setoid_replace (q - q)%Q with 0%Q in Mk by ring. change (Qabs 0) with 0%Q in Mk.
    assert (Ab := Qabs_nonneg (x - q)). assert (Ab' := Qle_Qabs (x - q)). assert (Ab'' := Qle_Qabs (- (x - q))). rewrite Qabs_opp in Ab''. lra. }
  destruct (Nat.lt_trichotomy k (S p)) as [L|[L|L]]; [|exact L|].
  - specialize (Hi _ _ _ _ L Ek Ep). rewrite Z in Hi. destruct (Qlt_irrefl _ Hi).
  - specialize (Hi _ _ _ _ L Ep Ek). rewrite Z in Hi. destruct (Qlt_irrefl _ Hi).
Qed.
(* The period shown is the period, in the unit shown. *)
Definition hours_in (u : unit_shown) : Q :=
  match u with Minutes => 1 # 60 | Hours => 1 | Days => 24 | Months => 24 * (30437 # 1000) | Years => 24 * (36525 # 100) end.
Theorem C104_period_units : forall p, (0 < p)%Q -> let '(q, u) := show_period p in (q * hours_in u == p)%Q /\ (u <> Minutes -> (1 <= q)%Q).
Proof.
  intros p Hp. unfold show_period.
  assert (B : forall a b, Qle_bool a b = false -> (b < a)%Q).
  { intros a b E. destruct (Qlt_le_dec b a) as [|L]; [assumption|]. apply Qle_bool_iff in L. congruence. }
  assert (D : forall c, (0 < c)%Q -> (c <= p)%Q -> (1 <= p / c)%Q) by (intros c Hc Hl; apply Qle_shift_div_l; [exact Hc|lra]).
  destruct (Qlt_b p 1) eqn:E0; [apply Qlt_b_iff in E0; cbn [hours_in]; split; [ring|congruence]|].
  assert (L0 : (1 <= p)%Q). { unfold Qlt_b in E0. apply Bool.negb_false_iff in E0. now apply Qle_bool_iff. }
  destruct (Qle_bool 24 p) eqn:E1; cbn [andb].
  - apply Qle_bool_iff in E1. destruct (Qlt_b p (24 * (30437 # 1000))) eqn:E2.
    + cbn [hours_in]. split; [field|intros _; apply D; [reflexivity|exact E1]].
    + destruct (Qle_bool (24 * (30437 # 1000)) p) eqn:E3; cbn [andb].
      * apply Qle_bool_iff in E3. destruct (Qlt_b p (24 * (36525 # 100))) eqn:E4; [cbn [hours_in]; split; [field|intros _; apply D; [reflexivity|exact E3]]|].
        destruct (Qle_bool (24 * (36525 # 100)) p) eqn:E5; [apply Qle_bool_iff in E5; cbn [hours_in]; split; [field|intros _; apply D; [reflexivity|exact E5]]|cbn [hours_in]; split; [ring|auto]].
      * destruct (Qle_bool (24 * (36525 # 100)) p) eqn:E5; [apply Qle_bool_iff in E5; cbn [hours_in]; split; [field|intros _; apply D; [reflexivity|exact E5]]|cbn [hours_in]; split; [ring|auto]].
  - destruct (Qle_bool (24 * (30437 # 1000)) p) eqn:E3; cbn [andb].
    + apply Qle_bool_iff in E3. destruct (Qlt_b p (24 * (36525 # 100))) eqn:E4; [cbn [hours_in]; split; [field|intros _; apply D; [reflexivity|exact E3]]|].
      destruct (Qle_bool (24 * (36525 # 100)) p) eqn:E5; [apply Qle_bool_iff in E5; cbn [hours_in]; split; [field|intros _; apply D; [reflexivity|exact E5]]|cbn [hours_in]; split; [ring|auto]].
    + destruct (Qle_bool (24 * (36525 # 100)) p) eqn:E5; [apply Qle_bool_iff in E5; cbn [hours_in]; split; [field|intros _; apply D; [reflexivity|exact E5]]|cbn [hours_in]; split; [ring|auto]].
Qed.
Print Assumptions C104_exactly_the_peaks.
Print Assumptions C104_close_peaks_equal.
Print Assumptions C104_scale_invariant.
Print Assumptions C104_flat_top_refuted.
Print Assumptions C104_negative_frequency_refuted.
Print Assumptions C104_report_draws_its_modes.
Print Assumptions C104_period_units.
Definition ex_freq : list Q := map (fun k => inject_Z (Z.of_nat k)) (seq 1 8).
Example Ex_C104 : increasing ex_freq /\ Forall (fun f => (0 < f)%Q) ex_freq /\ find_peaks [1; 1; 9; 1; 1; 1; 1; 1]%Q ex_freq = Ok [2] /\
  find_peaks [1; 1; 9; 9; 1; 1; 1; 1]%Q ex_freq = Ok [].
Proof.
  split; [|split; [|split; vm_compute; reflexivity]].
  - intros i j x y H Hx Hy. unfold ex_freq in Hx, Hy. rewrite nth_error_map in Hx, Hy.
    destruct (nth_error (seq 1 8) i) as [a|] eqn:Ea; [|discriminate]. destruct (nth_error (seq 1 8) j) as [b|] eqn:Eb; [|discriminate].
    injection Hx as <-. injection Hy as <-. assert (La : i < 8) by (rewrite <- (seq_length 8 1); apply nth_error_Some; congruence).
    assert (Lb : j < 8) by (rewrite <- (seq_length 8 1); apply nth_error_Some; congruence).
    apply (nth_error_nth _ _ 0) in Ea. apply (nth_error_nth _ _ 0) in Eb. rewrite seq_nth in Ea, Eb by lia. subst. rewrite <- Zlt_Qlt. lia.
  - vm_compute. repeat constructor.
Qed.
(* two-sided frequencies, as stored by a fit of the full spectrum *)
Example Ex_C104_negative : find_peaks [1; 9; 1; 1; 1; 9; 1]%Q [1; 2; 3; 4; -3; -2; -1]%Q = Err ValueError.
Proof. vm_compute. reflexivity. Qed.
