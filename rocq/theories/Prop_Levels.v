(* C143: contour levels of the comparison plots.  C144: the score reported in the training of an emulator. *)
From Coq Require Import QArith Qround Qabs Lqa.
From Verif Require Import Base_List Model_Stat Model_Levels.
Local Open Scope Q_scope.
Set Implicit Arguments.

(* specification: one unit of the last decimal kept; the range painted in a panel *)
Definition unit_of (n_round : nat) : Q := / inject_Z (10 ^ Z.of_nat n_round).
Definition painted (p : panel) (x : Q) : Prop := exists lo hi, hd_error (p_levels p) = Some lo /\ hd_error (rev (p_levels p)) = Some hi /\ lo <= x <= hi.

Lemma fold_qmax : forall l x, x <= fold_left (fun a b => if Qle_bool a b then b else a) l x /\
  (forall y, In y l -> y <= fold_left (fun a b => if Qle_bool a b then b else a) l x) /\ In (fold_left (fun a b => if Qle_bool a b then b else a) l x) (x :: l).
Proof.
  induction l as [|a l IH]; intros x; cbn [fold_left]; [split; [apply Qle_refl|split; [intros y []|now left]]|].
  destruct (Qle_bool x a) eqn:E.
  - apply Qle_bool_iff in E. destruct (IH a) as (H1 & H2 & H3). split; [lra|]. split; [intros y [<-|Hy]; auto|]. destruct H3 as [<-|H3]; [right; now left|right; now right].
  - assert (E' : a <= x) by (destruct (Qlt_le_dec a x); [lra|]; apply Qle_bool_iff in q; congruence).
    destruct (IH x) as (H1 & H2 & H3). split; [auto|]. split; [intros y [<-|Hy]; [lra|auto]|]. destruct H3 as [<-|H3]; [now left|right; now right].
Qed.
Lemma fold_qmin : forall l x, fold_left (fun a b => if Qle_bool a b then a else b) l x <= x /\
  (forall y, In y l -> fold_left (fun a b => if Qle_bool a b then a else b) l x <= y) /\ In (fold_left (fun a b => if Qle_bool a b then a else b) l x) (x :: l).
Proof.
  induction l as [|a l IH]; intros x; cbn [fold_left]; [split; [apply Qle_refl|split; [intros y []|now left]]|].
  destruct (Qle_bool x a) eqn:E.
  - apply Qle_bool_iff in E. destruct (IH x) as (H1 & H2 & H3). split; [auto|]. split; [intros y [<-|Hy]; [lra|auto]|]. destruct H3 as [<-|H3]; [now left|right; now right].
  - assert (E' : a <= x) by (destruct (Qlt_le_dec a x); [lra|]; apply Qle_bool_iff in q; congruence).
    destruct (IH a) as (H1 & H2 & H3). split; [lra|]. split; [intros y [<-|Hy]; auto|]. destruct H3 as [<-|H3]; [right; now left|right; now right].
Qed.
Lemma mult_pos n : 0 < inject_Z (multiplier n).
Proof. unfold multiplier. change 0 with (inject_Z 0). rewrite <- Zlt_Qlt. apply Z.pow_pos_nonneg; lia. Qed.
Lemma unit_pos n : 0 < unit_of n.
Proof. apply Qinv_lt_0_compat. exact (mult_pos n). Qed.

(* the range computed from the first field *)
Lemma range_spec n v lo hi : range_of n v = Ok (lo, hi) ->
  (forall x, In x v -> lo <= x <= hi) /\ (exists x, In x v /\ x - lo < unit_of n) /\ (exists x, In x v /\ hi - x < unit_of n) /\
  (exists a b, lo == inject_Z a * unit_of n /\ hi == inject_Z b * unit_of n).
Proof.
  unfold range_of, qmax, qmin. destruct v as [|x0 l]; [discriminate|]. cbn [bind].
  destruct (fold_qmax l x0) as (A1 & A2 & A3), (fold_qmin l x0) as (B1 & B2 & B3).
  set (mx := fold_left (fun a b => if Qle_bool a b then b else a) l x0) in *. set (mn := fold_left (fun a b => if Qle_bool a b then a else b) l x0) in *. clearbody mx mn.
  assert (Hm := mult_pos n). assert (Hu := unit_pos n). change (/ inject_Z (multiplier n)) with (unit_of n) in *. unfold Qdiv. change (/ inject_Z (multiplier n)) with (unit_of n).
  assert (E1 : inject_Z (multiplier n) * unit_of n == 1) by (unfold unit_of; apply Qmult_inv_r; change (10 ^ Z.of_nat n)%Z with (multiplier n); intros H; rewrite H in Hm; now apply Qlt_irrefl in Hm).
  set (m := inject_Z (multiplier n)) in *. set (u := unit_of n) in *. clearbody m u.
  pose proof (Qfloor_le (mn * m)) as F1. pose proof (Qlt_floor (mn * m)) as F2. pose proof (Qle_ceiling (mx * m)) as C1. pose proof (Qceiling_lt (mx * m)) as C2.
  rewrite inject_Z_plus in F2. unfold Z.sub in C2. rewrite inject_Z_plus in C2. change (inject_Z 1) with 1 in *. change (inject_Z (-1)) with (-(1)) in C2. intros HE.
  assert (El : lo = inject_Z (Qfloor (mn * m)) * u) by congruence. assert (Eh : hi = inject_Z (Qceiling (mx * m)) * u) by congruence. clear HE. subst lo hi.
  set (a := inject_Z (Qfloor (mn * m))) in *. set (b := inject_Z (Qceiling (mx * m))) in *.
  assert (P1 : a * u <= mn). { apply Qle_trans with (mn * m * u); [apply Qmult_le_compat_r; [exact F1|now apply Qlt_le_weak]|]. rewrite <- Qmult_assoc, E1. lra. }
  assert (P2 : mx <= b * u). { apply Qle_trans with (mx * m * u); [rewrite <- Qmult_assoc, E1; lra|]. apply Qmult_le_compat_r; [exact C1|now apply Qlt_le_weak]. }
  assert (P3 : mn - a * u < u). { assert (mn * m * u < (a + 1) * u) by now apply Qmult_lt_compat_r. rewrite <- Qmult_assoc, E1 in H. lra. }
  assert (P4 : b * u - mx < u). { assert ((b + - (1)) * u < mx * m * u) by now apply Qmult_lt_compat_r. rewrite <- Qmult_assoc, E1 in H. lra. }
  split; [|split; [|split]].
  - intros x Hx. split; [apply Qle_trans with mn; [exact P1|]|apply Qle_trans with mx; [|exact P2]]; destruct Hx as [<-|Hx]; auto.
  - exists mn. auto.
  - exists mx. auto.
  - exists (Qfloor (mn * m)), (Qceiling (mx * m)). split; reflexivity.
Qed.
Lemma range_ok n v : v <> [] -> exists lo hi, range_of n v = Ok (lo, hi).
Proof. destruct v as [|x l]; [congruence|]. intros _. unfold range_of. cbn [qmax qmin bind]. eexists _, _. reflexivity. Qed.

Lemma nth_linspace a b n i : (i < n)%nat -> nth_error (linspace a b n) i = Some (a + inject_Z (Z.of_nat i) * ((b - a) / inject_Z (Z.of_nat (n - 1)))).
Proof. intros H. unfold linspace. rewrite nth_error_map_seq. now replace (i <? n)%nat with true by lia. Qed.

Lemma levels_increase lo hi : increasing (linspace lo hi 9) = true <-> lo < hi.
Proof.
  unfold linspace. cbn [seq map increasing Nat.sub Z.of_nat Pos.of_succ_nat Pos.succ].
  change (inject_Z 8) with (8 # 1). change (inject_Z 0) with 0. change (inject_Z 1) with 1. change (inject_Z 2) with (2 # 1). change (inject_Z 3) with (3 # 1).
  change (inject_Z 4) with (4 # 1). change (inject_Z 5) with (5 # 1). change (inject_Z 6) with (6 # 1). change (inject_Z 7) with (7 # 1).
  assert (Q1 : forall x y, negb (Qle_bool y x) = true <-> x < y).
  { intros x y. split; intros H.
    - destruct (Qlt_le_dec x y); [assumption|]. apply Qle_bool_iff in q. rewrite q in H. discriminate.
    - destruct (Qle_bool y x) eqn:E; [|reflexivity]. apply Qle_bool_iff in E. lra. }
  set (d := (hi - lo) / (8 # 1)). assert (Hd : d * (8 # 1) == hi - lo) by (unfold d; field). clearbody d.
  rewrite !andb_true_iff, !Q1. split; [intros H|intros H; repeat split]; lra.
Qed.

(* ---- C143 ---- *)
(* the first field is painted completely; the range is wider than the field by less than one unit of the last decimal kept at each end;
   the ticks of the colour bar are every second level; all panels share levels and ticks *)
Theorem C143_first_field_painted : forall n v1 v2 v3 ps, generate_2d_subplot n v1 v2 v3 = Ok ps ->
  (exists p rest, ps = p :: rest /\ p_values p = v1 /\ (forall x, In x v1 -> painted p x)) /\
  (forall p, In p ps -> length (p_levels p) = 9%nat /\ length (p_ticks p) = 5%nat /\
     (forall i a b, nth_error (p_levels p) i = Some a -> nth_error (p_levels p) (S i) = Some b -> a < b) /\
     (forall i t, nth_error (p_ticks p) i = Some t -> exists l, nth_error (p_levels p) (2 * i) = Some l /\ t == l) /\
     (exists x lo, In x v1 /\ hd_error (p_levels p) = Some lo /\ x - lo < unit_of n) /\
     (exists x hi, In x v1 /\ hd_error (rev (p_levels p)) = Some hi /\ hi - x < unit_of n)).
Proof.
  intros n v1 v2 v3 ps H. unfold generate_2d_subplot in H. destruct (range_of n v1) as [[lo hi]|e] eqn:R; [|discriminate]. cbn [bind] in H.
  destruct (range_spec _ _ R) as (R1 & (xl & Hxl & R2) & (xh & Hxh & R3) & _).
  assert (D : forall v p, draw lo hi v = Ok p -> p_values p = v /\ p_levels p = linspace lo hi 9 /\ p_ticks p = linspace lo hi 5 /\ lo < hi).
  { intros v p Hd. unfold draw in Hd. destruct (increasing (linspace lo hi 9)) eqn:E; [|discriminate]. injection Hd as <-. cbn. repeat split. now apply levels_increase. }
  assert (L0 : hd_error (linspace lo hi 9) = Some (lo + inject_Z 0 * ((hi - lo) / inject_Z 8))) by reflexivity.
  assert (L8 : hd_error (rev (linspace lo hi 9)) = Some (lo + inject_Z 8 * ((hi - lo) / inject_Z 8))) by reflexivity.
  assert (E0 : lo + inject_Z 0 * ((hi - lo) / inject_Z 8) == lo) by (change (inject_Z 0) with 0; ring).
  assert (E8 : lo + inject_Z 8 * ((hi - lo) / inject_Z 8) == hi) by (change (inject_Z 8) with (8 # 1); field).
  assert (Q1 : forall p, draw lo hi v1 = Ok p -> p_values p = v1 /\ forall x, In x v1 -> painted p x).
  { intros p Hp. destruct (D _ _ Hp) as (H1 & H2 & _). split; [exact H1|]. intros x Hx. exists (lo + inject_Z 0 * ((hi - lo) / inject_Z 8)), (lo + inject_Z 8 * ((hi - lo) / inject_Z 8)).
    rewrite H2. split; [reflexivity|]. split; [reflexivity|]. rewrite E0, E8. now apply R1. }
  assert (Q2 : forall v p, draw lo hi v = Ok p -> length (p_levels p) = 9%nat /\ length (p_ticks p) = 5%nat /\
     (forall i a b, nth_error (p_levels p) i = Some a -> nth_error (p_levels p) (S i) = Some b -> a < b) /\
     (forall i t, nth_error (p_ticks p) i = Some t -> exists l, nth_error (p_levels p) (2 * i) = Some l /\ t == l) /\
     (exists x lo, In x v1 /\ hd_error (p_levels p) = Some lo /\ x - lo < unit_of n) /\
     (exists x hi, In x v1 /\ hd_error (rev (p_levels p)) = Some hi /\ hi - x < unit_of n)).
  { intros v p Hp. destruct (D _ _ Hp) as (_ & H2 & H3 & Hlt). rewrite H2, H3. split; [reflexivity|]. split; [reflexivity|]. split; [|split; [|split]].
    - intros i a b Ha Hb. assert (S i < 9)%nat by (rewrite <- (seq_length 9 0), <- (map_length (fun i => lo + inject_Z (Z.of_nat i) * ((hi - lo) / inject_Z (Z.of_nat (9 - 1)))) (seq 0 9)); apply nth_error_Some; fold (linspace lo hi 9); congruence).
      rewrite nth_linspace in Ha by lia. rewrite nth_linspace in Hb by lia.
      assert (Xa : lo + inject_Z (Z.of_nat i) * ((hi - lo) / inject_Z (Z.of_nat (9 - 1))) = a) by congruence. assert (Xb : lo + inject_Z (Z.of_nat (S i)) * ((hi - lo) / inject_Z (Z.of_nat (9 - 1))) = b) by congruence. rewrite <- Xa, <- Xb.
      rewrite Nat2Z.inj_succ. unfold Z.succ. rewrite inject_Z_plus. change (inject_Z 1) with 1. change (inject_Z (Z.of_nat (9 - 1))) with (8 # 1).
      set (d := (hi - lo) / (8 # 1)). assert (Hd : d * (8 # 1) == hi - lo) by (unfold d; field). clearbody d. generalize (inject_Z (Z.of_nat i)). intros q. assert (0 < d) by lra.
      setoid_replace (lo + (q + 1) * d) with (lo + q * d + d) by ring. lra.
    - intros i t Ht. assert (i < 5)%nat by (rewrite <- (seq_length 5 0), <- (map_length (fun i => lo + inject_Z (Z.of_nat i) * ((hi - lo) / inject_Z (Z.of_nat (5 - 1)))) (seq 0 5)); apply nth_error_Some; fold (linspace lo hi 5); congruence).
      rewrite nth_linspace in Ht by lia. assert (Xt : lo + inject_Z (Z.of_nat i) * ((hi - lo) / inject_Z (Z.of_nat (5 - 1))) = t) by congruence. rewrite <- Xt. eexists. split; [apply nth_linspace; lia|].
      rewrite Nat2Z.inj_mul, inject_Z_mult. change (inject_Z (Z.of_nat 2)) with (2 # 1). change (inject_Z (Z.of_nat (9 - 1))) with (8 # 1). change (inject_Z (Z.of_nat (5 - 1))) with (4 # 1).
      generalize (inject_Z (Z.of_nat i)). intros q. field.
    - exists xl. eexists. split; [exact Hxl|]. split; [exact L0|]. rewrite E0. exact R2.
    - exists xh. eexists. split; [exact Hxh|]. split; [exact L8|]. rewrite E8. exact R3. }
  destruct (draw lo hi v1) as [p1|e1] eqn:D1; [|discriminate]. cbn [bind] in H. destruct (Q1 p1 eq_refl) as [Q1a Q1b].
  assert (G : forall q, In q ps -> exists v, draw lo hi v = Ok q).
  { destruct v3 as [v3|]; cbn [Nat.eqb] in H.
    - destruct v2 as [v2|]; [|discriminate]. destruct (draw lo hi v2) as [p2|e2] eqn:D2; [|discriminate]. destruct (draw lo hi v3) as [p3|e3] eqn:D3; [|discriminate].
      injection H as <-. intros q [<-|[<-|[<-|[]]]]; eauto.
    - destruct v2 as [v2|]; cbn [Nat.eqb] in H.
      + destruct (draw lo hi v2) as [p2|e2] eqn:D2; [|discriminate]. injection H as <-. intros q [<-|[<-|[]]]; eauto.
      + injection H as <-. intros q [<-|[]]; eauto. }
  split.
  - destruct v3 as [v3|]; cbn [Nat.eqb] in H.
    + destruct v2 as [v2|]; [|discriminate]. destruct (draw lo hi v2) as [p2|e2] eqn:D2; [|discriminate]. destruct (draw lo hi v3) as [p3|e3] eqn:D3; [|discriminate].
      injection H as <-. eexists _, _. split; [reflexivity|]. auto.
    + destruct v2 as [v2|]; cbn [Nat.eqb] in H.
      * destruct (draw lo hi v2) as [p2|e2] eqn:D2; [|discriminate]. injection H as <-. eexists _, _. split; [reflexivity|]. auto.
      * injection H as <-. eexists _, _. split; [reflexivity|]. auto.
  - intros p Hp. destruct (G p Hp) as (v & Hv). exact (Q2 _ _ Hv).
Qed.
Print Assumptions C143_first_field_painted.

(* a field that is constant, with a value that has no more decimals than are kept (for example zero), cannot be drawn at all; every other can *)
Theorem C143_constant_fields_raise : forall n v1, v1 <> [] ->
  (generate_2d_subplot n v1 None None = Err ValueError <-> exists z : Z, forall x, In x v1 -> x == inject_Z z * unit_of n) /\
  (forall e, generate_2d_subplot n v1 None None = Err e -> e = ValueError).
Proof.
  intros n v1 Hv. destruct (@range_ok n v1 Hv) as (lo & hi & R). unfold generate_2d_subplot. rewrite R. cbn [bind Nat.eqb]. unfold draw.
  destruct (range_spec _ _ R) as (R1 & (xl & Hxl & R2) & (xh & Hxh & R3) & (a & b & Ea & Eb)).
  assert (Hu := unit_pos n).
  assert (K : increasing (linspace lo hi 9) = false <-> exists z : Z, forall x, In x v1 -> x == inject_Z z * unit_of n).
  { rewrite <- not_true_iff_false, levels_increase. split.
    - intros H. exists a. intros x Hx. destruct (R1 x Hx). rewrite <- Ea. lra.
    - intros (z & Hz) H. assert (Zl := Hz _ Hxl). assert (Zh := Hz _ Hxh). rewrite Ea, Zl in R2. rewrite Eb, Zh in R3.
      destruct (R1 _ Hxl) as [L1 _], (R1 _ Hxh) as [_ L2]. rewrite Ea, Zl in L1. rewrite Eb, Zh in L2. rewrite Ea, Eb in H. set (u := unit_of n) in *. clearbody u.
      assert (A1 : inject_Z z < inject_Z a + 1). { apply (Qmult_lt_r _ _ u Hu). lra. }
      assert (A2 : inject_Z b < inject_Z z + 1). { apply (Qmult_lt_r _ _ u Hu). lra. }
      assert (A3 : inject_Z a < inject_Z b) by now apply (Qmult_lt_r _ _ u Hu).
      change 1 with (inject_Z 1) in *. rewrite <- inject_Z_plus, <- Zlt_Qlt in A1. rewrite <- inject_Z_plus, <- Zlt_Qlt in A2. rewrite <- Zlt_Qlt in A3.
      assert (M1 : (a <= z)%Z) by (rewrite Zle_Qle; apply (Qmult_le_r _ _ u Hu); exact L1). assert (M2 : (z <= b)%Z) by (rewrite Zle_Qle; apply (Qmult_le_r _ _ u Hu); exact L2). lia. }
  destruct (increasing (linspace lo hi 9)) eqn:E; cbn [bind].
  - split; [split; [discriminate|]|discriminate]. intros H. apply K in H. discriminate.
  - split; [split; [intros _; now apply K|reflexivity]|congruence].
Qed.
Print Assumptions C143_constant_fields_raise.

(* the other fields are cut to the range of the first: what lies above or below it stays blank *)
Theorem C143_other_fields_painted_refuted : forall n v1 v2 v3 ps x, generate_2d_subplot n v1 (Some v2) v3 = Ok ps -> In x v2 ->
  ((forall y, In y v1 -> y + unit_of n <= x) \/ (forall y, In y v1 -> x + unit_of n <= y)) ->
  exists p1 p2 rest, ps = p1 :: p2 :: rest /\ p_values p2 = v2 /\ ~ painted p2 x.
Proof.
  intros n v1 v2 v3 ps x H Hx Hfar. destruct (C143_first_field_painted _ _ _ _ H) as (_ & G). unfold generate_2d_subplot in H.
  destruct (range_of n v1) as [[lo hi]|e] eqn:R; [|discriminate]. cbn [bind] in H.
  destruct (draw lo hi v1) as [p1|e1] eqn:D1; [|discriminate]. destruct (draw lo hi v2) as [p2|e2] eqn:D2; [|destruct v3; discriminate]. cbn [bind] in H.
  assert (V2 : p_values p2 = v2) by (unfold draw in D2; destruct (increasing _); [now injection D2 as <-|discriminate]).
  assert (N : In p2 ps -> ~ painted p2 x).
  { intros Hin (l & h & Hl & Hh & Hp). destruct (G p2 Hin) as (_ & _ & _ & _ & (y & l' & Hy & Hl' & B1) & (z & h' & Hz & Hh' & B2)).
    rewrite Hl in Hl'. injection Hl' as <-. rewrite Hh in Hh'. injection Hh' as <-. destruct Hfar as [F|F]; [specialize (F z Hz)|specialize (F y Hy)]; lra. }
  destruct v3 as [v3|]; cbn [Nat.eqb] in H.
  - destruct (draw lo hi v3) as [p3|e3]; [|discriminate]. cbn [bind] in H. injection H as <-. exists p1, p2, [p3]. split; [reflexivity|]. split; [exact V2|]. apply N. cbn. auto.
  - cbn [bind] in H. injection H as <-. exists p1, p2, []. split; [reflexivity|]. split; [exact V2|]. apply N. cbn. auto.
Qed.
Print Assumptions C143_other_fields_painted_refuted.

(* a third field without a second is an error *)
Theorem C143_third_without_second_raises : forall n v1 v3, exists e, generate_2d_subplot n v1 None (Some v3) = Err e.
Proof.
  intros n v1 v3. unfold generate_2d_subplot. destruct (range_of n v1) as [[lo hi]|e]; cbn [bind]; [|eauto]. destruct (draw lo hi v1); cbn [bind Nat.eqb]; eauto.
Qed.
Print Assumptions C143_third_without_second_raises.

Example C143_nonvacuous :
  (exists ps, generate_2d_subplot 2 [1 # 3; 2 # 3] (Some [5 # 1]) None = Ok ps) /\ (forall y, In y [1 # 3; 2 # 3] -> y + unit_of 2 <= 5 # 1) /\
  generate_2d_subplot 6 [0; 0; 0] None None = Err ValueError /\ (exists ps, generate_2d_subplot 2 [1 # 3; 1 # 3] None None = Ok ps).
Proof.
  split; [eexists; vm_compute; reflexivity|]. split; [|split; [vm_compute; reflexivity|eexists; vm_compute; reflexivity]].
  intros y [<-|[<-|[]]]; vm_compute; discriminate.
Qed.
