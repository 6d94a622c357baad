(* C149: the frequency axis in double precision. *)
From Coq Require Import ZArith Reals Lra Lia List PeanoNat.
From Flocq Require Import Core Relative Sterbenz Plus_error.
From Verif Require Import Model_Float Prop_Float Model_FloatSum Prop_FloatSum Model_FloatFreq.
Import ListNotations.
Local Open Scope R_scope.
Local Open Scope list_scope.
Local Instance prec53c : Prec_gt_0 53 := eq_refl.
Local Instance valid_fexpc : Valid_exp fexp. Proof. unfold fexp. typeclasses eauto. Qed.

(* the exact k-th frequency before any shift *)
Definition exact_freq (n k : nat) (dt : R) : R := INR k / (INR n * dt).
(* sizes for which the statements hold: blocks below 2^50 snapshots and a time step between 2^-900 and 2^900 *)
Definition usual (n : nat) (dt : R) : Prop := (0 < n)%nat /\ (Z.of_nat n < 2 ^ 50)%Z /\ double dt /\ bpow radix2 (-900) <= dt <= bpow radix2 900.

Section Axis.
Variables (n : nat) (dt : R).
Hypothesis U : usual n dt.
Let Hn : 1 <= INR n. Proof. apply (le_INR 1). destruct U. lia. Qed.
Let Hn50 : INR n <= bpow radix2 50.
Proof. destruct U as (_ & H & _). rewrite INR_IZR_INZ, <- (IZR_Zpower radix2) by lia. apply IZR_le. change (Zpower radix2 50) with (2 ^ 50)%Z. lia. Qed.
Let Hdt : 0 < dt. Proof. destruct U as (_ & _ & _ & H & _). pose proof (bpow_gt_0 radix2 (-900)). lra. Qed.
Let Hdt2 : dt <= bpow radix2 900. Proof. now destruct U as (_ & _ & _ & _ & H). Qed.
Let c : R := / (INR n * dt).
Let c_pos : 0 < c. Proof. apply Rinv_0_lt_compat. nra. Qed.
Lemma big x : 0 < x -> x <= bpow radix2 950 -> bpow radix2 (-1022) <= / x.
Proof. intros P H. apply Rle_trans with (/ bpow radix2 950); [rewrite <- bpow_opp; apply bpow_le; lia|now apply Rinv_le]. Qed.
Lemma quot_ok k d : 0 < d <= bpow radix2 950 -> no_underflow (INR k / d).
Proof.
  intros [P H]. destruct k as [|k]; [left; cbn; field; lra|right]. rewrite S_INR. pose proof (pos_INR k).
  assert (0 < / d) by now apply Rinv_0_lt_compat. rewrite Rabs_pos_eq by (unfold Rdiv; nra).
  apply Rle_trans with (/ d); [now apply big|]. unfold Rdiv. nra.
Qed.
Let nd_ok : 0 < INR n * dt <= bpow radix2 950.
Proof. split; [nra|]. change 950%Z with (50 + 900)%Z. rewrite bpow_plus. apply Rmult_le_compat; lra. Qed.

(* a quotient of a quotient *)
Lemma two_roundings k a b : 0 < a <= bpow radix2 900 -> 0 < b <= bpow radix2 900 -> a * b <= bpow radix2 950 ->
  approx 2 (fdiv (fdiv (INR k) a) b) (INR k / (a * b)) (INR k / (a * b)).
Proof.
  intros [Pa Ha] [Pb Hb] Hab. assert (H950 : bpow radix2 900 <= bpow radix2 950) by (apply bpow_le; lia).
  assert (Pab : 0 < a * b) by nra. pose proof (pos_INR k) as Pk.
  assert (E0 : 0 <= INR k / (a * b)) by (unfold Rdiv; apply Rmult_le_pos; [exact Pk|left; now apply Rinv_0_lt_compat]).
  destruct k as [|k].
  { cbn [INR]. unfold fdiv, Rdiv. rewrite !Rmult_0_l, fl_0, Rmult_0_l, fl_0. apply approx_zero. }
  assert (A1 : approx 1 (fdiv (INR (S k)) a) (INR (S k) / a) (INR (S k) / a)).
  { apply approx_round with (INR (S k) / a).
    - assert (0 <= INR (S k) / a) by (unfold Rdiv; apply Rmult_le_pos; [exact Pk|left; now apply Rinv_0_lt_compat]). rewrite <- (Rabs_pos_eq (INR (S k) / a)) at 3 by assumption. apply approx_exact.
    - apply fl_rel, quot_ok. lra. }
  apply (approx_scale _ _ _ _ (/ b)) in A1. rewrite (Rabs_pos_eq (/ b)) in A1 by (left; now apply Rinv_0_lt_compat).
  replace (INR (S k) / a * / b) with (INR (S k) / (a * b)) in A1 by (field; lra).
  apply approx_round with (1 := A1). apply fl_rel. right.
  destruct A1 as [A1 _]. cbn [pow] in A1. rewrite Rmult_1_r in A1. replace (1 + u - 1) with u in A1 by ring. apply Rabs_le_inv in A1. destruct A1 as [A1 _].
  pose proof u_half. pose proof (big (a * b) Pab Hab) as B.
  assert (B2 : bpow radix2 (-1022) <= / (a * b) * / 2).
  { apply Rle_trans with (/ bpow radix2 950 * / 2). - rewrite <- bpow_opp. change (/ 2) with (bpow radix2 (-1)). rewrite <- bpow_plus. apply bpow_le. lia.
    - apply Rmult_le_compat_r; [lra|now apply Rinv_le]. }
  assert (1 * / (a * b) <= INR (S k) / (a * b)) by (unfold Rdiv; apply Rmult_le_compat_r; [left; now apply Rinv_0_lt_compat|rewrite S_INR; pose proof (pos_INR k); lra]).
  set (q := INR (S k) / (a * b)) in *. change (fdiv (INR (S k)) a / b) with (fdiv (INR (S k)) a * / b) in *. set (f := fdiv (INR (S k)) a * / b) in *.
  assert (u * q <= / 2 * q) by (apply Rmult_le_compat_r; lra). rewrite Rabs_pos_eq by lra. lra.
Qed.

Definition fine (g : nat -> R) : Prop := forall k, approx 2 (g k) (exact_freq n k dt) (exact_freq n k dt).
Definition g_full (k : nat) : R := fdiv (fdiv (INR k) dt) (INR n).
Definition g_half (k : nat) : R := fdiv (fdiv (INR k) (INR n)) dt.
Let n900 : INR n <= bpow radix2 900. Proof. apply Rle_trans with (1 := Hn50). apply bpow_le. lia. Qed.
Lemma g_full_fine : fine g_full.
Proof. intros k. unfold exact_freq. rewrite (Rmult_comm (INR n)). apply two_roundings; lra. Qed.
Lemma g_half_fine : fine g_half.
Proof. intros k. unfold exact_freq. apply two_roundings; lra. Qed.
Lemma fine_bounds g k : fine g -> (1 - 3 * u) * (INR k * c) <= g k <= (1 + 3 * u) * (INR k * c).
Proof.
  intros F. destruct (F k) as [E _]. change (exact_freq n k dt) with (INR k * c) in E. apply Rabs_le_inv in E. cbn [pow] in E.
  pose proof u_pos. pose proof u_half. pose proof (pos_INR k). assert (P : 0 <= INR k * c) by nra. set (x := INR k * c) in *.
  assert (Q : ((1 + u) * ((1 + u) * 1) - 1) * x <= 3 * u * x) by (apply Rmult_le_compat_r; nra). lra.
Qed.
Lemma u50 : u * bpow radix2 50 = / 8. Proof. unfold u. rewrite <- bpow_plus. cbn. lra. Qed.
Lemma fine_increasing g j k : fine g -> (j < k)%nat -> (k <= n)%nat -> g j < g k.
Proof.
  intros F H K. pose proof (fine_bounds g j F) as [_ J]. pose proof (fine_bounds g k F) as [B _]. apply Rle_lt_trans with (1 := J). apply Rlt_le_trans with (2 := B).
  apply le_INR in K. assert (J1 : INR j + 1 <= INR k) by (rewrite <- S_INR; apply le_INR; lia). pose proof u_pos. pose proof (pos_INR j). pose proof u50.
  rewrite <- !Rmult_assoc. apply Rmult_lt_compat_r; [exact c_pos|].
  assert (u * INR k <= u * bpow radix2 50) by (apply Rmult_le_compat_l; lra). nra.
Qed.

(* ---- the shifted half is exact ---- *)
Definition one_over : R := fdiv 1 dt.
Let dt950 : 0 < dt <= bpow radix2 950. Proof. split; [exact Hdt|]. apply Rle_trans with (1 := Hdt2). apply bpow_le. lia. Qed.
Lemma one_over_bounds : (1 - u) * / dt <= one_over <= (1 + u) * / dt.
Proof.
  pose proof (fl_rel (1 / dt) (quot_ok 1 dt dt950)) as E. fold (fdiv 1 dt) in E. fold one_over in E. unfold Rdiv in E. rewrite Rmult_1_l in E.
  assert (0 < / dt) by now apply Rinv_0_lt_compat. rewrite (Rabs_pos_eq (/ dt)) in E by lra. apply Rabs_le_inv in E. lra.
Qed.
Lemma nc : INR n * c = / dt. Proof. unfold c. field. lra. Qed.
Lemma shifted_exact k : (n < 2 * k)%nat -> (k < n)%nat -> fl (g_full k - one_over) = g_full k - one_over /\ g_full k < one_over.
Proof.
  intros H K. pose proof (fine_bounds _ k g_full_fine) as [B1 B2]. pose proof one_over_bounds as [O1 O2]. rewrite <- nc in O1, O2.
  assert (K1 : INR k + 1 <= INR n) by (rewrite <- S_INR; apply le_INR; lia). assert (K2 : INR n + 1 <= 2 * INR k) by (rewrite <- S_INR; replace (2 * INR k) with (INR (2 * k)) by (rewrite mult_INR; cbn; ring); apply le_INR; lia).
  pose proof u_pos. pose proof u50 as V. assert (W : u * INR n <= / 8) by (rewrite <- V; apply Rmult_le_compat_l; lra). assert (W2 : u * INR k <= / 8) by (apply Rle_trans with (2 := W); apply Rmult_le_compat_l; lra).
  assert (X : 0 < u <= / 8) by (split; [lra|]; rewrite <- (Rmult_1_r u) at 1; apply Rle_trans with (2 := W); apply Rmult_le_compat_l; lra).
  assert (L : g_full k < one_over).
  { apply Rle_lt_trans with (1 := B2). apply Rlt_le_trans with (2 := O1). rewrite <- !Rmult_assoc. apply Rmult_lt_compat_r; [exact c_pos|]. nra. }
  assert (P : 0 <= one_over). { apply Rle_trans with (2 := O1). rewrite nc. assert (0 < / dt) by now apply Rinv_0_lt_compat. nra. }
  split; [|exact L]. apply fl_double. apply sterbenz; try apply fl_is_double; try typeclasses eauto.
  split; [|lra]. apply Rle_trans with ((1 + u) * (INR n * c) / 2); [lra|]. apply Rle_trans with (2 := B1). unfold Rdiv.
  replace ((1 + u) * (INR n * c) * / 2) with ((1 + u) * INR n * / 2 * c) by ring. rewrite <- Rmult_assoc. apply Rmult_le_compat_r; [lra|]. nra.
Qed.
End Axis.

(* ---- the choice of a frequency ---- *)
Lemma skipn_S_tl {A} i (l : list A) : skipn (S i) l = tl (skipn i l).
Proof. revert l. induction i as [|i IH]; intros [|x l]; try reflexivity. apply IH. Qed.
Lemma argmin_from_spec l : forall best at_ i (all : list R), nth at_ all 0 = best -> (at_ < i)%nat -> (forall j, (j < i)%nat -> best <= nth j all 0) -> skipn i all = l ->
  (i + length l = length all)%nat -> (argmin_from best at_ i l < length all)%nat /\ (forall j, (j < length all)%nat -> nth (argmin_from best at_ i l) all 0 <= nth j all 0).
Proof.
  induction l as [|x l IH]; intros best at_ i all Ha Hi Hmin Hs Hl; cbn [argmin_from].
  - cbn in Hl. split; [lia|]. intros j Hj. rewrite Ha. apply Hmin. lia.
  - assert (Ex : nth i all 0 = x) by (rewrite <- (firstn_skipn i all), app_nth2 by (rewrite firstn_length; lia); rewrite firstn_length, Nat.min_l by (cbn in Hl; lia); rewrite Nat.sub_diag, Hs; reflexivity).
    assert (Hs' : skipn (S i) all = l) by (rewrite skipn_S_tl, Hs; reflexivity).
    cbn [length] in Hl. destruct (Rlt_dec x best) as [L|L].
    + apply IH; try assumption; try lia. intros j Hj. destruct (Nat.eq_dec j i) as [->|]; [rewrite Ex; lra|]. specialize (Hmin j ltac:(lia)). lra.
    + apply IH; try assumption; try lia. intros j Hj. destruct (Nat.eq_dec j i) as [->|]; [rewrite Ex; lra|]. apply Hmin. lia.
Qed.
Lemma argmin_spec d : (0 < length d)%nat -> exists i, argmin d = Some i /\ (i < length d)%nat /\ forall j, (j < length d)%nat -> nth i d 0 <= nth j d 0.
Proof.
  destruct d as [|x d']; cbn [length]; [lia|]. intros _. exists (argmin_from x 0 1 d'). split; [reflexivity|]. apply (argmin_from_spec d' x 0 1 (x :: d')); try reflexivity; try lia.
  intros j Hj. replace j with 0%nat by lia. cbn. lra.
Qed.
Lemma fl_minus_0 x y : double x -> double y -> fl (x - y) = 0 -> x = y.
Proof.
  intros Dx Dy E. destruct (Req_dec (x - y) 0) as [Z|Z]; [lra|exfalso].
  apply (round_plus_neq_0 radix2 fexp ZnearestE x (- y)); [exact Dx|now apply generic_format_opp|exact Z|exact E].
Qed.
Lemma nearest_self freq k : Forall double freq -> NoDup freq -> (k < length freq)%nat -> f_nearest (nth k freq 0) freq = Some k.
Proof.
  intros F N K. unfold f_nearest. set (r := nth k freq 0). set (d := map (fun x => Rabs (fl (x - r))) freq).
  assert (Ld : length d = length freq) by apply map_length.
  assert (Nd : forall j, (j < length freq)%nat -> nth j d 0 = Rabs (fl (nth j freq 0 - r))).
  { intros j Hj. unfold d. rewrite (nth_indep _ 0 ((fun x => Rabs (fl (x - r))) 0)) by (rewrite map_length; exact Hj). exact (map_nth (fun x => Rabs (fl (x - r))) freq 0 j). }
  destruct (argmin_spec d) as (i & -> & A & M); [rewrite Ld; lia|]. f_equal. rewrite Ld in *. specialize (M k K). rewrite !Nd in M by assumption.
  fold r in M. replace (r - r) with 0 in M by ring. rewrite fl_0, Rabs_R0 in M.
  assert (Z : fl (nth i freq 0 - r) = 0). { pose proof (Rabs_pos (fl (nth i freq 0 - r))). destruct (Req_dec (fl (nth i freq 0 - r)) 0) as [|Q]; [assumption|]. apply Rabs_pos_lt in Q. lra. }
  rewrite Forall_forall in F. apply fl_minus_0 in Z; [|apply F, nth_In; assumption|apply F, nth_In; assumption].
  unfold r in Z. apply (proj1 (NoDup_nth freq 0) N i k A K Z).
Qed.

(* ---- C149 ---- *)
Lemma nth_map_seq (g : nat -> R) m k : (k < m)%nat -> nth k (map g (seq 0 m)) 0 = g k.
Proof. intros H. rewrite (nth_indep _ 0 (g 0%nat)) by (rewrite map_length, seq_length; exact H). rewrite (map_nth g), seq_nth by exact H. reflexivity. Qed.
(* the k-th frequency of a real record, and of a full spectrum, is the exact one up to two roundings, and the axis is strictly increasing from 0 *)
Theorem C149_axis_of_real_data : forall n dt (fullspectrum : bool), usual n dt ->
  let f := f_freq_axis true fullspectrum n dt in
  nth 0 f 0 = 0 /\ (forall k, (k < length f)%nat -> Rabs (nth k f 0 - INR k / (INR n * dt)) <= bpow radix2 (-51) * (INR k / (INR n * dt)))
  /\ (forall j k, (j < k < length f)%nat -> nth j f 0 < nth k f 0).
Proof.
  intros n dt fs U. destruct U as (Hn & Hb & Hd & Hr). assert (U : usual n dt) by (repeat split; tauto).
  assert (G : exists g m, f_freq_axis true fs n dt = map g (seq 0 m) /\ fine n dt g /\ (0 < m <= n + 1)%nat /\ (m <= n \/ n = 1)%nat).
  { destruct fs.
    - exists (g_full n dt), n. split; [reflexivity|]. split; [now apply g_full_fine|lia].
    - exists (g_half n dt), (n / 2 + 1)%nat. split; [reflexivity|]. split; [now apply g_half_fine|]. pose proof (Nat.div_mod_eq n 2). pose proof (Nat.mod_upper_bound n 2 ltac:(lia)). lia. }
  destruct G as (g & m & E & F & Hm & _). cbn zeta. rewrite E, map_length, seq_length. split; [|split].
  - rewrite nth_map_seq by lia. destruct (F 0%nat) as [Q _]. unfold exact_freq in Q. cbn [INR] in Q. unfold Rdiv in Q. rewrite Rmult_0_l, Rmult_0_r in Q. pose proof (Rabs_pos (g 0%nat - 0)).
    destruct (Req_dec (g 0%nat - 0) 0) as [|X]; [lra|]. apply Rabs_pos_lt in X. lra.
  - intros k Hk. rewrite nth_map_seq by exact Hk. pose proof (approx_readable _ _ _ _ (F k) ltac:(cbn; lia)) as Q. cbn [INR] in Q. unfold exact_freq in Q.
    change (-51)%Z with (1 + -52)%Z. rewrite bpow_plus. change (bpow radix2 1) with 2. replace (1 + 1) with 2 in Q by ring. exact Q.
  - intros j k Hjk. rewrite !nth_map_seq by lia. apply (fine_increasing n dt U g); [exact F|lia|lia].
Qed.
Print Assumptions C149_axis_of_real_data.

Definition last_positive (n : nat) : nat := if (n mod 2 =? 0)%nat then (n / 2 + 1)%nat else ((n + 1) / 2 + 1)%nat.
Lemma complex_axis n dt : f_freq_axis false false n dt = f_shift_from (last_positive n) dt (f_freq_full n dt).
Proof. unfold f_freq_axis, last_positive. now destruct (n mod 2 =? 0)%nat. Qed.
Lemma last_positive_spec n k : (k < n)%nat -> (k < last_positive n)%nat <-> (2 * k <= n + 1)%nat.
Proof.
  intros H. unfold last_positive. pose proof (Nat.div_mod_eq n 2). pose proof (Nat.mod_upper_bound n 2 ltac:(lia)). pose proof (Nat.div_mod_eq (n + 1) 2). pose proof (Nat.mod_upper_bound (n + 1) 2 ltac:(lia)).
  destruct (Nat.eqb_spec (n mod 2) 0); lia.
Qed.
Lemma shift_length j dt f : length (f_shift_from j dt f) = length f.
Proof. unfold f_shift_from. rewrite app_length, map_length, <- app_length, firstn_skipn. reflexivity. Qed.
Lemma shift_nth j dt f k : (k < length f)%nat -> nth k (f_shift_from j dt f) 0 = if (k <? j)%nat then nth k f 0 else fl (nth k f 0 - fdiv 1 dt).
Proof.
  intros H. unfold f_shift_from. destruct (Nat.ltb_spec k j) as [L|L].
  - rewrite app_nth1 by (rewrite firstn_length; lia). rewrite <- (firstn_skipn j f) at 2. now rewrite app_nth1 by (rewrite firstn_length; lia).
  - destruct (Nat.le_gt_cases (length f) j) as [G|G]; [lia|]. rewrite app_nth2 by (rewrite firstn_length; lia). rewrite firstn_length, Nat.min_l by lia.
    set (h := fun x => fl (x - fdiv 1 dt)). rewrite (nth_indep _ 0 (h 0)) by (rewrite map_length, skipn_length; lia). rewrite (map_nth h). unfold h. do 2 f_equal.
    rewrite <- (firstn_skipn j f) at 2. rewrite app_nth2 by (rewrite firstn_length; lia). rewrite firstn_length, Nat.min_l by lia. reflexivity.
Qed.
Lemma full_length n dt : length (f_freq_full n dt) = n. Proof. unfold f_freq_full. now rewrite map_length, seq_length. Qed.
Lemma complex_nth n dt k : usual n dt -> (k < n)%nat ->
  nth k (f_freq_axis false false n dt) 0 = if (2 * k <=? n + 1)%nat then g_full n dt k else g_full n dt k - one_over dt.
Proof.
  intros U H. rewrite complex_axis, shift_nth by (now rewrite full_length). unfold f_freq_full at 1 2. rewrite !(nth_map_seq (g_full n dt)) by exact H.
  pose proof (last_positive_spec n k H). destruct (Nat.ltb_spec k (last_positive n)), (Nat.leb_spec (2 * k) (n + 1)); try lia; [reflexivity|].
  apply (shifted_exact n dt U k); lia.
Qed.

(* complex data, two-sided: the first part as for real data, the second part negative and exact up to rounding of 1 / dt; each part increases *)
Theorem C149_axis_of_complex_data : forall n dt, usual n dt ->
  let f := f_freq_axis false false n dt in
  length f = n
  /\ (forall k, (k < n)%nat -> (2 * k <= n + 1)%nat -> Rabs (nth k f 0 - INR k / (INR n * dt)) <= bpow radix2 (-51) * (INR k / (INR n * dt)))
  /\ (forall k, (k < n)%nat -> (n + 1 < 2 * k)%nat -> nth k f 0 < 0 /\ Rabs (nth k f 0 - (INR k - INR n) / (INR n * dt)) <= bpow radix2 (-50) * (1 / dt))
  /\ (forall j k, (j < k < n)%nat -> (2 * k <= n + 1)%nat \/ (n + 1 < 2 * j)%nat -> nth j f 0 < nth k f 0).
Proof.
  intros n dt U. cbn zeta. pose proof (g_full_fine n dt U) as F. assert (Hdt : 0 < dt) by (destruct U as (_ & _ & _ & H & _); pose proof (bpow_gt_0 radix2 (-900)); lra).
  assert (Hn : 1 <= INR n) by (apply (le_INR 1); destruct U; lia).
  assert (E : forall k, Rabs (g_full n dt k - INR k / (INR n * dt)) <= bpow radix2 (-51) * (INR k / (INR n * dt))).
  { intros k. pose proof (approx_readable _ _ _ _ (F k) ltac:(cbn; lia)) as Q. cbn [INR] in Q. unfold exact_freq in Q. change (-51)%Z with (1 + -52)%Z. rewrite bpow_plus. change (bpow radix2 1) with 2. replace (1 + 1) with 2 in Q by ring. exact Q. }
  split; [rewrite complex_axis, shift_length; apply full_length|]. split; [|split].
  - intros k H K. rewrite complex_nth by assumption. destruct (Nat.leb_spec (2 * k) (n + 1)); [apply E|lia].
  - intros k H K. rewrite complex_nth by assumption. destruct (Nat.leb_spec (2 * k) (n + 1)); [lia|]. split.
    + pose proof (proj2 (shifted_exact n dt U k ltac:(lia) H)). lra.
    + pose proof (one_over_bounds n dt U) as O. pose proof (E k) as Ek. set (g := g_full n dt k) in *.
      replace (g - one_over dt - (INR k - INR n) / (INR n * dt)) with ((g - INR k / (INR n * dt)) - (one_over dt - / dt)) by (field; lra).
      apply Rle_trans with (1 := Rabs_triang _ _). rewrite Rabs_Ropp.
      assert (O2 : Rabs (one_over dt - / dt) <= u * / dt) by (apply Rabs_le; lra).
      assert (Q : INR k / (INR n * dt) <= / dt). { apply Rmult_le_reg_r with (INR n * dt); [nra|]. replace (INR k / (INR n * dt) * (INR n * dt)) with (INR k) by (field; lra). replace (/ dt * (INR n * dt)) with (INR n) by (field; lra). apply le_INR. lia. }
      assert (B : u = bpow radix2 (-51) / 4). { unfold u. change (-51)%Z with (2 + -53)%Z. rewrite bpow_plus. change (bpow radix2 2) with 4. lra. }
      change (-50)%Z with (1 + -51)%Z. rewrite bpow_plus. change (bpow radix2 1) with 2. pose proof (bpow_gt_0 radix2 (-51)). assert (0 < / dt) by now apply Rinv_0_lt_compat. unfold Rdiv. rewrite Rmult_1_l.
      assert (bpow radix2 (-51) * (INR k / (INR n * dt)) <= bpow radix2 (-51) * / dt) by (apply Rmult_le_compat_l; lra). rewrite B in O2. nra.
  - intros j k H K. rewrite !complex_nth by (assumption || lia). pose proof (fine_increasing n dt U _ j k F ltac:(lia) ltac:(lia)).
    destruct (Nat.leb_spec (2 * j) (n + 1)), (Nat.leb_spec (2 * k) (n + 1)); try lia; lra.
Qed.
Print Assumptions C149_axis_of_complex_data.

(* asked for a frequency of the axis, the nearest is that frequency itself: whatever the data and the spectrum *)
Theorem C149_a_frequency_finds_itself : forall (isrealx fullspectrum : bool) n dt k, usual n dt ->
  let f := f_freq_axis isrealx fullspectrum n dt in (k < length f)%nat -> f_nearest (nth k f 0) f = Some k.
Proof.
  intros re fs n dt k U f Hk.
  assert (D : Forall double f).
  { apply Forall_forall. intros x Hx. unfold f, f_freq_axis in Hx. assert (A : forall j, In x (f_shift_from j dt (f_freq_full n dt)) -> double x).
    { intros j Hj. unfold f_shift_from in Hj. apply in_app_or in Hj. destruct Hj as [Hj|Hj].
      - assert (In x (f_freq_full n dt)) by (rewrite <- (firstn_skipn j (f_freq_full n dt)); apply in_or_app; now left). apply in_map_iff in H. destruct H as (i & <- & _). apply fl_is_double.
      - apply in_map_iff in Hj. destruct Hj as (i & <- & _). apply fl_is_double. }
    destruct fs; [|destruct re; [|destruct (n mod 2 =? 0)%nat; eapply A; exact Hx]]; apply in_map_iff in Hx; destruct Hx as (i & <- & _); apply fl_is_double. }
  apply nearest_self; try assumption. apply (NoDup_nth f 0). intros i j Hi Hj E.
  destruct (Nat.lt_trichotomy i j) as [L|[L|L]]; [exfalso|exact L|exfalso].
  - revert Hi Hj E L. unfold f. destruct re.
    + intros Hi Hj E L. pose proof (proj2 (proj2 (C149_axis_of_real_data n dt fs U)) i j ltac:(lia)). cbn in H. lra.
    + destruct fs.
      * intros Hi Hj E L. pose proof (proj2 (proj2 (C149_axis_of_real_data n dt true U)) i j). change (f_freq_axis true true n dt) with (f_freq_axis false true n dt) in H. cbn zeta in H. specialize (H ltac:(lia)). lra.
      * intros Hi Hj E L. pose proof (C149_axis_of_complex_data n dt U) as (Ln & _ & Neg & Inc). rewrite Ln in *.
        destruct (Nat.le_gt_cases (2 * j) (n + 1)) as [J|J]; [specialize (Inc i j ltac:(lia) ltac:(lia)); lra|].
        destruct (Nat.le_gt_cases (2 * i) (n + 1)) as [I|I]; [|specialize (Inc i j ltac:(lia) ltac:(lia)); lra].
        pose proof (proj1 (Neg j Hj J)) as N. rewrite <- E in N. rewrite complex_nth in N by assumption. destruct (Nat.leb_spec (2 * i) (n + 1)); [|lia].
        assert (Hdt : 0 < dt) by (destruct U as (_ & _ & _ & H' & _); pose proof (bpow_gt_0 radix2 (-900)); lra). assert (Hn : 1 <= INR n) by (apply (le_INR 1); lia).
        pose proof (fine_bounds n dt U _ i (g_full_fine n dt U)) as [B _]. pose proof (pos_INR i). assert (0 < / (INR n * dt)) by (apply Rinv_0_lt_compat; nra). pose proof u50. pose proof u_pos. assert (u <= / 8) by (rewrite <- u50; rewrite <- (Rmult_1_r u) at 1; apply Rmult_le_compat_l; [lra|change 1 with (bpow radix2 0); apply bpow_le; lia]).
        assert (0 <= INR i * / (INR n * dt)) by nra. nra.
  - revert Hi Hj E L. unfold f. destruct re.
    + intros Hi Hj E L. pose proof (proj2 (proj2 (C149_axis_of_real_data n dt fs U)) j i ltac:(lia)). cbn in H. lra.
    + destruct fs.
      * intros Hi Hj E L. pose proof (proj2 (proj2 (C149_axis_of_real_data n dt true U)) j i). change (f_freq_axis true true n dt) with (f_freq_axis false true n dt) in H. cbn zeta in H. specialize (H ltac:(lia)). lra.
      * intros Hi Hj E L. pose proof (C149_axis_of_complex_data n dt U) as (Ln & _ & Neg & Inc). rewrite Ln in *.
        destruct (Nat.le_gt_cases (2 * i) (n + 1)) as [J|J]; [specialize (Inc j i ltac:(lia) ltac:(lia)); lra|].
        destruct (Nat.le_gt_cases (2 * j) (n + 1)) as [I|I]; [|specialize (Inc j i ltac:(lia) ltac:(lia)); lra].
        pose proof (proj1 (Neg i Hi J)) as N. rewrite E in N. rewrite complex_nth in N by assumption. destruct (Nat.leb_spec (2 * j) (n + 1)); [|lia].
        assert (Hdt : 0 < dt) by (destruct U as (_ & _ & _ & H' & _); pose proof (bpow_gt_0 radix2 (-900)); lra). assert (Hn : 1 <= INR n) by (apply (le_INR 1); lia).
        pose proof (fine_bounds n dt U _ j (g_full_fine n dt U)) as [B _]. pose proof (pos_INR j). assert (0 < / (INR n * dt)) by (apply Rinv_0_lt_compat; nra). pose proof u50. pose proof u_pos. assert (u <= / 8) by (rewrite <- u50; rewrite <- (Rmult_1_r u) at 1; apply Rmult_le_compat_l; [lra|change 1 with (bpow radix2 0); apply bpow_le; lia]).
        assert (0 <= INR j * / (INR n * dt)) by nra. nra.
Qed.
Print Assumptions C149_a_frequency_finds_itself.

(* ordinary sizes are usual: 256 snapshots, one hour *)
Example C149_usual : usual 256 1.
Proof.
  split; [lia|]. split; [cbn; lia|]. split; [apply int_double; lia|]. change 1 with (bpow radix2 0). split; apply bpow_le; lia.
Qed.
Example C149_case : f_nearest (nth 200 (f_freq_axis false false 256 1) 0) (f_freq_axis false false 256 1) = Some 200%nat.
Proof. apply C149_a_frequency_finds_itself; [exact C149_usual|]. rewrite (proj1 (C149_axis_of_complex_data 256 1 C149_usual)). lia. Qed.
