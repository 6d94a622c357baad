(* C148: sums in double precision, whatever the order. *)
From Coq Require Import ZArith Reals Lra Lia List Permutation PeanoNat.
From Flocq Require Import Core Relative Mult_error Plus_error.
From Verif Require Import Base_List Model_Reader2 Model_Float Prop_Float Model_FloatSum.
Import ListNotations.
Local Open Scope R_scope.
Local Open Scope list_scope.

Local Instance prec53b : Prec_gt_0 53 := eq_refl.
Definition u : R := bpow radix2 (-53).
Lemma u_pos : 0 < u. Proof. apply bpow_gt_0. Qed.
Lemma u_half : u <= / 2. Proof. change (/ 2) with (bpow radix2 (-1)). apply bpow_le. lia. Qed.
Definition total (l : list R) : R := fold_right Rplus 0 l.
Lemma total_cons x l : total (x :: l) = x + total l. Proof. reflexivity. Qed.
Lemma total_app l l' : total (l ++ l') = total l + total l'.
Proof. induction l as [|x l IH]; cbn [app]; rewrite ?total_cons, ?IH; [unfold total at 2; cbn|]; ring. Qed.
Lemma total_perm l l' : Permutation l l' -> total l = total l'.
Proof. induction 1; rewrite ?total_cons; lra. Qed.

(* ---- accumulated rounding: k roundings between the exact S and the computed v, where A bounds the terms ---- *)
Definition approx (k : nat) (v S A : R) : Prop := Rabs (v - S) <= ((1 + u) ^ k - 1) * A /\ Rabs S <= A.
Lemma pow1 k : 1 <= (1 + u) ^ k.
Proof. apply pow_R1_Rle. pose proof u_pos. lra. Qed.
Lemma pow_le k m : (k <= m)%nat -> (1 + u) ^ k <= (1 + u) ^ m.
Proof. intros. apply Rle_pow; [pose proof u_pos; lra|assumption]. Qed.
Lemma approx_exact x : approx 0 x x (Rabs x).
Proof. split; [|lra]. cbn. replace (x - x) with 0 by ring. rewrite Rabs_R0. lra. Qed.
Lemma approx_weaken k m v S A : (k <= m)%nat -> approx k v S A -> approx m v S A.
Proof. intros H [E B]. split; [|assumption]. apply Rle_trans with (1 := E). apply Rmult_le_compat_r; [apply Rle_trans with (2 := B); apply Rabs_pos|]. pose proof (pow_le _ _ H). lra. Qed.
Lemma approx_zero k : approx k 0 0 0.
Proof. split; [|rewrite Rabs_R0; lra]. replace (0 - 0) with 0 by ring. rewrite Rabs_R0. lra. Qed.
Lemma approx_plus k v1 S1 A1 v2 S2 A2 : approx k v1 S1 A1 -> approx k v2 S2 A2 -> approx k (v1 + v2) (S1 + S2) (A1 + A2).
Proof.
  intros [E1 B1] [E2 B2]. split.
  - replace (v1 + v2 - (S1 + S2)) with ((v1 - S1) + (v2 - S2)) by ring. apply Rle_trans with (1 := Rabs_triang _ _). lra.
  - apply Rle_trans with (1 := Rabs_triang _ _). lra.
Qed.
Lemma approx_scale k v S A c : approx k v S A -> approx k (v * c) (S * c) (A * Rabs c).
Proof.
  intros [E B]. pose proof (Rabs_pos c). split.
  - replace (v * c - S * c) with ((v - S) * c) by ring. rewrite Rabs_mult, <- Rmult_assoc. now apply Rmult_le_compat_r.
  - rewrite Rabs_mult. now apply Rmult_le_compat_r.
Qed.
(* one rounding more *)
Lemma approx_round k v S A f : approx k v S A -> Rabs (f - v) <= u * Rabs v -> approx (Datatypes.S k) f S A.
Proof.
  intros [E B] F. split; [|assumption]. assert (V : Rabs v <= (1 + u) ^ k * A).
  { replace v with ((v - S) + S) by ring. apply Rle_trans with (1 := Rabs_triang _ _). lra. }
  replace (f - S) with ((f - v) + (v - S)) by ring. apply Rle_trans with (1 := Rabs_triang _ _).
  assert (u * Rabs v <= u * ((1 + u) ^ k * A)) by (apply Rmult_le_compat_l; [pose proof u_pos; lra|assumption]). cbn [pow]. nra.
Qed.

(* ---- the rounded operations ---- *)
Lemma fadd_error a b : double a -> double b -> Rabs (fadd a b - (a + b)) <= u * Rabs (a + b).
Proof.
  intros Ha Hb. destruct (FLT_plus_error_N_ex radix2 (-1074) 53 (fun t => negb (Z.even t)) a b Ha Hb) as (e & He & E).
  unfold fadd, fl, fexp. rewrite E. replace ((a + b) * (1 + e) - (a + b)) with (e * (a + b)) by ring. rewrite Rabs_mult.
  apply Rmult_le_compat_r; [apply Rabs_pos|]. apply Rle_trans with (1 := He).
  assert (U : u_ro radix2 53 = u). { unfold u_ro, u. change (- (53) + 1)%Z with (1 + -53)%Z. rewrite bpow_plus. change (bpow radix2 1) with 2. lra. }
  rewrite U. pose proof u_pos. apply Rmult_le_reg_r with (1 + u); [lra|]. replace (u / (1 + u) * (1 + u)) with u by (field; lra). nra.
Qed.
(* a result that does not fall below the smallest normal double, unless it is zero *)
Definition no_underflow (x : R) : Prop := x = 0 \/ bpow radix2 (-1022) <= Rabs x.
Lemma double_0 : double 0. Proof. apply (int_double 0). lia. Qed.
Lemma fl_0 : fl 0 = 0. Proof. apply fl_double, double_0. Qed.
Lemma fl_rel x : no_underflow x -> Rabs (fl x - x) <= u * Rabs x.
Proof. intros [->|H]; [rewrite fl_0; replace (0 - 0) with 0 by ring; rewrite Rabs_R0; lra|now apply fl_error]. Qed.
Lemma fl_any x : exists e h, Rabs e <= u /\ Rabs h <= bpow radix2 (-1075) /\ fl x = x * (1 + e) + h.
Proof.
  destruct (error_N_FLT radix2 (-1074) 53 eq_refl (fun t => negb (Z.even t)) x) as (e & h & He & Hh & _ & E).
  exists e, h. split; [|split; [|exact E]].
  - apply Rle_trans with (1 := He). unfold u. change (- (53) + 1)%Z with (1 + -53)%Z. rewrite bpow_plus. change (bpow radix2 1) with 2. lra.
  - apply Rle_trans with (1 := Hh). change (-1074)%Z with (1 + -1075)%Z. rewrite bpow_plus. change (bpow radix2 1) with 2. lra.
Qed.

(* ---- sums in any order ---- *)
Lemma sums_nil_inv l v : sums l v -> l = [] -> v = 0.
Proof.
  induction 1 as [|x|l1 l2 a b _ IH1 _ IH2|l1 l2 a P _ IH]; intros E; [reflexivity|discriminate| |].
  - apply app_eq_nil in E. destruct E as [-> ->]. rewrite IH1, IH2 by reflexivity. unfold fadd. rewrite Rplus_0_r. apply fl_0.
  - subst. apply IH. now apply Permutation_sym, Permutation_nil in P.
Qed.
Lemma sums_double l v : sums l v -> Forall double l -> double v.
Proof.
  induction 1 as [|x|l1 l2 a b _ IH1 _ IH2|l1 l2 a P _ IH]; intros F; [apply double_0|now inversion F|apply fl_is_double|].
  apply IH. now apply (Permutation_Forall (Permutation_sym P)).
Qed.
(* terms that are themselves approximations: a term is (computed, exact, bound) *)
Notation val t := (fst (fst t)).
Notation exact t := (snd (fst t)).
Notation size t := (snd t).
Lemma sums_approx k l v : sums l v -> forall ts : list (R * R * R), l = map (fun t => val t) ts ->
  Forall (fun t => double (val t) /\ approx k (val t) (exact t) (size t)) ts ->
  approx (k + (length ts - 1)) v (total (map (fun t => exact t) ts)) (total (map (fun t => size t) ts)).
Proof.
  induction 1 as [|x|l1 l2 a b S1 IH1 S2 IH2|l1 l2 a P S1 IH]; intros ts E F.
  - destruct ts; [|discriminate]. apply approx_zero.
  - destruct ts as [|t [|]]; try discriminate. injection E as ->. inversion F as [|? ? [_ A] _]; subst. cbn [map]. rewrite !total_cons. unfold total; cbn [fold_right length].
    rewrite !Rplus_0_r. now rewrite Nat.sub_diag, Nat.add_0_r.
  - symmetry in E. apply map_eq_app in E. destruct E as (t1 & t2 & -> & E1 & E2). apply Forall_app in F. destruct F as [F1 F2].
    specialize (IH1 _ (eq_sym E1) F1). specialize (IH2 _ (eq_sym E2) F2). rewrite !map_app, !total_app, app_length.
    assert (Da : double a). { apply (sums_double _ _ S1). rewrite <- E1. apply Forall_map. eapply Forall_impl; [|exact F1]. now intros t [D _]. }
    assert (Db : double b). { apply (sums_double _ _ S2). rewrite <- E2. apply Forall_map. eapply Forall_impl; [|exact F2]. now intros t [D _]. }
    destruct t1 as [|x1 t1].
    { cbn in E1. assert (a = 0) by (apply (sums_nil_inv _ _ S1); now symmetry). subst a. unfold fadd. rewrite Rplus_0_l, fl_double by assumption.
      cbn [map]. change (total []) with 0. rewrite !Rplus_0_l. exact IH2. }
    destruct t2 as [|x2 t2].
    { cbn in E2. assert (b = 0) by (apply (sums_nil_inv _ _ S2); now symmetry). subst b. unfold fadd. rewrite Rplus_0_r, fl_double by assumption.
      cbn [map length]. change (total []) with 0. rewrite !Rplus_0_r, Nat.add_0_r. exact IH1. }
    cbn [length] in *. set (n := (k + (Datatypes.S (length t1) + Datatypes.S (length t2) - 1))%nat).
    assert (n = Datatypes.S (k + (length t1 + length t2)))%nat as -> by (unfold n; lia).
    apply approx_round with (a + b).
    + apply approx_plus; [apply approx_weaken with (2 := IH1)|apply approx_weaken with (2 := IH2)]; lia.
    + now apply fadd_error.
  - rewrite E in P. apply Permutation_map_inv in P as P'. destruct P' as (ts' & E' & P').
    rewrite (Permutation_length P'), (total_perm _ _ (Permutation_map (fun t => exact t) P')), (total_perm _ _ (Permutation_map (fun t => size t) P')).
    apply IH; [exact E'|]. now apply (Permutation_Forall P').
Qed.

(* ---- from powers to a readable bound ---- *)
Lemma pow_readable k : INR k * u <= / 2 -> (1 + u) ^ k - 1 <= INR k * (2 * u).
Proof.
  intros H. assert (P : (1 + u) ^ k * (1 - INR k * u) <= 1).
  { clear H. pose proof u_pos. induction k as [|k IH]; [cbn; lra|]. rewrite S_INR. cbn [pow].
    destruct (Rle_or_lt (1 - (INR k + 1) * u) 0) as [N|N].
    - assert (0 <= (1 + u) * (1 + u) ^ k) by (pose proof (pow1 k); nra). nra.
    - pose proof (pos_INR k). pose proof (pow1 k). apply Rle_trans with (2 := IH).
      replace ((1 + u) * (1 + u) ^ k * (1 - (INR k + 1) * u)) with ((1 + u) ^ k * ((1 + u) * (1 - (INR k + 1) * u))) by ring.
      apply Rmult_le_compat_l; nra. }
  pose proof u_pos. pose proof (pos_INR k). set (x := INR k * u) in *. replace (INR k * (2 * u)) with (2 * x) by (unfold x; ring).
  assert (0 <= x) by (unfold x; nra). pose proof (pow1 k). assert (Y : (1 + u) ^ k <= 1 + 2 * x); [|lra].
  apply Rmult_le_reg_r with (1 - x); [lra|]. nra.
Qed.
Lemma approx_readable k v S A : approx k v S A -> (Z.of_nat k <= 2 ^ 52)%Z -> Rabs (v - S) <= INR k * bpow radix2 (-52) * A.
Proof.
  intros [E B] H. apply Rle_trans with (1 := E). apply Rmult_le_compat_r; [apply Rle_trans with (2 := B); apply Rabs_pos|].
  change (-52)%Z with (1 + -53)%Z. rewrite bpow_plus. change (bpow radix2 1) with 2. apply pow_readable.
  rewrite INR_IZR_INZ. apply IZR_le in H. apply Rle_trans with (IZR (2 ^ 52) * u); [apply Rmult_le_compat_r; [left; apply u_pos|exact H]|].
  unfold u. rewrite (IZR_Zpower radix2) by lia. rewrite <- bpow_plus. cbn. lra.
Qed.

(* ---- the long-time mean ---- *)
Lemma sums_raw l v : sums l v -> Forall double l -> approx (length l - 1) v (total l) (total (map Rabs l)).
Proof.
  intros H F. pose proof (sums_approx 0 l v H (map (fun x => (x, x, Rabs x)) l)) as A. rewrite !map_map in A. cbn [fst snd] in A. rewrite map_id, map_length in A.
  apply A; [reflexivity|]. apply Forall_map. eapply Forall_impl; [|exact F]. intros x D. cbn. split; [exact D|apply approx_exact].
Qed.
Lemma loop_sums npsum (s : nat) data : any_order npsum -> forall n, sums (window 0 (n * s) data) (fold_left (fun t i => fadd t (npsum (window (i * s) s data))) (seq 0 n) 0).
Proof.
  intros H n. induction n as [|n IH]; [apply sums_none|]. rewrite seq_S, fold_left_app. cbn [fold_left plus].
  replace (S n * s)%nat with (n * s + s)%nat by lia. rewrite <- (window_app 0 (n * s) s data). cbn [plus]. apply sums_add; [exact IH|apply H].
Qed.
Lemma mean_is_sum npsum nb data : any_order npsum -> (0 < nb)%nat -> exists v, sums data v /\ f_long_t_mean npsum (length data) nb data = fdiv v (INR (length data)).
Proof.
  intros H Hb. unfold f_long_t_mean. set (nt := length data). pose proof (Nat.div_mod_eq nt nb) as E. pose proof (Nat.mod_upper_bound nt nb ltac:(lia)) as E2.
  pose proof (loop_sums npsum (nt / nb) data H nb) as L. set (q := (nt / nb)%nat) in *. set (r := (nt mod nb)%nat) in *. clearbody q r.
  set (t := fold_left _ _ _) in *. clearbody t. destruct (Nat.ltb_spec 0 r).
  - exists (fadd t (npsum (window (nt - r) r data))). split; [|reflexivity].
    assert (Ed : data = window 0 (nb * q) data ++ window (nt - r) r data).
    { replace (nt - r)%nat with (0 + nb * q)%nat by lia. rewrite window_app. symmetry. apply window_all. lia. }
    rewrite Ed at 1. apply sums_add; [exact L|apply H].
  - exists t. split; [|reflexivity]. rewrite window_all in L by lia. exact L.
Qed.
Lemma mean_dict_is_sum npsum nt st : any_order npsum -> exists v, sums (concat (map (fun kb => b_v (snd kb)) st)) v /\ f_long_t_mean_dict npsum nt st = fdiv v (INR nt).
Proof.
  intros H. unfold f_long_t_mean_dict. eexists. split; [|reflexivity].
  assert (G : forall l t, sums l t -> sums (l ++ concat (map (fun kb => b_v (snd kb)) st)) (fold_left (fun t kb => fadd t (npsum (b_v (snd kb)))) st t)).
  { induction st as [|kb st IH]; intros l t S; cbn [map concat fold_left]; [now rewrite app_nil_r|]. rewrite app_assoc. apply IH. apply sums_add; [exact S|apply H]. }
  apply (G [] 0), sums_none.
Qed.
Lemma mean_error data v : sums data v -> Forall double data -> (0 < length data)%nat -> (Z.of_nat (length data) <= 2 ^ 52)%Z ->
  Rabs (fdiv v (INR (length data)) - total data / INR (length data)) <= bpow radix2 (-52) * total (map Rabs data) + bpow radix2 (-1075).
Proof.
  intros S F Hn Hb. set (n := length data) in *. assert (N : 1 <= INR n) by (apply (le_INR 1); lia).
  pose proof (sums_raw _ _ S F) as A. fold n in A. apply (approx_scale _ _ _ _ (/ INR n)) in A.
  destruct (fl_any (v / INR n)) as (e & h & He & Hh & E). unfold fdiv. rewrite E. fold (v / INR n) in A. fold (total data / INR n) in A.
  set (x := v / INR n) in *. set (B := total (map Rabs data)) in *.
  assert (I : Rabs (/ INR n) = / INR n) by (apply Rabs_pos_eq; left; apply Rinv_0_lt_compat; lra). rewrite I in A.
  assert (Q : approx n (x * (1 + e)) (total data / INR n) (B * / INR n)).
  { replace n with (Datatypes.S (n - 1)) at 1 by lia. apply approx_round with (1 := A). replace (x * (1 + e) - x) with (e * x) by ring. rewrite Rabs_mult. apply Rmult_le_compat_r; [apply Rabs_pos|exact He]. }
  apply approx_readable in Q; [|exact Hb].
  replace (INR n * bpow radix2 (-52) * (B * / INR n)) with (bpow radix2 (-52) * B) in Q by (field; lra).
  replace (x * (1 + e) + h - total data / INR n) with ((x * (1 + e) - total data / INR n) + h) by ring.
  apply Rle_trans with (1 := Rabs_triang _ _). lra.
Qed.

(* ---- C148 ---- *)
(* the mean of a record in memory, for every number of blocks and every order in which numpy adds *)
Theorem C148_long_time_mean : forall npsum n_blocks data, any_order npsum -> (0 < n_blocks)%nat -> data <> [] -> Forall double data -> (Z.of_nat (length data) <= 2 ^ 52)%Z ->
  Rabs (f_long_t_mean npsum (length data) n_blocks data - fold_right Rplus 0 data / INR (length data))
  <= bpow radix2 (-52) * fold_right Rplus 0 (map Rabs data) + bpow radix2 (-1075).
Proof.
  intros npsum nb data H Hb N F Hl. destruct (mean_is_sum npsum nb data H Hb) as (v & S & ->). apply mean_error; try assumption. destruct data; [easy|cbn; lia].
Qed.
Print Assumptions C148_long_time_mean.

(* in memory or in chunks, with any number of blocks or chunks, whatever the order of summation: the means agree to within twice that *)
Theorem C148_every_layout_agrees : forall npsum npsum' n_blocks data st, any_order npsum -> any_order npsum' -> (0 < n_blocks)%nat -> data <> [] -> Forall double data ->
  (Z.of_nat (length data) <= 2 ^ 52)%Z -> concat (map (fun kb => b_v (snd kb)) st) = data ->
  Rabs (f_long_t_mean npsum (length data) n_blocks data - f_long_t_mean_dict npsum' (length data) st)
  <= bpow radix2 (-51) * fold_right Rplus 0 (map Rabs data) + bpow radix2 (-1074).
Proof.
  intros npsum npsum' nb data st H H' Hb N F Hl Hst. assert (0 < length data)%nat by (destruct data; [easy|cbn; lia]).
  destruct (mean_is_sum npsum nb data H Hb) as (v & S & ->). destruct (mean_dict_is_sum npsum' (length data) st H') as (v' & S' & ->). rewrite Hst in S'.
  pose proof (mean_error _ _ S F ltac:(assumption) Hl) as E. pose proof (mean_error _ _ S' F ltac:(assumption) Hl) as E'.
  change (-51)%Z with (1 + -52)%Z. change (-1074)%Z with (1 + -1075)%Z. rewrite !bpow_plus. change (bpow radix2 1) with 2.
  set (m := total data / INR (length data)) in *. set (a := fdiv v _) in *. set (b := fdiv v' _) in *. fold (total (map Rabs data)).
  replace (a - b) with ((a - m) - (b - m)) by ring. apply Rle_trans with (1 := Rabs_triang _ _). rewrite Rabs_Ropp. lra.
Qed.
Print Assumptions C148_every_layout_agrees.

(* integers: the mean is the same double, bit for bit *)
Lemma sums_int l v : sums l v -> forall zs, l = map IZR zs -> (fold_right Z.add 0 (map Z.abs zs) <= 2 ^ 53)%Z -> v = IZR (fold_right Z.add 0 zs)%Z.
Proof.
  assert (Zapp : forall a b, (fold_right Z.add 0 (a ++ b) = fold_right Z.add 0 a + fold_right Z.add 0 b)%Z) by (induction a as [|x a IH]; intros b; cbn; rewrite ?IH; lia).
  assert (Zabs : forall a, (Z.abs (fold_right Z.add 0 a) <= fold_right Z.add 0 (map Z.abs a))%Z) by (induction a as [|x a IH]; cbn [fold_right map]; lia).
  assert (Zperm : forall a b, Permutation a b -> (fold_right Z.add 0 a = fold_right Z.add 0 b)%Z) by (induction 1; cbn [fold_right]; lia).
  induction 1 as [|x|l1 l2 a b _ IH1 _ IH2|l1 l2 a P _ IH]; intros zs E B.
  - destruct zs; [reflexivity|discriminate].
  - destruct zs as [|z [|]]; try discriminate. injection E as ->. cbn. f_equal. lia.
  - symmetry in E. apply map_eq_app in E. destruct E as (z1 & z2 & -> & E1 & E2). rewrite map_app, Zapp in B. rewrite Zapp.
    pose proof (Zabs z1). pose proof (Zabs z2). rewrite (IH1 z1), (IH2 z2) by (try (now symmetry); lia).
    unfold fadd. rewrite <- plus_IZR. apply fl_double, int_double. lia.
  - rewrite E in P. apply Permutation_map_inv in P as P'. destruct P' as (zs' & E' & P'). rewrite (Zperm _ _ P'). apply IH; [exact E'|].
    rewrite <- (Zperm _ _ (Permutation_map Z.abs P')). exact B.
Qed.
Theorem C148_integer_data_bit_for_bit : forall npsum npsum' n_blocks zs st, any_order npsum -> any_order npsum' -> (0 < n_blocks)%nat ->
  (fold_right Z.add 0 (map Z.abs zs) <= 2 ^ 53)%Z -> concat (map (fun kb => b_v (snd kb)) st) = map IZR zs ->
  f_long_t_mean npsum (length zs) n_blocks (map IZR zs) = f_long_t_mean_dict npsum' (length zs) st.
Proof.
  intros npsum npsum' nb zs st H H' Hb B Hst. destruct (mean_is_sum npsum nb (map IZR zs) H Hb) as (v & S & E). rewrite map_length in E. rewrite E.
  destruct (mean_dict_is_sum npsum' (length zs) st H') as (v' & S' & ->). rewrite Hst in S'. now rewrite (sums_int _ _ S zs eq_refl B), (sums_int _ _ S' zs eq_refl B).
Qed.
Print Assumptions C148_integer_data_bit_for_bit.

(* ---- the cross-spectral matrix ---- *)
Definition term_exact (t : R * R * R) : R := let '(x, y, w) := t in x * (y * w).
Definition term_ok (t : R * R * R) : Prop := let '(x, y, w) := t in double x /\ double y /\ double w /\ no_underflow (y * w) /\ no_underflow (x * fmul y w).
Lemma product_approx t : term_ok t -> double (f_product t) /\ approx 2 (f_product t) (term_exact t) (Rabs (term_exact t)).
Proof.
  destruct t as [[x y] w]. intros (_ & _ & _ & N1 & N2). cbn. split; [apply fl_is_double|].
  assert (A : approx 1 (fmul y w) (y * w) (Rabs (y * w))) by (apply approx_round with (y * w); [apply approx_exact|now apply fl_rel]).
  apply (approx_scale _ _ _ _ x) in A. rewrite <- Rabs_mult in A. rewrite (Rmult_comm (fmul y w)), (Rmult_comm (y * w)) in A.
  apply approx_round with (1 := A). now apply fl_rel.
Qed.
(* the sum of one process *)
Lemma process_approx npsum ts : any_order npsum -> Forall term_ok ts ->
  double (npsum (map f_product ts)) /\ approx (2 + (length ts - 1)) (npsum (map f_product ts)) (total (map term_exact ts)) (total (map (fun t => Rabs (term_exact t)) ts)).
Proof.
  intros H F. assert (G : Forall (fun t => double (f_product t) /\ approx 2 (f_product t) (term_exact t) (Rabs (term_exact t))) ts) by (eapply Forall_impl; [|exact F]; intros t; apply product_approx).
  split.
  - apply (sums_double _ _ (H _)). apply Forall_map. eapply Forall_impl; [|exact G]. now intros t [D _].
  - pose proof (sums_approx 2 _ _ (H (map f_product ts)) (map (fun t => (f_product t, term_exact t, Rabs (term_exact t))) ts)) as A.
    rewrite !map_map in A. cbn [fst snd] in A. rewrite map_length in A. apply A; [reflexivity|]. apply Forall_map. exact G.
Qed.
Lemma total_concat {T} (f : T -> R) ls : total (map f (concat ls)) = total (map (fun l => total (map f l)) ls).
Proof. induction ls as [|l ls IH]; cbn [concat map]; [reflexivity|]. now rewrite map_app, total_app, total_cons, IH. Qed.
Lemma total_scale c l : total (map (fun x => x * c) l) = total l * c.
Proof. induction l as [|x l IH]; cbn [map]; rewrite ?total_cons, ?IH; [unfold total; cbn|]; ring. Qed.
Lemma total_ext {T} (f g : T -> R) l : (forall x, f x = g x) -> total (map f l) = total (map g l).
Proof. intros H. f_equal. now apply map_ext. Qed.

(* one component of one entry, for every distribution of the points over processes and every order of summation on and across them *)
Theorem C148_entry_of_the_matrix : forall npsum allreduce n_blocks terms most, any_order npsum -> any_order allreduce -> (0 < n_blocks)%nat ->
  Forall (Forall term_ok) terms -> Forall (fun ts => (length ts <= most)%nat) terms ->
  Forall (fun ts => no_underflow (npsum (map f_product ts) / INR n_blocks)) terms ->
  (Z.of_nat (most + length terms + 1) <= 2 ^ 52)%Z ->
  Rabs (f_entry npsum allreduce n_blocks terms - fold_right Rplus 0 (map term_exact (concat terms)) / INR n_blocks)
  <= INR (most + length terms + 1) * bpow radix2 (-52) * (fold_right Rplus 0 (map (fun t => Rabs (term_exact t)) (concat terms)) / INR n_blocks).
Proof.
  intros npsum allreduce nb terms most H H' Hb F L NU Hk. assert (N : 1 <= INR nb) by (apply (le_INR 1); lia).
  assert (I : Rabs (/ INR nb) = / INR nb) by (apply Rabs_pos_eq; left; apply Rinv_0_lt_compat; lra).
  change (fold_right Rplus 0 (map term_exact (concat terms))) with (total (map term_exact (concat terms))).
  change (fold_right Rplus 0 (map (fun t => Rabs (term_exact t)) (concat terms))) with (total (map (fun t => Rabs (term_exact t)) (concat terms))).
  unfold f_entry.
  set (per := fun ts : list (R * R * R) => (fdiv (npsum (map f_product ts)) (INR nb), total (map term_exact ts) * / INR nb, total (map (fun t => Rabs (term_exact t)) ts) * / INR nb)).
  pose proof (sums_approx (most + 2) _ _ (H' (map (fun ts => fdiv (npsum (map f_product ts)) (INR nb)) terms)) (map per terms)) as A.
  rewrite !map_map in A. unfold per in A. cbn [fst snd] in A. rewrite map_length in A.
  assert (X : forall f : R * R * R -> R, total (map (fun ts => total (map f ts) * / INR nb) terms) = total (map f (concat terms)) / INR nb).
  { intros f. rewrite total_concat. unfold Rdiv. rewrite <- total_scale, map_map. reflexivity. }
  rewrite !X in A. apply approx_readable with (k := (most + length terms + 1)%nat); [|exact Hk].
  destruct terms as [|t0 terms'].
  { cbn. rewrite (sums_nil_inv _ _ (H' []) eq_refl). unfold total; cbn. replace (0 / INR nb) with 0 by (field; lra). apply approx_zero. }
  set (terms := t0 :: terms') in *. apply approx_weaken with (k := (most + 2 + (length terms - 1))%nat); [unfold terms; cbn [length]; lia|].
  apply A; [reflexivity|]. apply Forall_map. rewrite Forall_forall in *. intros ts Hin. cbn [fst snd]. split; [apply fl_is_double|].
  destruct (process_approx npsum ts H (F ts Hin)) as [_ P].
  specialize (L ts Hin). specialize (NU ts Hin). destruct ts as [|t ts].
  { rewrite (sums_nil_inv _ _ (H (map f_product [])) eq_refl). unfold fdiv, Rdiv. rewrite Rmult_0_l, fl_0. unfold total; cbn. rewrite !Rmult_0_l. apply approx_zero. }
  apply (approx_scale _ _ _ _ (/ INR nb)) in P. rewrite I in P.
  apply approx_weaken with (k := Datatypes.S (2 + (length (t :: ts) - 1))); [cbn [length] in *; lia|].
  apply approx_round with (1 := P). now apply fl_rel.
Qed.
Print Assumptions C148_entry_of_the_matrix.

(* two runs on different numbers of processes: the entries agree to within the sum of the two bounds *)
Theorem C148_process_counts_agree : forall npsum allreduce npsum' allreduce' n_blocks terms terms' most most',
  any_order npsum -> any_order allreduce -> any_order npsum' -> any_order allreduce' -> (0 < n_blocks)%nat ->
  Permutation (concat terms) (concat terms') ->
  Forall (Forall term_ok) terms -> Forall (fun ts => (length ts <= most)%nat) terms -> Forall (fun ts => (length ts <= most')%nat) terms' ->
  Forall (fun ts => no_underflow (npsum (map f_product ts) / INR n_blocks)) terms -> Forall (fun ts => no_underflow (npsum' (map f_product ts) / INR n_blocks)) terms' ->
  (Z.of_nat (most + length terms + 1) <= 2 ^ 52)%Z -> (Z.of_nat (most' + length terms' + 1) <= 2 ^ 52)%Z ->
  Rabs (f_entry npsum allreduce n_blocks terms - f_entry npsum' allreduce' n_blocks terms')
  <= INR ((most + length terms + 1) + (most' + length terms' + 1)) * bpow radix2 (-52) * (fold_right Rplus 0 (map (fun t => Rabs (term_exact t)) (concat terms)) / INR n_blocks).
Proof.
  intros npsum allreduce npsum' allreduce' nb terms terms' m m' H1 H2 H3 H4 Hb P F L L' NU NU' K K'.
  assert (F' : Forall (Forall term_ok) terms').
  { apply Forall_concat. apply Forall_concat in F. now apply (Permutation_Forall P). }
  pose proof (C148_entry_of_the_matrix npsum allreduce nb terms m H1 H2 Hb F L NU K) as E.
  pose proof (C148_entry_of_the_matrix npsum' allreduce' nb terms' m' H3 H4 Hb F' L' NU' K') as E'.
  change (fold_right Rplus 0) with total in *.
  rewrite <- (total_perm _ _ (Permutation_map term_exact P)) in E'. rewrite <- (total_perm _ _ (Permutation_map (fun t => Rabs (term_exact t)) P)) in E'.
  set (s := total (map term_exact (concat terms)) / INR nb) in *. set (B := total (map (fun t => Rabs (term_exact t)) (concat terms)) / INR nb) in *.
  rewrite (plus_INR (m + length terms + 1)). set (a := f_entry _ _ _ terms) in *. set (b := f_entry _ _ _ terms') in *.
  replace (a - b) with ((a - s) - (b - s)) by ring. apply Rle_trans with (1 := Rabs_triang _ _). rewrite Rabs_Ropp. lra.
Qed.
Print Assumptions C148_process_counts_agree.

(* ---- bit for bit it does not hold ---- *)
Definition left_to_right (l : list R) : R := fold_left fadd l 0.
Lemma left_to_right_ok : any_order left_to_right.
Proof.
  assert (G : forall l l0 v, sums l0 v -> sums (l0 ++ l) (fold_left fadd l v)).
  { induction l as [|x l IH]; intros l0 v S; cbn [fold_left]; [now rewrite app_nil_r|]. replace (l0 ++ x :: l) with ((l0 ++ [x]) ++ l) by now rewrite <- app_assoc.
    apply IH. apply sums_add; [exact S|apply sums_one]. }
  intros l. apply (G l [] 0), sums_none.
Qed.
Lemma b55 : bpow radix2 55 = 36028797018963968. Proof. reflexivity. Qed.
Lemma d55 : double (bpow radix2 55). Proof. apply generic_format_FLT_bpow; [reflexivity|lia]. Qed.
Lemma dint z : (Z.abs z <= 2 ^ 53)%Z -> fl (IZR z) = IZR z. Proof. intros. now apply fl_double, int_double. Qed.
Lemma succ55 : succ radix2 fexp (bpow radix2 55) = bpow radix2 55 + 8.
Proof. rewrite succ_eq_pos by (rewrite b55; lra). f_equal. rewrite ulp_bpow. reflexivity. Qed.
Lemma nearest x d : double d -> Rabs (fl x - x) <= Rabs (d - x).
Proof. intros D. apply (proj2 (round_N_pt radix2 fexp (fun t => negb (Z.even t)) x)). exact D. Qed.
Lemma above x : bpow radix2 55 <= x -> fl x = bpow radix2 55 \/ bpow radix2 55 + 8 <= fl x.
Proof.
  intros H. assert (L : bpow radix2 55 <= fl x) by (rewrite <- (fl_double _ d55); now apply fl_mono).
  destruct (Rle_lt_or_eq_dec _ _ L) as [G|G]; [right|now left]. rewrite <- succ55. apply succ_le_lt; [apply FLT_exp_valid; reflexivity|apply d55|apply fl_is_double|exact G].
Qed.
Lemma absorbs : fadd (bpow radix2 55) 3 = bpow radix2 55.
Proof.
  unfold fadd. set (x := bpow radix2 55 + 3). destruct (above x ltac:(unfold x; lra)) as [E|E]; [exact E|exfalso].
  pose proof (nearest x _ d55) as N. unfold x in N at 3. replace (bpow radix2 55 - (bpow radix2 55 + 3)) with (Ropp 3) in N by ring. rewrite Rabs_Ropp, (Rabs_pos_eq 3) in N by lra.
  rewrite Rabs_pos_eq in N; unfold x in *; lra.
Qed.
Lemma counts : bpow radix2 55 + 8 <= fadd (bpow radix2 55) 6.
Proof.
  unfold fadd. set (x := bpow radix2 55 + 6). destruct (above x ltac:(unfold x; lra)) as [E|E]; [exfalso|exact E].
  assert (D : double (bpow radix2 55 + 8)). { replace (bpow radix2 55 + 8) with (IZR (2 ^ 52 + 1) * bpow radix2 3) by (rewrite b55; cbn; lra). apply scaled_double; lia. }
  pose proof (nearest x _ D) as N. rewrite E in N. unfold x in N. replace (bpow radix2 55 + 8 - (bpow radix2 55 + 6)) with 2 in N by ring.
  replace (bpow radix2 55 - (bpow radix2 55 + 6)) with (Ropp 6) in N by ring. rewrite Rabs_Ropp, !Rabs_pos_eq in N; lra.
Qed.
Lemma fadd_0_l x : double x -> fadd 0 x = x. Proof. intros. unfold fadd. rewrite Rplus_0_l. now apply fl_double. Qed.
Lemma fadd_0_r x : double x -> fadd x 0 = x. Proof. intros. unfold fadd. rewrite Rplus_0_r. now apply fl_double. Qed.
Lemma d3 : double 3. Proof. apply int_double. lia. Qed.
Lemma add33 : fadd 3 3 = 6. Proof. unfold fadd. replace (3 + 3) with 6 by ring. apply (dint 6). lia. Qed.

(* the same data in two or in four blocks: the means are different doubles *)
Theorem C148_same_bits_for_every_block_count_refuted : ~ (forall npsum nb nb' data, any_order npsum -> (0 < nb)%nat -> (0 < nb')%nat -> Forall double data ->
  f_long_t_mean npsum (length data) nb data = f_long_t_mean npsum (length data) nb' data).
Proof.
  intros H. specialize (H left_to_right 2%nat 4%nat [bpow radix2 55; 0; 3; 3] left_to_right_ok ltac:(lia) ltac:(lia)).
  assert (F : Forall double [bpow radix2 55; 0; 3; 3]) by (repeat apply Forall_cons; auto using d55, d3, double_0). specialize (H F).
  unfold f_long_t_mean, left_to_right, window in H. cbn -[bpow fadd fdiv] in H.
  rewrite !(fadd_0_l _ d55), !(fadd_0_r _ d55), !(fadd_0_l _ d3), !(fadd_0_l _ double_0), !(fadd_0_l _ d55), !(fadd_0_r _ d55), add33, !absorbs in H.
  assert (E1 : fdiv (bpow radix2 55) (1 + 1 + 1 + 1) = bpow radix2 53). { unfold fdiv. replace (bpow radix2 55 / (1 + 1 + 1 + 1)) with (bpow radix2 53) by (rewrite b55; cbn; lra). apply fl_double, generic_format_FLT_bpow; [reflexivity|lia]. }
  assert (E2 : bpow radix2 53 + 2 <= fdiv (fadd (bpow radix2 55) 6) (1 + 1 + 1 + 1)).
  { assert (D : double (bpow radix2 53 + 2)). { replace (bpow radix2 53 + 2) with (IZR (2 ^ 52 + 1) * bpow radix2 1) by (cbn; lra). apply scaled_double; lia. }
    rewrite <- (fl_double _ D). apply fl_mono. pose proof counts as C. rewrite b55 in *. change (bpow radix2 53) with 9007199254740992. lra. }
  rewrite H, E1 in E2. lra.
Qed.
Print Assumptions C148_same_bits_for_every_block_count_refuted.

(* the same points on one or on two processes: the entries are different doubles *)
Theorem C148_same_bits_for_every_process_count_refuted : ~ (forall npsum allreduce n_blocks terms terms', any_order npsum -> any_order allreduce -> (0 < n_blocks)%nat ->
  Forall (Forall term_ok) terms -> concat terms = concat terms' ->
  f_entry npsum allreduce n_blocks terms = f_entry npsum allreduce n_blocks terms').
Proof.
  intros H. set (t x := (1, x, 1) : R * R * R).
  specialize (H left_to_right left_to_right 1%nat [[t (bpow radix2 55); t 3; t 3]] [[t (bpow radix2 55)]; [t 3; t 3]] left_to_right_ok left_to_right_ok ltac:(lia)).
  assert (P : forall x, double x -> f_product (t x) = x) by (intros x D; unfold f_product, t, fmul; rewrite Rmult_1_r, (fl_double _ D), Rmult_1_l; now apply fl_double).
  assert (B : bpow radix2 (-1022) <= 1) by (change 1 with (bpow radix2 0); apply bpow_le; lia).
  assert (K : forall x, double x -> 1 <= x -> term_ok (t x)).
  { intros x D G. unfold term_ok, t. assert (D1 : double 1) by (apply int_double; lia). repeat split; try assumption.
    - right. rewrite Rmult_1_r, Rabs_pos_eq; lra.
    - right. unfold fmul. rewrite Rmult_1_r, (fl_double _ D), Rmult_1_l, Rabs_pos_eq; lra. }
  assert (F : Forall (Forall term_ok) [[t (bpow radix2 55); t 3; t 3]]).
  { apply Forall_cons; [|apply Forall_nil]. repeat apply Forall_cons; [apply K; [apply d55|rewrite b55; lra]|apply K; [apply d3|lra]|apply K; [apply d3|lra]|apply Forall_nil]. }
  specialize (H F eq_refl). unfold f_entry in H. cbn [map] in H. rewrite !(P _ d55), !(P _ d3) in H. unfold left_to_right in H. cbn [fold_left INR] in H.
  assert (Q : forall x, double x -> fdiv x 1 = x) by (intros x D; unfold fdiv, Rdiv; rewrite Rinv_1, Rmult_1_r; now apply fl_double).
  rewrite !(fadd_0_l _ d55), !(fadd_0_l _ d3), !absorbs, !(Q _ d55), add33, !(fadd_0_l _ d55), (Q 6) in H by (apply int_double; lia).
  pose proof counts. rewrite <- H in *. lra.
Qed.
Print Assumptions C148_same_bits_for_every_process_count_refuted.

(* the hypotheses are met: numpy adding from left to right, five snapshots in two blocks and in chunks of three and two *)
Example C148_case : Rabs (f_long_t_mean left_to_right 5 2 [1; 2; 3; 4; 5] - f_long_t_mean_dict left_to_right 5 [(0%nat, Block 0 3 [1; 2; 3]); (1%nat, Block 3 5 [4; 5])])
  <= bpow radix2 (-51) * fold_right Rplus 0 (map Rabs [1; 2; 3; 4; 5]) + bpow radix2 (-1074).
Proof.
  apply (C148_every_layout_agrees left_to_right left_to_right 2 [1; 2; 3; 4; 5]); try apply left_to_right_ok; try reflexivity; try lia; try easy.
  repeat apply Forall_cons; try apply Forall_nil; apply int_double; lia.
Qed.
Example C148_integer_case : f_long_t_mean left_to_right 5 2 [1; 2; 3; 4; 5] = f_long_t_mean_dict left_to_right 5 [(0%nat, Block 0 3 [1; 2; 3]); (1%nat, Block 3 5 [4; 5])].
Proof. apply (C148_integer_data_bit_for_bit left_to_right left_to_right 2 [1; 2; 3; 4; 5]%Z); try apply left_to_right_ok; try reflexivity; try lia; easy. Qed.
