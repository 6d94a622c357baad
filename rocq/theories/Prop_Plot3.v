(* C102: time windows of tracers and videos; C103: mode tracers; C105: coordinates of 3-D slices; C106: lines at the maximum. *)
From Coq Require Import QArith Qabs.
From Verif Require Import Base_List Model_Select Model_Coords Model_Plot Model_Plot2 Spec_Select Prop_Coords Prop_Plot2.
Set Implicit Arguments.
Local Open Scope nat_scope.

Section P.
Variable A : Type.
Notation rec4 := (rec4 A).
(* coordinates of the grid of X *)
Definition grid_of (X : rec4) (a b : list Q) : Prop := length a = d_n1 X /\ length b = d_n2 X /\ a <> [] /\ b <> [].
Lemma cons_length_pos B (l : list B) : l <> [] -> 0 < length l.
Proof. destruct l; [congruence|cbn; lia]. Qed.
Lemma one_tracer_corner (X : rec4) a b c0 c1 t0 t1 v : grid_of X a b -> v < d_nv X ->
  exists xi, length xi = 2 /\ (forall i c, nth_error [c0; c1] i = Some c -> exists w j, nearest (nth i [a; b] []) c w j /\ nth_error xi i = Some w) /\
    one_tracer X [a; b] t0 t1 [c0; c1] v =
    if (t1 <=? d_nt X) || (t1 <=? t0) then Ok (xi, map (fun t => (t, d_at X t 0 0 v)) (seq t0 (t1 - t0))) else Err ValueError.
Proof.
  intros (L1 & L2 & Na & Nb) Hv. destruct (@C64_nearest_coordinates [c0; c1] [a; b]) as (xi & idx & E & Lx & Li & N).
  - discriminate.
  - intros l [<-|[<-|[]]]; assumption.
  - cbn; lia.
  - assert (Ei : idx = [0; 0]). { eapply C64_two_dimensions; [exact Na|exact Nb|]. exact E. }
    exists xi. split; [exact Lx|]. split.
    { intros i c Hc. destruct (N i c Hc) as (w & j & Hn & Hx & _). eauto. }
    subst idx. unfold one_tracer. rewrite <- L1, <- L2. change [length a; length b] with (map (@length Q) [a; b]). rewrite E. cbn [bind snd fst].
    unfold tracer_at. assert (P1 := cons_length_pos Na). assert (P2 := cons_length_pos Nb).
    destruct (Nat.ltb_spec 0 (d_n1 X)); [|lia]. destruct (Nat.ltb_spec 0 (d_n2 X)); [|lia]. destruct (Nat.ltb_spec v (d_nv X)); [|lia]. cbn [andb negb].
    rewrite map_length, !seq_length.
    destruct (Nat.leb_spec t1 (d_nt X)) as [Ht|Ht]; cbn [orb].
    + rewrite Nat.min_l by lia. rewrite Nat.eqb_refl. cbn [bind]. do 2 f_equal. clear.
      generalize (t1 - t0). intros n. revert t0. induction n as [|n IH]; intros t0; [reflexivity|]. cbn [seq map combine]. now rewrite IH.
    + destruct (Nat.leb_spec t1 t0) as [Ht'|Ht'].
      * replace (t1 - t0) with 0 by lia. replace (Nat.min t1 (d_nt X) - t0) with 0 by lia. cbn. reflexivity.
      * rewrite Nat.min_r by lia. destruct (Nat.eqb_spec (t1 - t0) (d_nt X - t0)); [lia|]. reflexivity.
Qed.

(* The curve titled with the nearest grid point is always that of the first grid point, for every requested point. *)
Theorem C102_tracer_location_refuted : forall (X : rec4) a b c0 c1 t0 t1 v, grid_of X a b -> v < d_nv X -> 1 <= d_nt X -> t0 < t1 ->
  t1 <= d_nt X -> exists xi, length xi = 2 /\
    (forall i c, nth_error [c0; c1] i = Some c -> exists w j, nearest (nth i [a; b] []) c w j /\ nth_error xi i = Some w) /\
    plot_data_tracers X [[c0; c1]] [a; b] t0 t1 [v] = Ok [(xi, map (fun t => (t, d_at X t 0 0 v)) (seq t0 (t1 - t0)))].
Proof.
  intros X a b c0 c1 t0 t1 v G Hv Hn H01 H1. destruct (@one_tracer_corner X a b c0 c1 t0 t1 v G Hv) as (xi & Lx & N & E). exists xi. split; [exact Lx|]. split; [exact N|].
  unfold plot_data_tracers. destruct (Nat.eqb_spec (d_nt X) 0); [lia|]. destruct (Nat.eqb_spec (d_nv X) 0); [lia|]. cbn [orb pairs flat_map map app draw_each fst snd]. rewrite E.
  destruct (Nat.leb_spec t1 (d_nt X)); [|lia]. reflexivity.
Qed.
(* Windows: the function draws every window inside the record; the method only those that start at 0. *)
Theorem C102_function_windows : forall (X : rec4) a b c0 c1 t0 t1 v, grid_of X a b -> v < d_nv X -> 1 <= d_nt X -> t0 < t1 ->
  ((exists r, plot_data_tracers X [[c0; c1]] [a; b] t0 t1 [v] = Ok r) <-> t1 <= d_nt X).
Proof.
  intros X a b c0 c1 t0 t1 v G Hv Hn H01. destruct (@one_tracer_corner X a b c0 c1 t0 t1 v G Hv) as (xi & Lx & N & E).
  unfold plot_data_tracers. destruct (Nat.eqb_spec (d_nt X) 0); [lia|]. destruct (Nat.eqb_spec (d_nv X) 0); [lia|]. cbn [orb pairs flat_map map app draw_each fst snd]. rewrite E.
  destruct (Nat.leb_spec t1 t0); [lia|]. destruct (Nat.leb_spec t1 (d_nt X)); cbn [orb bind]; split; intros H2; try lia; [eauto|destruct H2; discriminate].
Qed.
Theorem C102_method_windows_refuted : forall (X : rec4) a b c0 c1 t0 t1 v, grid_of X a b -> v < d_nv X -> t0 < t1 ->
  ((exists r, method_plot_data_tracers X [[c0; c1]] [a; b] t0 t1 [v] = Ok r) <-> t0 = 0 /\ t1 <= d_nt X).
Proof.
  intros X a b c0 c1 t0 t1 v G Hv H01. unfold method_plot_data_tracers. set (X' := cut_time X t0 (Z.of_nat t1)).
  assert (G' : grid_of X' a b) by exact G.
  assert (Nt : d_nt X' = Nat.min t1 (d_nt X) - t0). { cbn [X' cut_time d_nt]. unfold stop_of. destruct (Z.ltb_spec (Z.of_nat t1) 0); lia. }
  destruct (Nat.eq_dec (d_nt X') 0) as [Z0|Z0].
  - unfold plot_data_tracers. rewrite Z0. cbn. split; [intros [r H]; discriminate|]. intros [-> H]. lia.
  - assert (Q := @C102_function_windows X' a b c0 c1 t0 t1 v G' Hv ltac:(lia) H01). rewrite Q, Nt. lia.
Qed.
(* snapshots of a video *)
Lemma every_law fuel k t n : 1 <= k -> n <= fuel -> every fuel k (seq t n) = map (fun m => t + k * m) (seq 0 ((n + k - 1) / k)).
Proof.
  intros Hk. revert t n. induction fuel as [|fuel IH]; intros t n Hn.
  - replace n with 0 by lia. cbn [every]. replace ((0 + k - 1) / k) with 0; [reflexivity|]. symmetry. apply Nat.div_small. lia.
  - destruct n as [|n].
    + cbn [seq every]. replace ((0 + k - 1) / k) with 0; [reflexivity|]. symmetry. apply Nat.div_small. lia.
    + cbn [every]. change (t :: seq (S t) n) with (seq t (S n)).
      assert (Sk : skipn k (seq t (S n)) = seq (t + k) (S n - k)).
      { clear. generalize (S n). intros m. revert t m. induction k as [|k IHk]; intros t m; cbn [skipn]; [f_equal; lia|].
        destruct m as [|m]; cbn [seq skipn]; [reflexivity|]. rewrite IHk. f_equal; lia. }
      rewrite Sk. rewrite IH by lia. cbn [seq]. destruct (Nat.le_gt_cases k (S n)) as [Hle|Hgt].
      * replace ((S n + k - 1) / k) with (S ((S n - k + k - 1) / k)).
        -- cbn [seq map]. f_equal; [lia|]. rewrite <- seq_shift, map_map. apply map_ext. intros m. lia.
        -- replace (S n + k - 1) with ((S n - k + k - 1) + 1 * k) by lia. rewrite Nat.div_add by lia. lia.
      * replace (S n - k) with 0 by lia. replace ((0 + k - 1) / k) with 0 by (symmetry; apply Nat.div_small; lia).
        replace ((S n + k - 1) / k) with 1; [cbn; f_equal; lia|]. apply Nat.div_unique with (r := n); lia.
Qed.
Lemma draw_each_all B C (g : B -> res C) h l : (forall b, In b l -> g b = Ok (h b)) -> draw_each g l = Ok (map h l).
Proof. induction l as [|b l IH]; intros H; [reflexivity|]. cbn [draw_each map]. rewrite H by (now left). cbn [bind]. rewrite IH; [reflexivity|]. intros x I. apply H. now right. Qed.
Lemma draw_each_fail B C (g : B -> res C) e l : (forall b, In b l -> (exists c, g b = Ok c) \/ g b = Err e) -> (exists b, In b l /\ g b = Err e) -> draw_each g l = Err e.
Proof.
  induction l as [|b l IH]; intros H [x [I E]]; [destruct I|]. cbn [draw_each]. destruct (H b (or_introl eq_refl)) as [[c Ec]|Ec]; rewrite Ec; cbn [bind]; [|reflexivity].
  destruct I as [->|I]; [congruence|]. rewrite IH; [reflexivity| |eauto]. intros y Iy. apply H. now right.
Qed.
Theorem C102_video_function : forall (X : rec4) t0 t1 s v, 1 <= s -> v < d_nv X -> 1 <= d_nt X ->
  ((forall m, t0 + s * m < t1 -> t0 + s * m < d_nt X) -> exists n, (forall m, m < n <-> t0 + s * m < t1) /\
      frames X t0 t1 s v = Ok (map (fun m => slab X (t0 + s * m) v) (seq 0 n))) /\
  ((exists m, t0 + s * m < t1 /\ d_nt X <= t0 + s * m) -> frames X t0 t1 s v = Err IndexError).
Proof.
  intros X t0 t1 s v Hs Hv Hn.
  assert (Nm : forall m, m < (t1 - t0 + s - 1) / s <-> t0 + s * m < t1).
  { intros m. split; intros H.
    - destruct (Nat.lt_ge_cases (t0 + s * m) t1) as [|G]; [assumption|]. exfalso.
      assert ((t1 - t0 + s - 1) / s < S m); [|lia]. apply Nat.div_lt_upper_bound; [lia|]. rewrite Nat.mul_succ_r. lia.
    - assert (S m <= (t1 - t0 + s - 1) / s); [|lia]. apply Nat.div_le_lower_bound; [lia|]. rewrite Nat.mul_succ_r. lia. }
  unfold frames. destruct (Nat.eqb_spec s 0); [lia|]. destruct (Nat.eqb_spec (d_nt X) 0); [lia|]. destruct (Nat.leb_spec (d_nv X) v); [lia|]. cbn [orb].
  rewrite every_law by lia. split.
  - intros Hall. eexists. split; [exact Nm|]. rewrite (draw_each_all _ (fun st => slab X st v)).
    + now rewrite map_map.
    + intros b I. apply in_map_iff in I as (m & <- & I). apply in_seq in I. assert (m < (t1 - t0 + s - 1) / s) as I' by lia. apply Nm in I'. specialize (Hall m I').
      destruct (Nat.ltb_spec (t0 + s * m) (d_nt X)); [reflexivity|lia].
  - intros (m & M1 & M2). apply draw_each_fail.
    + intros b _. destruct (b <? d_nt X); eauto.
    + exists (t0 + s * m). split; [apply in_map_iff; exists m; split; [reflexivity|]; apply in_seq; apply Nm in M1; lia|].
      destruct (Nat.ltb_spec (t0 + s * m) (d_nt X)); [lia|reflexivity].
Qed.
(* A window of the record [t0, t1) can be made into a video (every snapshot) with the function, but with the method only when t0 = 0. *)
Theorem C102_video_method_refuted : forall (X : rec4) t0 t1 v, v < d_nv X -> t0 < t1 ->
  ((exists r, method_frames X t0 t1 1 v = Ok r) <-> t0 = 0 /\ t1 <= d_nt X) /\
  (1 <= d_nt X -> (exists r, frames X t0 t1 1 v = Ok r) <-> t1 <= d_nt X).
Proof.
  intros X t0 t1 v Hv H01.
  assert (F : forall (Y : rec4) s0, d_nv Y = d_nv X -> 1 <= d_nt Y -> s0 < t1 -> (exists r, frames Y s0 t1 1 v = Ok r) <-> t1 <= d_nt Y).
  { intros Y s0 EY Hn Hlt. destruct (@C102_video_function Y s0 t1 1 v (le_n 1) ltac:(lia) Hn) as [F1 F2]. split.
    - intros [r E]. destruct (Nat.le_gt_cases t1 (d_nt Y)) as [|G]; [assumption|]. rewrite F2 in E; [discriminate|]. exists (t1 - 1 - s0). lia.
    - intros H. destruct F1 as (n & _ & E); [intros m; lia|]. eauto. }
  split; [|intros Hn; apply F; auto]. unfold method_frames. set (X' := cut_time X t0 (Z.of_nat t1)).
  assert (Nt : d_nt X' = Nat.min t1 (d_nt X) - t0). { cbn [X' cut_time d_nt]. unfold stop_of. destruct (Z.ltb_spec (Z.of_nat t1) 0); lia. }
  destruct (Nat.eq_dec (d_nt X') 0) as [Z0|Z0].
  - unfold frames. rewrite Z0. cbn. split; [intros [r H]; discriminate|]. intros [-> H]. lia.
  - rewrite (F X' 0) by (try reflexivity; lia). rewrite Nt. lia.
Qed.
End P.
Print Assumptions C102_tracer_location_refuted.
Print Assumptions C102_function_windows.
Print Assumptions C102_method_windows_refuted.
Print Assumptions C102_video_function.
Print Assumptions C102_video_method_refuted.
Example Ex_C102 : grid_of (ex_rec 2 3) [0; 1]%Q [5; 6; 7]%Q /\
  plot_data_tracers (ex_rec 2 3) [[1; 7]%Q] [[0; 1]; [5; 6; 7]]%Q 2 4 [0] = Ok [([1; 7]%Q, [(2, 200); (3, 300)])] /\
  method_plot_data_tracers (ex_rec 2 3) [[1; 7]%Q] [[0; 1]; [5; 6; 7]]%Q 2 4 [0] = Err ValueError.
Proof. repeat split; discriminate. Qed.
Example Ex_C102_video : frames (ex_rec 1 2) 1 4 2 0 = Ok [[[100; 101]]; [[300; 301]]] /\ method_frames (ex_rec 1 2) 1 4 1 0 = Err IndexError.
Proof. split; reflexivity. Qed.

(* ---- C103 ---- *)
Lemma subplot_rows_ok n cnt jobs : cnt + length jobs <= n -> exists r, subplot_rows n cnt jobs = Ok r.
Proof.
  revert cnt. induction jobs as [|[v m] jobs IH]; intros cnt H; cbn [subplot_rows length] in *; [eauto|]. destruct (Nat.ltb_spec cnt n); [|lia].
  destruct (IH (S cnt)) as [r E]; [lia|]. rewrite E. cbn. eexists. reflexivity.
Qed.
Lemma subplot_rows_err n cnt jobs : n < cnt + length jobs -> cnt <= n -> subplot_rows n cnt jobs = Err IndexError.
Proof.
  revert cnt. induction jobs as [|[v m] jobs IH]; intros cnt H Hc; cbn [subplot_rows length] in *; [lia|]. destruct (Nat.ltb_spec cnt n); [|reflexivity]. now rewrite IH by lia.
Qed.
(* Tracers of more than one variable always fail, those of one variable never for lack of subplots. *)
Theorem C103_several_variables_refuted : forall vars modes, modes <> [] ->
  ((exists r, mode_tracer_rows vars modes = Ok r) <-> length vars <= 1) /\
  (2 <= length vars -> mode_tracer_rows vars modes = Err IndexError).
Proof.
  intros vars modes Hm. unfold mode_tracer_rows. destruct modes as [|m0 ms] eqn:E; [congruence|]. rewrite <- E. destruct (Nat.eqb_spec (length modes) 0); [subst; discriminate|].
  assert (F : 2 <= length vars -> subplot_rows (length modes) 0 (pairs vars modes) = Err IndexError).
  { intros H. apply subplot_rows_err; [rewrite pairs_length; nia|lia]. }
  split; [|exact F]. split.
  - intros [r Er]. destruct (Nat.le_gt_cases (length vars) 1); [assumption|]. rewrite F in Er by lia. discriminate.
  - intros H. apply subplot_rows_ok. rewrite pairs_length. nia.
Qed.
(* The curve drawn over one period of the requested frequency makes five turns: it oscillates at five times the frequency. *)
Theorem C103_frequency_refuted : forall (freq_req : Q) k, ~ (freq_req == 0)%Q ->
  (tracer_turns k == 5 * freq_req * tracer_time freq_req k)%Q /\
  (1 <= k -> ~ (tracer_turns k == freq_req * tracer_time freq_req k)%Q).
Proof.
  intros f k Hf. assert (E : (tracer_turns k == 5 * f * tracer_time f k)%Q).
  { unfold tracer_turns, tracer_time, linspace. assert (D : ~ (inject_Z (Z.of_nat n_points - 1) == 0)%Q) by (vm_compute; discriminate).
    revert D. generalize (inject_Z (Z.of_nat n_points - 1)), (inject_Z (Z.of_nat k)). intros d q D. field. auto. }
  split; [exact E|]. intros Hk H. assert (T : (tracer_turns k == 0)%Q).
  { revert E H. generalize (tracer_turns k), (tracer_time f k). intros x y E H.
    assert (G : (x == 5 * x)%Q) by (rewrite E at 1; rewrite H; ring).
    assert (G' : (4 * x == 0)%Q) by (setoid_replace (4 * x)%Q with (5 * x - x)%Q by ring; rewrite <- G; ring).
    destruct (Qmult_integral _ _ G') as [G2|G2]; [discriminate|exact G2]. }
  revert T. unfold tracer_turns, linspace, n_points. unfold Qeq, Qdiv, Qmult, inject_Z. cbn. lia.
Qed.
Print Assumptions C103_several_variables_refuted.
Print Assumptions C103_frequency_refuted.
Example Ex_C103 : mode_tracer_rows [0; 1] [0; 2] = Err IndexError /\ mode_tracer_rows [1] [0; 2] = Ok [(1, 0, 0); (1, 2, 1)].
Proof. split; reflexivity. Qed.

(* ---- C105 ---- *)
(* the axes that remain after fixing axis d *)
Definition remaining (d : nat) : axis * axis := match d with 0 => (X2, X3) | 1 => (X1, X3) | _ => (X1, X2) end.
(* The slice is drawn against the coordinates of its own axes exactly when no earlier axis has the same length. *)
Theorem C105_slice_axes : forall n1 n2 n3 d, d < 3 ->
  exists ax, slice_axes n1 n2 n3 d = Ok ax /\
    (ax = remaining d <-> match d with 0 => n2 <> n1 /\ n3 <> n1 | 1 => n3 <> n2 | _ => True end).
Proof.
  intros n1 n2 n3 d Hd. unfold slice_axes. destruct d as [|[|[|d]]]; [..|lia]; cbn [bind fst snd]; unfold pick.
  - destruct (Nat.eqb_spec n2 n1); cbn [andb axis_eqb negb].
    + destruct (Nat.eqb_spec n3 n2); rewrite ?Bool.andb_false_r, ?Bool.andb_true_r; cbn [andb axis_eqb negb].
      * eexists. split; [reflexivity|]. split; [discriminate|tauto].
      * rewrite Nat.eqb_refl. cbn [andb]. eexists. split; [reflexivity|]. split; [discriminate|tauto].
    + rewrite Nat.eqb_refl. cbn [andb axis_eqb negb]. destruct (Nat.eqb_spec n3 n1); cbn [andb].
      * eexists. split; [reflexivity|]. split; [discriminate|tauto].
      * rewrite ?Bool.andb_false_r, Nat.eqb_refl. cbn [andb]. eexists. split; [reflexivity|]. cbn. tauto.
  - rewrite Nat.eqb_refl. cbn [andb axis_eqb negb]. rewrite ?Bool.andb_false_r. destruct (Nat.eqb_spec n3 n2); cbn [andb].
    + eexists. split; [reflexivity|]. split; [discriminate|tauto].
    + rewrite Nat.eqb_refl. eexists. split; [reflexivity|]. cbn. tauto.
  - rewrite Nat.eqb_refl. cbn [andb axis_eqb negb]. rewrite ?Bool.andb_false_r, Nat.eqb_refl. cbn [andb]. eexists. split; [reflexivity|]. cbn. tauto.
Qed.
(* Without slice_id the slice with the largest value should be shown; it is always the first one. *)
Definition largest_slice (n : nat) (peak : nat -> Q) (k : nat) : Prop := k < n /\ forall j, j < n -> (peak j <= peak k)%Q.
Theorem C105_largest_slice_refuted : forall n, 2 <= n -> exists peak, exists k, largest_slice n peak k /\ ~ largest_slice n peak (slice_shown None).
Proof.
  intros n Hn. exists (fun k => inject_Z (Z.of_nat k)), (n - 1). split.
  - split; [lia|]. intros j Hj. rewrite <- Zle_Qle. lia.
  - intros [_ H]. specialize (H 1 ltac:(lia)). cbn in H. unfold Qle in H. cbn in H. lia.
Qed.
Print Assumptions C105_slice_axes.
Print Assumptions C105_largest_slice_refuted.
Example Ex_C105 : slice_axes 4 4 4 0 = Ok (X1, X2) /\ slice_axes 4 5 6 0 = Ok (X2, X3).
Proof. split; reflexivity. Qed.

(* ---- C106 ---- *)
Lemma qmaxl_spec l m : qmaxl l = Ok m -> In m l /\ forall x, In x l -> (x <= m)%Q.
Proof.
  destruct l as [|x l]; [discriminate|]. cbn [qmaxl]. intros E. injection E as <-. revert x. induction l as [|y l IH]; intros x; cbn [fold_left].
  - split; [now left|]. intros z [->|[]]. apply Qle_refl.
  - destruct (Qle_bool x y) eqn:E.
    + destruct (IH y) as [I M]. split; [now right|]. apply Qle_bool_iff in E. intros z [<-|[->|Hz]]; [|apply M; now left|apply M; now right].
      eapply Qle_trans; [exact E|]. apply M. now left.
    + destruct (IH x) as [I M]. split; [destruct I as [I|I]; [now left|right; now right]|].
      assert (L : (y <= x)%Q). { destruct (Qlt_le_dec x y) as [H|H]; [|exact H]. apply Qlt_le_weak in H. apply Qle_bool_iff in H. congruence. }
      intros z [->|[->|Hz]]; [apply M; now left| |apply M; now right]. eapply Qle_trans; [exact L|]. apply M. now left.
Qed.
Lemma qmaxl_some l : l <> [] -> exists m, qmaxl l = Ok m.
Proof. destruct l; [congruence|]. cbn. eauto. Qed.
Lemma positions_in m p : In p (positions m) <-> fst p < length m /\ snd p < length (nth (fst p) m []).
Proof.
  unfold positions. rewrite in_flat_map. split.
  - intros (r & Hr & H). apply in_map_iff in H as (c & <- & Hc). apply in_seq in Hr, Hc. cbn. lia.
  - intros [H1 H2]. exists (fst p). split; [apply in_seq; lia|]. apply in_map_iff. exists (snd p). split; [now destruct p|apply in_seq; lia].
Qed.
Lemma NoDup_app_intro B (l r : list B) : NoDup l -> NoDup r -> (forall x, In x l -> ~ In x r) -> NoDup (l ++ r).
Proof.
  intros Hl Hr D. induction Hl as [|x l Hx Hl IH]; [exact Hr|]. cbn. constructor.
  - rewrite in_app_iff. intros [I|I]; [auto|]. apply (D x); [now left|exact I].
  - apply IH. intros y I. apply D. now right.
Qed.
Lemma positions_NoDup m : NoDup (positions m).
Proof.
  unfold positions. assert (G : forall l, NoDup l -> NoDup (flat_map (fun r => map (fun c => (r, c)) (seq 0 (length (nth r m [])))) l)).
  { induction l as [|r l IH]; intros Nd; [constructor|]. inversion Nd; subst. cbn [flat_map]. apply NoDup_app_intro; [| now apply IH|].
    - apply FinFun.Injective_map_NoDup; [|apply seq_NoDup]. intros x y E. now injection E.
    - intros x I I'. apply in_map_iff in I as (c & <- & _). apply in_flat_map in I' as (r' & Hr & I'). apply in_map_iff in I' as (c' & E & _). injection E as -> _. auto. }
  apply G, seq_NoDup.
Qed.
Lemma filter_unique B (P : B -> bool) l x : NoDup l -> In x l -> P x = true -> (forall y, In y l -> P y = true -> y = x) -> filter P l = [x].
Proof.
  intros Nd I Px U. induction Nd as [|y l Hy Nd IH]; [destruct I|]. cbn [filter]. destruct (P y) eqn:E.
  - assert (y = x) by (apply U; [now left|exact E]). subst y. f_equal.
    assert (F : forall l', (forall z, In z l' -> P z = false) -> filter P l' = []).
    { induction l' as [|z l' IHl]; intros H; [reflexivity|]. cbn. rewrite H by (now left). apply IHl. intros w Iw. apply H. now right. }
    apply F. intros z Iz. destruct (P z) eqn:Ez; [|reflexivity]. assert (z = x) by (apply U; [now right|exact Ez]). subst z. contradiction.
  - apply IH; [destruct I as [->|I]; [congruence|exact I]|]. intros z Iz. apply U. now right.
Qed.
(* the picture has its only largest absolute value at the point (x1[i], x2[j]) *)
Definition peak_at (m : list (list Q)) (i j : nat) : Prop :=
  exists a, (exists row, nth_error m j = Some row /\ nth_error row i = Some a) /\
    forall j' row' i' b, nth_error m j' = Some row' -> nth_error row' i' = Some b -> (b <= a)%Q /\ ((b == a)%Q -> i' = i /\ j' = j).
(* The lines should cross at the maximum, (x1[i], x2[j]); they cross at (x2[j], x1[i]). *)
Theorem C106_lines_swapped_refuted : forall x1 x2 m i j h v, peak_at m i j -> nth_error x1 i = Some h -> nth_error x2 j = Some v ->
  max_lines x1 x2 m = Ok (v, h) /\ (max_lines x1 x2 m = Ok (h, v) <-> h = v).
Proof.
  intros x1 x2 m i j h v (a & (row & Er & Ea) & U) H1 H2.
  assert (Hp : In (j, i) (positions m)). { apply positions_in. cbn. split; [apply nth_error_Some; congruence|]. rewrite (nth_error_nth _ _ _ Er). apply nth_error_Some. congruence. }
  assert (Hv : value_at m (j, i) = a). { unfold value_at. cbn. rewrite (nth_error_nth _ _ _ Er). now apply nth_error_nth. }
  assert (At : forall p, In p (positions m) -> (value_at m p <= a)%Q /\ ((value_at m p == a)%Q -> p = (j, i))).
  { intros [r c] I. apply positions_in in I as [I1 I2]. cbn in I1, I2. destruct (nth_error m r) as [row'|] eqn:E1; [|apply nth_error_None in E1; lia].
    rewrite (nth_error_nth _ _ _ E1) in I2. destruct (nth_error row' c) as [b|] eqn:E2; [|apply nth_error_None in E2; lia].
    assert (V : value_at m (r, c) = b). { unfold value_at. cbn. rewrite (nth_error_nth _ _ _ E1). now apply nth_error_nth. }
    rewrite V. destruct (U _ _ _ _ E1 E2) as [L Q]. split; [exact L|]. intros E. destruct (Q E) as [-> ->]. reflexivity. }
  destruct (@qmaxl_some (map (value_at m) (positions m))) as [top Et]. { intros E. apply map_eq_nil in E. rewrite E in Hp. destruct Hp. }
  destruct (qmaxl_spec _ Et) as [It Mt].
  assert (Ta : (top == a)%Q).
  { apply Qle_antisym; [apply in_map_iff in It as (p & <- & Ip); apply At, Ip|]. rewrite <- Hv. apply Mt. now apply in_map. }
  assert (L : max_lines x1 x2 m = Ok (v, h)).
  { unfold max_lines. rewrite Et. cbn [bind]. rewrite (@filter_unique _ _ _ (j, i)); [now rewrite H1, H2|apply positions_NoDup|exact Hp| |].
    - apply Qeq_bool_iff. rewrite Hv, Ta. reflexivity.
    - intros p Ip E. apply Qeq_bool_iff in E. apply At; [exact Ip|]. now rewrite E. }
  split; [exact L|]. rewrite L. split; [|intros ->; reflexivity]. intros E. now injection E.
Qed.
Print Assumptions C106_lines_swapped_refuted.
Example Ex_C106 : peak_at [[1; 2; 3]; [7; 4; 5]]%Q 0 1 /\ max_lines [10; 20; 30]%Q [5; 6]%Q [[1; 2; 3]; [7; 4; 5]]%Q = Ok (6, 10)%Q.
Proof.
  split; [|vm_compute; reflexivity]. exists 7%Q. split; [eexists; split; reflexivity|]. intros j' row' i' b H1 H2.
  destruct j' as [|[|j']]; [injection H1 as <-|injection H1 as <-|destruct j'; discriminate];
    destruct i' as [|[|[|i']]]; try (destruct i'; discriminate); injection H2 as <-; split; try (unfold Qle; cbn; lia); auto; unfold Qeq; cbn; lia.
Qed.
