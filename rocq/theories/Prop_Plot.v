(* C75: plotting with a 180 degree shift. *)
From Coq Require Import QArith Lqa.
From Verif Require Import Base_List Model_Plot.
Set Implicit Arguments.
Local Open Scope nat_scope.

(* ---------- specification ---------- *)
Definition same_coords (l l' : list Q) : Prop := Forall2 Qeq l l'.
(* equal longitudes: they differ by a whole number of turns *)
Definition same_longitude (a b : Q) : Prop := exists k : Z, (a == b + inject_Z (360 * k))%Q.
(* n evenly spaced longitudes from 0 *)
Definition even_longitudes (n : nat) (x : list Q) : Prop :=
  length x = n /\ forall j, j < n -> (nth j x 0%Q == inject_Z (360 * Z.of_nat j) / inject_Z (Z.of_nat n))%Q.

(* ---------- proofs ---------- *)
Lemma cut_full {X} (l : list X) : cut (0, None) l = l.
Proof. unfold cut. cbn [fst snd]. rewrite Nat.sub_0_r. apply window_all. lia. Qed.
Lemma cut_length_le {X} lim (l : list X) : length (cut lim l) <= length l - fst lim.
Proof. unfold cut. rewrite window_length. lia. Qed.
Lemma cut_skip {X} lim (l : list X) : skipn (fst lim) l = cut lim l ++ skipn (fst lim + length (cut lim l)) l.
Proof.
  unfold cut. set (k := _ - fst lim). rewrite <- skipn_skipn_add, window_length. unfold window.
  set (r := skipn (fst lim) l). assert (Hr : length r = length l - fst lim) by apply skipn_length. rewrite <- Hr.
  destruct (Nat.le_gt_cases k (length r)).
  - rewrite Nat.min_l by assumption. symmetry. apply firstn_skipn.
  - rewrite Nat.min_r by lia. rewrite skipn_all, app_nil_r, firstn_all2 by lia. reflexivity.
Qed.
Lemma cut_split {X} lim (l : list X) : l = firstn (fst lim) l ++ cut lim l ++ skipn (fst lim + length (cut lim l)) l.
Proof. rewrite <- cut_skip. symmetry. apply firstn_skipn. Qed.
Lemma Forall2_Qeq_refl l : Forall2 Qeq l l.
Proof. induction l; [constructor|constructor; [reflexivity|assumption]]. Qed.
Lemma shift_len lim q l : length (shift_cut lim q l) = length l.
Proof.
  unfold shift_cut. assert (E := f_equal (@length Q) (cut_split lim l)). rewrite !app_length in E. rewrite !app_length, map_length. lia.
Qed.
Lemma cut_shift lim q l : cut lim (shift_cut lim q l) = map (fun x => (x + q)%Q) (cut lim l).
Proof.
  unfold cut at 1. rewrite shift_len. unfold shift_cut.
  destruct (Nat.le_gt_cases (fst lim) (length l)) as [H|H].
  - set (k := match snd lim with Some e => e | None => length l end - fst lim).
    assert (Hc : length (cut lim l) = min k (length l - fst lim)) by (unfold cut; apply window_length).
    rewrite window_app_r by (rewrite firstn_length; lia). rewrite firstn_length, Nat.min_l, Nat.sub_diag by lia.
    unfold window. cbn [skipn].
    destruct (Nat.le_gt_cases k (length l - fst lim)) as [Hk|Hk].
    + rewrite Nat.min_l in Hc by assumption. rewrite firstn_app, map_length, Hc, Nat.sub_diag. cbn [firstn]. rewrite app_nil_r.
      apply firstn_all2. rewrite map_length. lia.
    + rewrite Nat.min_r in Hc by lia. rewrite Hc. replace (fst lim + (length l - fst lim)) with (length l) by lia.
      rewrite skipn_all, app_nil_r. apply firstn_all2. rewrite map_length. lia.
  - replace (cut lim l) with (@nil Q).
    2:{ unfold cut. unfold window. rewrite skipn_all2 by lia. now rewrite firstn_nil. }
    cbn [map app length]. rewrite Nat.add_0_r, skipn_all2, app_nil_r, firstn_all2 by lia.
    unfold window. rewrite skipn_all2 by lia. apply firstn_nil.
Qed.
Lemma shift_back lim q l : Forall2 Qeq (shift_cut lim (- q) (shift_cut lim q l)) l.
Proof.
  unfold shift_cut at 1. rewrite cut_shift, map_length.
  assert (F : firstn (fst lim) (shift_cut lim q l) = firstn (fst lim) l).
  { unfold shift_cut. destruct (Nat.le_gt_cases (fst lim) (length l)).
    - rewrite firstn_app, firstn_firstn, Nat.min_id, firstn_length, Nat.min_l, Nat.sub_diag by lia. cbn [firstn]. apply app_nil_r.
    - assert (E : cut lim l = []) by (unfold cut, window; rewrite skipn_all2 by lia; apply firstn_nil).
      rewrite E. cbn [map app length]. rewrite skipn_all2 by lia. rewrite app_nil_r, firstn_firstn, Nat.min_id. reflexivity. }
  assert (G : skipn (fst lim + length (cut lim l)) (shift_cut lim q l) = skipn (fst lim + length (cut lim l)) l).
  { unfold shift_cut. destruct (Nat.le_gt_cases (fst lim) (length l)) as [H|H].
    - assert (Hf : length (firstn (fst lim) l) = fst lim) by (rewrite firstn_length; lia).
      rewrite app_assoc. rewrite skipn_app. rewrite skipn_all2 by (rewrite app_length, map_length, Hf; lia).
      rewrite app_length, map_length, Hf, Nat.sub_diag. reflexivity.
    - assert (E : cut lim l = []) by (unfold cut, window; rewrite skipn_all2 by lia; apply firstn_nil).
      rewrite E. cbn [map app length]. rewrite (@skipn_all2 _ (fst lim + 0) l) by lia. rewrite app_nil_r.
      apply skipn_all2. rewrite firstn_length. lia. }
  rewrite F, G, map_map. match goal with |- Forall2 Qeq ?X _ => set (X0 := X) end. rewrite (cut_split lim l). unfold X0. clear X0. apply Forall2_app; [apply Forall2_Qeq_refl|]. apply Forall2_app; [|apply Forall2_Qeq_refl].
  clear F G. induction (cut lim l); cbn [map]; [constructor|constructor; [ring|assumption]].
Qed.

(* A call that completes leaves the caller's coordinates as they were. *)
Theorem C75_restored_on_success : forall A (a0 : A) M vars modes x1 x2 lim1 lim2 shift180 fftshift figs x1',
  plot_2d_modes a0 M vars modes x1 x2 lim1 lim2 shift180 fftshift = (Ok figs, x1') -> same_coords x1' x1.
Proof.
  intros A a0 M vars modes x1 x2 lim1 lim2 s f figs x1' H. unfold plot_2d_modes in H.
  destruct (draw_all _ _) as [g|e]; [|discriminate]. injection H as _ <-. destruct s; [|apply Forall2_Qeq_refl].
  exact (shift_back lim1 (-180) x1).
Qed.
Print Assumptions C75_restored_on_success.

(* ---------- histories ---------- *)
Record call A := Call { c_modes : modes_file A; c_vars : list nat; c_ids : list nat; c_x2 : list Q; c_shift : bool; c_fft : bool }.
Definition do_call A (a0 : A) (x1 : list Q) (c : call A) : res (list (figure A)) * list Q :=
  plot_2d_modes a0 (c_modes c) (c_vars c) (c_ids c) x1 (c_x2 c) (0, None) (0, None) (c_shift c) (c_fft c).
(* the calls are made one after the other with the same coordinate array *)
Fixpoint replay A (a0 : A) (x1 : list Q) (h : list (call A)) : list Q * nat :=
  match h with
  | [] => (x1, 0)
  | c :: r =>
      let '(res, x1') := do_call a0 x1 c in
      let '(final, failed) := replay a0 x1' r in
      (final, (match res with Err _ => if c_shift c then 1 else 0 | Ok _ => 0 end) + failed)
  end.
Lemma Forall2_trans_Q l1 l2 l3 : Forall2 Qeq l1 l2 -> Forall2 Qeq l2 l3 -> Forall2 Qeq l1 l3.
Proof.
  intros H. revert l3. induction H; intros l3 H3; inversion H3; subst; [constructor|constructor; [etransitivity; eassumption|auto]].
Qed.
Lemma shift_full q l : shift_cut (0, None) q l = map (fun x => (x + q)%Q) l.
Proof. unfold shift_cut. rewrite cut_full. cbn [fst firstn app Nat.add]. rewrite skipn_all. apply app_nil_r. Qed.
Lemma map_shift_cong q l l' : Forall2 Qeq l l' -> Forall2 Qeq (map (fun x => (x + q)%Q) l) (map (fun x => (x + q)%Q) l').
Proof. induction 1 as [|? ? ? ? E]; cbn [map]; [constructor|constructor; [now rewrite E|assumption]]. Qed.
(* expectation: plotting does not alter its inputs. Every shifted call that raises leaves the coordinates 180 degrees lower,
   so after a history they have moved by 180 degrees for every such call. *)
Theorem C75_history : forall A (a0 : A) (h : list (call A)) x1 final failed,
  replay a0 x1 h = (final, failed) ->
  same_coords final (map (fun x => (x + inject_Z (- 180 * Z.of_nat failed))%Q) x1).
Proof.
  intros A a0. induction h as [|c h IH]; intros x1 final failed H; cbn [replay] in H.
  - injection H as <- <-. cbn. clear. induction x1; cbn [map]; [constructor|constructor; [ring|assumption]].
  - destruct (do_call a0 x1 c) as [r x1'] eqn:E. destruct (replay a0 x1' h) as [fin fl] eqn:E2. injection H as <- <-.
    eapply Forall2_trans_Q; [exact (IH _ _ _ E2)|].
    unfold do_call in E. destruct r as [figs|e].
    + assert (R := @C75_restored_on_success _ _ _ _ _ _ _ _ _ _ _ _ _ E). cbn [Nat.add]. now apply map_shift_cong.
    + unfold plot_2d_modes in E. destruct (draw_all _ _) as [g|e']; [discriminate|]. injection E as _ <-.
      destruct (c_shift c).
      * rewrite shift_full, map_map. clear. induction x1 as [|x l IHl]; cbn [map]; [constructor|constructor; [|assumption]].
        rewrite <- Qplus_assoc. apply Qplus_inj_l. unfold Qeq, Qplus, inject_Z. cbn [Qnum Qden]. lia.
      * cbn [Nat.add]. apply Forall2_Qeq_refl.
Qed.
Print Assumptions C75_history.
(* e.g. three calls for a variable that does not exist *)
Theorem C75_unchanged_refuted : exists (c : call nat) x1 final,
  replay 0 x1 [c; c; c] = (final, 3) /\ ~ same_coords final x1 /\ 2 <= length x1.
Proof.
  exists (Call (@Modes nat 2 2 1 1 (fun i j _ _ => i + j)) [1] [0] [0%Q; 90%Q] true false), [0%Q; 180%Q]. eexists.
  split; [reflexivity|]. split; [|cbn; lia]. intros H. inversion H as [|? ? ? ? E _]. revert E. vm_compute. discriminate.
Qed.
Print Assumptions C75_unchanged_refuted.

(* ---------- what is drawn ---------- *)
Lemma swap_nth {X} (r : list X) d c : c < length r -> nth c (swap_halves r) d = nth ((c + length r / 2) mod length r) r d.
Proof.
  intros H. unfold swap_halves. set (n := length r) in *. assert (Hn : n <> 0) by lia. set (h := n / 2).
  assert (Hh : h <= n) by (unfold h; apply Nat.div_le_upper_bound; lia).
  destruct (Nat.lt_ge_cases c (n - h)) as [Hc|Hc].
  - rewrite app_nth1 by (rewrite skipn_length; fold n; lia). rewrite Nat.mod_small by lia.
    rewrite <- (firstn_skipn h r) at 2. rewrite app_nth2 by (rewrite firstn_length; lia). f_equal. rewrite firstn_length. fold n. lia.
  - rewrite app_nth2 by (rewrite skipn_length; fold n; lia). rewrite skipn_length. fold n.
    replace ((c + h) mod n) with (c - (n - h)).
    + rewrite <- (firstn_skipn h r) at 2. rewrite app_nth1 by (rewrite firstn_length; fold n; lia). reflexivity.
    + apply Nat.mod_unique with 1; lia.
Qed.
Lemma swap_length {X} (r : list X) : length (swap_halves r) = length r.
Proof.
  unfold swap_halves. rewrite app_length, skipn_length, firstn_length. assert (length r / 2 <= length r) by (apply Nat.div_le_upper_bound; lia). lia.
Qed.
Definition grid A (M : modes_file A) (v k : nat) : list (list A) :=
  map (fun i => map (fun j => m_at M i j v k) (seq 0 (m_n1 M))) (seq 0 (m_n0 M)).
Lemma grid_rows A (M : modes_file A) v k : length (map swap_halves (grid M v k)) = m_n0 M.
Proof. unfold grid. now rewrite !map_length, seq_length. Qed.
Lemma grid_cols A (M : modes_file A) v k : 0 < m_n0 M -> n_cols (map swap_halves (grid M v k)) = m_n1 M.
Proof.
  intros H. unfold grid. destruct (m_n0 M); [lia|]. cbn [seq map n_cols]. now rewrite swap_length, map_length, seq_length.
Qed.
Lemma draw_shift A (a0 : A) M v k x1 x2 : 1 < m_n0 M -> 1 < m_n1 M -> v < m_nv M -> k < m_nm M ->
  plot_2d_modes a0 M [v] [k] x1 x2 (0, None) (0, None) true false =
  let xs := map (fun x => (x + -180)%Q) x1 in
  let m := map swap_halves (grid M v k) in
  let m := if negb (length x1 =? m_n1 M) || negb (length x2 =? m_n0 M) then transpose a0 m else m in
  let r := if negb (length x1 * length x2 =? length m * n_cols m) then Err ValueError
           else if negb (length x1 =? n_cols m) || negb (length x2 =? length m) then Err TypeError
           else Ok [Figure xs x2 m] in
  (r, match r with Ok _ => map (fun x => (x + 180)%Q) xs | Err _ => xs end).
Proof.
  intros H0 H1 Hv Hk. unfold plot_2d_modes. cbn [map concat app draw_all]. rewrite !shift_full.
  cbv zeta. unfold draw_one. destruct (Nat.leb_spec (m_nm M) k); [lia|]. destruct (Nat.leb_spec (m_nv M) v); [lia|].
  destruct (Nat.eqb_spec (m_n0 M) 1); [lia|]. destruct (Nat.eqb_spec (m_n1 M) 1); [lia|]. cbn [orb]. fold (grid M v k).
  rewrite !cut_full, grid_cols, grid_rows by lia. rewrite !map_length.
  set (m := if negb (length x1 =? m_n1 M) || negb (length x2 =? m_n0 M) then transpose a0 (map swap_halves (grid M v k)) else map swap_halves (grid M v k)).
  assert (Ec : map (cut (0, None)) m = m) by (rewrite (map_ext _ (fun r => r)) by (intros; apply cut_full); apply map_id).
  rewrite Ec. clearbody m. destruct (negb (length x1 * length x2 =? length m * n_cols m)); [reflexivity|].
  destruct (negb (length x1 =? n_cols m) || negb (length x2 =? length m)); reflexivity.
Qed.

(* Modes stored latitude first: entry (i, c) of the figure is the value at longitude (c + n/2) mod n. *)
Theorem C75_latitude_first : forall A (a0 : A) M v k x1 x2, 1 < m_n0 M -> 1 < m_n1 M -> v < m_nv M -> k < m_nm M ->
  length x1 = m_n1 M -> length x2 = m_n0 M ->
  exists fig x1', plot_2d_modes a0 M [v] [k] x1 x2 (0, None) (0, None) true false = (Ok [fig], x1') /\
    same_coords x1' x1 /\ f_x2 fig = x2 /\
    (forall c, c < m_n1 M -> (nth c (f_x1 fig) 0 == nth c x1 0 - 180)%Q) /\
    (forall i c, i < m_n0 M -> c < m_n1 M -> nth c (nth i (f_mode fig) []) a0 = m_at M i ((c + m_n1 M / 2) mod m_n1 M) v k).
Proof.
  intros A a0 M v k x1 x2 H0 H1 Hv Hk L1 L2. assert (D := @draw_shift A a0 M v k x1 x2 H0 H1 Hv Hk). cbv zeta in D.
  rewrite L1, L2, !Nat.eqb_refl in D. cbn [negb orb] in D. rewrite grid_cols, grid_rows in D by lia.
  rewrite Nat.mul_comm, !Nat.eqb_refl in D. cbn [negb orb] in D.
  eexists. eexists. split; [exact D|]. split; [eapply C75_restored_on_success; exact D|]. cbn [f_x2 f_x1 f_mode].
  split; [reflexivity|]. split.
  - intros c Hc. rewrite (nth_indep _ 0%Q (0 + -180)%Q) by (rewrite map_length; lia). rewrite (map_nth (fun x => (x + -180)%Q)). reflexivity.
  - intros i c Hi Hc. unfold grid. rewrite map_map, nth_map_seq0 by assumption.
    rewrite swap_nth by (rewrite map_length, seq_length; assumption). rewrite map_length, seq_length.
    rewrite nth_map_seq0; [reflexivity|]. apply Nat.mod_upper_bound. lia.
Qed.
Print Assumptions C75_latitude_first.

Lemma lon_shift n x c h : even_longitudes n x -> c < n -> h < n ->
  exists k : Z, (nth ((c + h) mod n) x 0 == (inject_Z (360 * (Z.of_nat c + Z.of_nat h)) / inject_Z (Z.of_nat n)) + inject_Z (360 * k))%Q.
Proof.
  intros [L E] Hc Hh. assert (E1 := E ((c + h) mod n) ltac:(apply Nat.mod_upper_bound; lia)).
  assert (Hn : ~ (inject_Z (Z.of_nat n) == 0)%Q) by (unfold Qeq, inject_Z; cbn; lia).
  destruct (Nat.lt_ge_cases (c + h) n) as [H|H].
  - exists 0%Z. rewrite E1. rewrite Nat.mod_small by assumption. rewrite Nat2Z.inj_add. change (inject_Z (360 * 0)) with 0%Q. ring.
  - exists (-1)%Z. rewrite E1. replace ((c + h) mod n) with (c + h - n) by (apply Nat.mod_unique with 1; lia).
    rewrite Nat2Z.inj_sub, Nat2Z.inj_add by assumption. change (360 * -1)%Z with (-360)%Z.
    rewrite (inject_Z_mult 360 (Z.of_nat c + Z.of_nat h - Z.of_nat n)), (inject_Z_mult 360 (Z.of_nat c + Z.of_nat h)).
    unfold Z.sub. rewrite (inject_Z_plus (Z.of_nat c + Z.of_nat h)), inject_Z_opp. change (inject_Z (-360)) with (- inject_Z 360)%Q.
    field. exact Hn.
Qed.

(* With an even number of evenly spaced longitudes every column is drawn at its own longitude. *)
Theorem C75_even_grid_correct : forall n x c, even_longitudes n x -> Nat.Even n -> c < n ->
  same_longitude (nth ((c + n / 2) mod n) x 0%Q) (nth c x 0%Q - 180)%Q.
Proof.
  intros n x c Hx [h Hh] Hc. destruct (@lon_shift n x c (n / 2) Hx Hc) as [k Hk]; [apply Nat.div_lt; lia|].
  exists (k + 1)%Z. rewrite Hk. destruct Hx as [_ E]. rewrite E by assumption.
  assert (Hn : ~ (inject_Z (Z.of_nat n) == 0)%Q) by (unfold Qeq, inject_Z; cbn; lia).
  replace (n / 2) with h by (rewrite Hh, Nat.mul_comm, Nat.div_mul; lia).
  rewrite (inject_Z_mult 360 (Z.of_nat c + Z.of_nat h)), inject_Z_plus, (inject_Z_mult 360 (Z.of_nat c)), (inject_Z_mult 360 (k + 1)), inject_Z_plus, (inject_Z_mult 360 k).
  assert (En : (inject_Z (Z.of_nat n) == 2 * inject_Z (Z.of_nat h))%Q) by (rewrite Hh, Nat2Z.inj_mul, inject_Z_mult; reflexivity).
  rewrite En in Hn |- *. change (inject_Z 360) with (360#1)%Q. change (inject_Z 1) with 1%Q. field. intros Z0. apply Hn. rewrite Z0. ring.
Qed.
Print Assumptions C75_even_grid_correct.

(* expectation: the same on every grid. With an odd number of longitudes every column is drawn half a cell off. *)
Theorem C75_odd_grid_refuted : forall n x c, even_longitudes n x -> Nat.Odd n -> 1 < n -> c < n ->
  same_longitude (nth ((c + n / 2) mod n) x 0 + inject_Z 180 / inject_Z (Z.of_nat n))%Q (nth c x 0 - 180)%Q /\
  ~ same_longitude (nth ((c + n / 2) mod n) x 0%Q) (nth c x 0%Q - 180)%Q.
Proof.
  intros n x c Hx [h Hh] H1 Hc.
  assert (Hd : n / 2 = h) by (symmetry; apply Nat.div_unique with 1; lia).
  destruct (@lon_shift n x c (n / 2) Hx Hc) as [k Hk]; [apply Nat.div_lt; lia|].
  assert (Hn : ~ (inject_Z (Z.of_nat n) == 0)%Q) by (unfold Qeq, inject_Z; cbn; lia).
  assert (En : (inject_Z (Z.of_nat n) == 2 * inject_Z (Z.of_nat h) + 1)%Q) by (rewrite Hh, Nat2Z.inj_add, Nat2Z.inj_mul, inject_Z_plus, inject_Z_mult; reflexivity).
  assert (S1 : (nth ((c + n / 2) mod n) x 0 + inject_Z 180 / inject_Z (Z.of_nat n) == nth c x 0 - 180 + inject_Z (360 * (k + 1)))%Q).
  { rewrite Hk. destruct Hx as [_ E]. rewrite E by assumption. rewrite Hd.
    rewrite (inject_Z_mult 360 (Z.of_nat c + Z.of_nat h)), inject_Z_plus, (inject_Z_mult 360 (Z.of_nat c)), (inject_Z_mult 360 (k + 1)), inject_Z_plus, (inject_Z_mult 360 k).
    rewrite En in Hn |- *. change (inject_Z 360) with (360#1)%Q. change (inject_Z 180) with (180#1)%Q. change (inject_Z 1) with 1%Q. field. exact Hn. }
  split; [exists (k + 1)%Z; exact S1|]. intros [k' Hk'].
  rewrite Hk' in S1.
  assert (S2 : (inject_Z 180 == inject_Z (360 * (k + 1 - k')) * inject_Z (Z.of_nat n))%Q).
  { assert (S3 : (inject_Z 180 / inject_Z (Z.of_nat n) == inject_Z (360 * (k + 1 - k')))%Q).
    { replace (360 * (k + 1 - k'))%Z with (360 * (k + 1) + - (360 * k'))%Z by ring. rewrite inject_Z_plus, inject_Z_opp.
      apply Qplus_inj_l with (z := (nth c x 0 - 180 + inject_Z (360 * k'))%Q). rewrite S1. ring. }
    rewrite <- S3. field. exact Hn. }
  rewrite <- inject_Z_mult in S2. assert (S4 : (180 = 360 * (k + 1 - k') * Z.of_nat n)%Z) by (unfold Qeq, inject_Z in S2; cbn [Qnum Qden] in S2; lia).
  nia.
Qed.
Print Assumptions C75_odd_grid_refuted.

(* expectation: the same for modes stored longitude first (different numbers of longitudes and latitudes). The coordinates are
   shifted but the longitudes are not; the latitudes are exchanged instead. *)
Theorem C75_longitude_first_refuted : forall A (a0 : A) M v k x1 x2, 1 < m_n0 M -> 1 < m_n1 M -> v < m_nv M -> k < m_nm M ->
  length x1 = m_n0 M -> length x2 = m_n1 M -> m_n0 M <> m_n1 M ->
  exists fig x1', plot_2d_modes a0 M [v] [k] x1 x2 (0, None) (0, None) true false = (Ok [fig], x1') /\ f_x2 fig = x2 /\
    (forall c, c < m_n0 M -> (nth c (f_x1 fig) 0 == nth c x1 0 - 180)%Q) /\
    (forall i c, i < m_n1 M -> c < m_n0 M -> nth c (nth i (f_mode fig) []) a0 = m_at M c ((i + m_n1 M / 2) mod m_n1 M) v k).
Proof.
  intros A a0 M v k x1 x2 H0 H1 Hv Hk L1 L2 Hne. assert (D := @draw_shift A a0 M v k x1 x2 H0 H1 Hv Hk). cbv zeta in D.
  rewrite L1, L2 in D. destruct (Nat.eqb_spec (m_n0 M) (m_n1 M)); [contradiction|]. cbn [negb orb] in D.
  set (m := transpose a0 (map swap_halves (grid M v k))) in D.
  assert (Lr : length m = m_n1 M) by (unfold m, transpose; rewrite map_length, seq_length; apply grid_cols; lia).
  assert (Lc : n_cols m = m_n0 M).
  { unfold m, transpose. rewrite grid_cols by lia. destruct (m_n1 M) as [|q] eqn:Eq; [lia|]. cbn [seq map n_cols]. rewrite map_length. apply grid_rows. }
  rewrite Lr, Lc, (Nat.mul_comm (m_n1 M)), !Nat.eqb_refl in D. cbn [negb orb] in D.
  eexists. eexists. split; [exact D|]. cbn [f_x2 f_x1 f_mode]. split; [reflexivity|]. split.
  - intros c Hc. rewrite (nth_indep _ 0%Q (0 + -180)%Q) by (rewrite map_length; lia). rewrite (map_nth (fun x => (x + -180)%Q)). reflexivity.
  - intros i c Hi Hc. unfold m, transpose. rewrite grid_cols by lia. rewrite nth_map_seq0 by assumption.
    rewrite (nth_indep _ a0 (nth i [] a0)) by (rewrite map_length, grid_rows; assumption). rewrite (map_nth (fun r => nth i r a0)).
    unfold grid. rewrite map_map. rewrite nth_map_seq0 by assumption.
    rewrite swap_nth by (rewrite map_length, seq_length; assumption). rewrite map_length, seq_length.
    rewrite nth_map_seq0; [reflexivity|]. apply Nat.mod_upper_bound. lia.
Qed.
Print Assumptions C75_longitude_first_refuted.
Example C75_case : exists fig x1', plot_2d_modes 0 (@Modes nat 2 4 1 1 (fun i j _ _ => 10 * i + j)) [0] [0] [0%Q; 90%Q; 180%Q; 270%Q] [0%Q; 1%Q] (0, None) (0, None) true false = (Ok [fig], x1') /\
  f_mode fig = [[2; 3; 0; 1]; [12; 13; 10; 11]].
Proof. eexists. eexists. split; reflexivity. Qed.
Example C75_grid : even_longitudes 4 [0%Q; 90%Q; 180%Q; 270%Q] /\ even_longitudes 3 [0%Q; 120%Q; 240%Q].
Proof. split; (split; [reflexivity|]); intros j Hj; do 4 (destruct j as [|j]; [first [reflexivity|lia]|]); lia. Qed.
