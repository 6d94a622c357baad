(* C71, C72, C73, C95: emulation of the coefficients. *)
From Coq Require Import QArith Qabs Qminmax Qround Lqa String.
From Verif Require Import Base_List Model_Select Model_Emul Spec_Case Proof_Case.
Set Implicit Arguments.
Local Open Scope nat_scope.

(* ---------- C71: scaling ---------- *)
(* entry (i,j) of a matrix given by rows *)
Definition entry {A} (m : list (list A)) (i j : nat) : option A :=
  match nth_error m i with Some row => nth_error row j | None => None end.

Lemma combine_nth_error A B (l : list A) (l' : list B) i : length l = length l' ->
  nth_error (combine l l') i = match nth_error l i, nth_error l' i with Some a, Some b => Some (a, b) | _, _ => None end.
Proof.
  revert l' i; induction l as [|a l IH]; intros [|b l'] [|i] H; cbn in *; try discriminate; try reflexivity.
  apply IH. lia.
Qed.
Lemma scale_entry store data vec i j : length data = length vec ->
  entry (scale_part store data vec) i j =
  match entry data i j, nth_error vec i with Some x, Some v => Some (store (ndiv x v)) | _, _ => None end.
Proof.
  intros H. unfold entry, scale_part. rewrite nth_error_map, combine_nth_error by assumption.
  destruct (nth_error data i) as [row|]; [|reflexivity]. destruct (nth_error vec i) as [v|]; cbn [option_map fst snd].
  - rewrite nth_error_map. now destruct (nth_error row j).
  - now destruct (nth_error row j).
Qed.
Lemma descale_entry data vec i j : length data = length vec ->
  entry (descale_part data vec) i j =
  match entry data i j, nth_error vec i with Some x, Some v => Some (nmul x v) | _, _ => None end.
Proof.
  intros H. unfold entry, descale_part. rewrite nth_error_map, combine_nth_error by assumption.
  destruct (nth_error data i) as [row|]; [|reflexivity]. destruct (nth_error vec i) as [v|]; cbn [option_map fst snd].
  - rewrite nth_error_map. now destruct (nth_error row j).
  - now destruct (nth_error row j).
Qed.
Lemma scale_part_length store data vec : length data = length vec -> length (scale_part store data vec) = length data.
Proof. intros H. unfold scale_part. rewrite map_length, combine_length. lia. Qed.

(* Scaling and descaling give the data back when no scale vanishes. *)
Theorem C71_round_trip : forall data vec i j x,
  length data = length vec -> (forall v, In v vec -> ~ v == 0)%Q ->
  entry data i j = Some x ->
  exists y, entry (descale_part (scale_part store_floating data vec) vec) i j = Some (Some y) /\ (y == x)%Q.
Proof.
  intros data vec i j x Hl Hz Hx. rewrite descale_entry by (now rewrite scale_part_length).
  rewrite scale_entry, Hx by assumption.
  destruct (nth_error vec i) as [v|] eqn:Ev.
  - assert (Hv : ~ (v == 0)%Q) by (apply Hz; eapply nth_error_In; exact Ev).
    unfold store_floating, ndiv. destruct (Qeq_bool v 0) eqn:E; [apply Qeq_bool_iff in E; contradiction|].
    cbn [nmul]. eexists; split; [reflexivity|]. field. exact Hv.
  - exfalso. unfold entry in Hx. apply nth_error_None in Ev.
    destruct (nth_error data i) eqn:E; [|discriminate]. assert (i < length data) by (apply nth_error_Some; congruence). lia.
Qed.
Print Assumptions C71_round_trip.

Lemma all_res_spec A B (f : A -> res B) l bs : all_res f l = Ok bs ->
  length bs = length l /\ forall i a, nth_error l i = Some a -> exists b, f a = Ok b /\ nth_error bs i = Some b.
Proof.
  revert bs; induction l as [|a l IH]; intros bs H; cbn in H.
  - injection H as <-. split; [reflexivity|]. intros [|i] a H; discriminate.
  - destruct (f a) as [b|] eqn:E; [|discriminate]. cbn in H. destruct (all_res f l) as [bs'|]; [|discriminate].
    cbn in H. injection H as <-. destruct (IH _ eq_refl) as [L Hi]. split; [cbn; lia|].
    intros [|i] a' H; cbn in *; [injection H as <-; eauto|auto].
Qed.
Lemma qmaxl_ub x l y : In y (x :: l) -> (y <= qmaxl x l)%Q.
Proof.
  induction l as [|z l IH]; cbn; intros H.
  - destruct H as [->|[]]. apply Qle_refl.
  - destruct H as [->|[->|H]]; [eapply Qle_trans; [apply IH; now left|apply Q.le_max_r]|apply Q.le_max_l|].
    eapply Qle_trans; [apply IH; now right|apply Q.le_max_r].
Qed.
Lemma qminl_lb x l y : In y (x :: l) -> (qminl x l <= y)%Q.
Proof.
  induction l as [|z l IH]; cbn; intros H.
  - destruct H as [->|[]]. apply Qle_refl.
  - destruct H as [->|[->|H]]; [eapply Qle_trans; [apply Q.le_min_r|apply IH; now left]|apply Q.le_min_l|].
    eapply Qle_trans; [apply Q.le_min_r|apply IH; now right].
Qed.
Lemma qmaxl_in x l : exists y, In y (x :: l) /\ (qmaxl x l == y)%Q.
Proof.
  induction l as [|z l [y [Hy E]]]; [exists x; split; [now left|reflexivity]|].
  cbn [qmaxl fold_right]. fold (qmaxl x l). destruct (Q.max_spec z (qmaxl x l)) as [[_ M]|[_ M]].
  - exists y. split; [destruct Hy as [->|Hy]; [now left|now right; right]|now rewrite M].
  - exists z. split; [now right; left|exact M].
Qed.
Lemma qminl_in x l : exists y, In y (x :: l) /\ (qminl x l == y)%Q.
Proof.
  induction l as [|z l [y [Hy E]]]; [exists x; split; [now left|reflexivity]|].
  cbn [qminl fold_right]. fold (qminl x l). destruct (Q.min_spec z (qminl x l)) as [[_ M]|[_ M]].
  - exists z. split; [now right; left|exact M].
  - exists y. split; [destruct Hy as [->|Hy]; [now left|now right; right]|now rewrite M].
Qed.
Lemma abs_between a b y : (a <= y)%Q -> (y <= b)%Q -> (Qabs y <= Qmax (Qabs b) (Qabs a))%Q.
Proof.
  intros H1 H2. apply Qabs_Qle_condition. split.
  - apply Qle_trans with (- Qabs a)%Q.
    + apply Qopp_le_compat. apply Q.le_max_r.
    + apply Qle_trans with a; [|assumption]. rewrite <- (Qopp_opp a) at 2. apply Qopp_le_compat.
      rewrite <- Qabs_opp. apply Qle_Qabs.
  - apply Qle_trans with b; [assumption|]. apply Qle_trans with (Qabs b); [apply Qle_Qabs|apply Q.le_max_l].
Qed.
(* abs_max is the largest absolute value *)
Lemma abs_max_spec row m : abs_max row = Ok m ->
  (forall y, In y row -> (Qabs y <= m)%Q) /\ exists y, In y row /\ (Qabs y == m)%Q.
Proof.
  destruct row as [|x r]; [discriminate|]. cbn [abs_max]. intros H. injection H as <-. split.
  - intros y Hy. apply abs_between; [now apply qminl_lb|now apply qmaxl_ub].
  - destruct (qmaxl_in x r) as [y [Hy E]], (qminl_in x r) as [z [Hz F]].
    destruct (Q.max_spec (Qabs (qmaxl x r)) (Qabs (qminl x r))) as [[_ M]|[_ M]].
    + exists z. split; [exact Hz|]. now rewrite M, F.
    + exists y. split; [exact Hy|]. now rewrite M, E.
Qed.

(* ---- specification of the two scales ---- *)
Definition largest (m : Q) (xs : list Q) : Prop :=
  (forall y, In y xs -> (Qabs y <= m)%Q) /\ exists y, In y xs /\ (Qabs y == m)%Q.

Theorem C71_local_scale : forall nm data vec i row,
  same_word nm "localmax" -> scaler_part nm data = Ok vec -> nth_error data i = Some row ->
  exists v, nth_error vec i = Some v /\ largest (v / 10)%Q row.
Proof.
  intros nm data vec i row Hn H Hr. rewrite same_wordE' in Hn by reflexivity. unfold scaler_part in H. rewrite Hn in H. cbn [String.eqb] in H.
  change (String.eqb "localmax" "localmax") with true in H. cbv iota in H.
  apply all_res_spec in H as [_ H]. destruct (H i row Hr) as [v [E Hv]]. exists v. split; [exact Hv|].
  destruct (abs_max (map (fun x => (x * 10)%Q) row)) as [m|] eqn:A; [|discriminate]. cbn in E. injection E as <-.
  apply abs_max_spec in A as [A1 [y [Hy A2]]]. split.
  - intros z Hz. assert (B : (Qabs (z * 10) <= m)%Q) by (apply A1, in_map_iff; eauto).
    rewrite Qabs_Qmult in B. change (Qabs 10) with 10%Q in B. apply Qle_shift_div_l; [reflexivity|exact B].
  - apply in_map_iff in Hy as [z [<- Hz]]. exists z. split; [exact Hz|].
    rewrite Qabs_Qmult in A2. change (Qabs 10) with 10%Q in A2. rewrite <- A2. field.
Qed.
Print Assumptions C71_local_scale.

(* normalised entries are at most 1/10 in absolute value *)
Theorem C71_local_bound : forall nm data vec i j x,
  same_word nm "localmax" -> scaler_part nm data = Ok vec ->
  entry (scale_part store_floating data vec) i j = Some (Some x) -> (Qabs x <= 1 # 10)%Q.
Proof.
  intros nm data vec i j x Hn H Hx.
  assert (L : length data = length vec).
  { unfold scaler_part in H. rewrite same_wordE' in Hn by reflexivity. rewrite Hn in H. cbn in H. now apply all_res_spec in H as [H _]. }
  rewrite scale_entry in Hx by assumption. unfold entry in Hx. destruct (nth_error data i) as [row|] eqn:Er; [|discriminate].
  destruct (@C71_local_scale nm data vec i row Hn H Er) as [v [Ev [B _]]].
  destruct (nth_error row j) as [z|] eqn:Ez; [|discriminate]. rewrite Ev in Hx. unfold store_floating, ndiv in Hx.
  destruct (Qeq_bool v 0) eqn:E0; [discriminate|]. injection Hx as <-. apply Qeq_bool_neq in E0.
  specialize (B z (nth_error_In _ _ Ez)). assert (B' : (10 * Qabs z <= v)%Q).
  { apply Qle_trans with (10 * (v / 10))%Q; [apply Qmult_le_l; [reflexivity|exact B]|]. apply Qle_lteq. right. field. }
  clear B. pose proof (Qabs_nonneg z) as P.
  assert (V : (0 < v)%Q) by (destruct (Qlt_le_dec 0 v) as [V|V]; [exact V|]; exfalso; apply E0; lra).
  unfold Qdiv. rewrite Qabs_Qmult. rewrite (Qabs_pos (/ v)) by (apply Qlt_le_weak, Qinv_lt_0_compat, V).
  apply Qle_shift_div_r; [exact V|]. lra.
Qed.
Print Assumptions C71_local_bound.

Lemma all_res_hd A B (f : A -> res B) l bs b : all_res f l = Ok bs -> In b bs -> exists a, In a l /\ f a = Ok b.
Proof.
  revert bs; induction l as [|a l IH]; intros bs H Hb; cbn in H.
  - injection H as <-. contradiction.
  - destruct (f a) as [b'|] eqn:E; [|discriminate]. cbn in H. destruct (all_res f l) as [bs'|]; [|discriminate].
    cbn in H. injection H as <-. destruct Hb as [<-|Hb]; [exists a; split; [now left|assumption]|].
    destruct (IH _ eq_refl Hb) as [a' [Ha E']]. exists a'. split; [now right|assumption].
Qed.

Theorem C71_global_scale : forall nm data vec i row,
  same_word nm "globalmax" -> scaler_part nm data = Ok vec -> nth_error data i = Some row ->
  exists v, nth_error vec i = Some v /\ largest v (concat data).
Proof.
  intros nm data vec i row Hn H Hr. rewrite same_wordE' in Hn by reflexivity. unfold scaler_part in H. rewrite Hn in H. cbn in H.
  destruct (all_res (fun row0 => match row0 with [] => Err ValueError | x :: r => Ok (qmaxl x r) end) data) as [his|] eqn:EH; [|discriminate].
  destruct (all_res (fun row0 => match row0 with [] => Err ValueError | x :: r => Ok (qminl x r) end) data) as [los|] eqn:EL; [|discriminate].
  cbn in H. destruct his as [|h hs]; [discriminate|]. destruct los as [|l ls]; [discriminate|]. cbn [bind] in H. injection H as <-.
  eexists. split; [rewrite nth_error_map, Hr; reflexivity|]. split.
  - intros y Hy. apply in_concat in Hy as [r [Hr' Hy]]. apply In_nth_error in Hr' as [k Hk].
    apply all_res_spec in EH as [_ EH]. apply all_res_spec in EL as [_ EL].
    destruct (EH k r Hk) as [m [Em Hm]], (EL k r Hk) as [n [En Hn']]. destruct r as [|x r]; [discriminate|].
    injection Em as <-. injection En as <-. apply abs_between.
    + eapply Qle_trans; [apply qminl_lb; eapply nth_error_In; exact Hn'|]. now apply qminl_lb.
    + eapply Qle_trans; [apply (@qmaxl_ub x r y Hy)|]. apply qmaxl_ub. eapply nth_error_In; exact Hm.
  - destruct (qmaxl_in h hs) as [a [Ha E1]], (qminl_in l ls) as [b [Hb E2]].
    destruct (all_res_hd _ _ a EH Ha) as [ra [Ra Fa]], (all_res_hd _ _ b EL Hb) as [rb [Rb Fb]].
    destruct ra as [|xa ra]; [discriminate|]. destruct rb as [|xb rb]; [discriminate|]. injection Fa as <-. injection Fb as <-.
    destruct (qmaxl_in xa ra) as [ya [Ya E3]], (qminl_in xb rb) as [yb [Yb E4]].
    destruct (Q.max_spec (Qabs (qmaxl h hs)) (Qabs (qminl l ls))) as [[_ M]|[_ M]].
    + exists yb. split; [apply in_concat; eauto|]. now rewrite M, E2, E4.
    + exists ya. split; [apply in_concat; eauto|]. now rewrite M, E1, E3.
Qed.
Print Assumptions C71_global_scale.

(* a row that is identically zero has scale zero and is lost under local scaling; so is the zero imaginary part of a
   row of real numbers stored as complex ones *)
Theorem C71_zero_row_lost : forall nm data vec i j row,
  same_word nm "localmax" -> scaler_part nm data = Ok vec -> nth_error data i = Some row ->
  (forall x, In x row -> x == 0)%Q -> j < length row ->
  entry (descale_part (scale_part store_floating data vec) vec) i j = Some None.
Proof.
  intros nm data vec i j row Hn H Hr Hz Hj.
  destruct (@C71_local_scale nm data vec i row Hn H Hr) as [v [Ev [_ [y [Hy Ey]]]]].
  assert (L : length data = length vec).
  { unfold scaler_part in H. rewrite same_wordE' in Hn by reflexivity. rewrite Hn in H. cbn in H. now apply all_res_spec in H as [H _]. }
  rewrite descale_entry by (now rewrite scale_part_length). rewrite scale_entry by assumption. unfold entry. rewrite Hr, Ev.
  destruct (nth_error row j) as [x|] eqn:Ex; [|apply nth_error_None in Ex; lia].
  assert (V : (v == 0)%Q).
  { rewrite (Hz y Hy) in Ey. change (Qabs 0) with 0%Q in Ey.
    setoid_replace v with (10 * (v / 10))%Q by field. rewrite <- Ey. reflexivity. }
  unfold ndiv. apply Qeq_bool_iff in V. rewrite V. reflexivity.
Qed.
Print Assumptions C71_zero_row_lost.

(* complex data: every expectation that a non-zero row can be recovered fails for rows of real numbers *)
Theorem C71_complex_recovery_refuted :
  exists re im vec, scaler_complex "complex" "localmax" re im = Ok vec /\
    (exists x, entry re 0 0 = Some x /\ ~ (x == 0)%Q) /\
    exists s, scale_data_complex "complex" re im vec = Ok s /\
      entry (descale_part (snd s) (snd vec)) 0 0 = Some None.
Proof.
  exists [[3; -4]%Q], [[0; 0]%Q], ([40%Q], [0%Q]). split; [vm_compute; reflexivity|].
  split; [exists 3%Q; split; [reflexivity|]; vm_compute; discriminate|]. eexists. split; vm_compute; reflexivity.
Qed.
Print Assumptions C71_complex_recovery_refuted.

(* the data type is compared ignoring case everywhere except for 'complex' in the computation of the scale *)
Theorem C71_case_of_complex : forall dt nm re im, same_word dt "complex" -> dt <> "complex"%string ->
  scaler_complex dt nm re im = Err TypeError /\ forall vec, exists s, scale_data_complex dt re im vec = Ok s.
Proof.
  intros dt nm re im Hl Hd. rewrite same_wordE' in Hl by reflexivity. unfold scaler_complex, scale_data_complex. split.
  - destruct (String.eqb_spec dt "complex"); [contradiction|reflexivity].
  - intros vec. rewrite Hl. eexists. reflexivity.
Qed.
Print Assumptions C71_case_of_complex.

(* non-trivial data meeting the hypotheses above *)
Example C71_case :
  scaler_part "LocalMax" [[1; -2]; [3; 1]]%Q = Ok [20; 30]%Q /\
  scaler_part "globalmax" [[1; -2]; [3; 1]]%Q = Ok [3; 3]%Q /\ lower "LocalMax" = lower "localmax" /\
  scaler_part "localmax" [[1; -2]; [0; 0]]%Q = Ok [20; 0]%Q /\ lower "Complex" = lower "complex".
Proof. repeat split. Qed.

(* ---------- C95: integer data ---------- *)
(* the result is stored in an array of the type of the argument: integers scaled locally all become zero *)
Theorem C95_integer_data_vanish : forall nm data vec i j x,
  same_word nm "localmax" -> scaler_part nm data = Ok vec ->
  entry (scale_part store_integer data vec) i j = Some (Some x) -> (x == 0)%Q.
Proof.
  intros nm data vec i j x Hn H Hx.
  assert (L : length data = length vec).
  { unfold scaler_part in H. rewrite same_wordE' in Hn by reflexivity. rewrite Hn in H. cbn in H. now apply all_res_spec in H as [H _]. }
  rewrite scale_entry in Hx by assumption.
  destruct (entry data i j) as [z|] eqn:Ez; [|discriminate]. destruct (nth_error vec i) as [v|] eqn:Ev; [|discriminate].
  destruct (ndiv z v) as [q|] eqn:Eq; [|discriminate]. injection Hx as <-.
  assert (B : (Qabs q <= 1 # 10)%Q).
  { apply (@C71_local_bound nm data vec i j q Hn H). rewrite scale_entry, Ez, Ev by assumption. unfold store_floating. now rewrite Eq. }
  apply Qabs_Qle_condition in B as [B1 B2]. unfold trunc. destruct (Qle_bool 0 q) eqn:E0.
  - apply Qle_bool_iff in E0. assert (F : Qfloor q = 0%Z).
    { pose proof (Qfloor_le q) as F1. pose proof (Qlt_floor q) as F2.
      assert (G1 : (inject_Z (Qfloor q) <= inject_Z 0)%Q \/ (inject_Z 1 <= inject_Z (Qfloor q))%Q).
      { destruct (Z.le_gt_cases (Qfloor q) 0); [left|right]; rewrite <- Zle_Qle; lia. }
      destruct G1 as [G1|G1].
      - rewrite <- Zle_Qle in G1. assert (G2 : (inject_Z 0 < inject_Z (Qfloor q + 1))%Q) by (eapply Qle_lt_trans; [exact E0|exact F2]).
        rewrite <- Zlt_Qlt in G2. lia.
      - exfalso. change (inject_Z 1) with 1%Q in G1. lra. }
    rewrite F. reflexivity.
  - assert (N : (q < 0)%Q). { destruct (Qlt_le_dec q 0) as [N|N]; [exact N|]. apply Qle_bool_iff in N. congruence. }
    assert (F : Qceiling q = 0%Z).
    { pose proof (Qle_ceiling q) as F1. pose proof (Qceiling_lt q) as F2.
      assert (G1 : (inject_Z 0 <= inject_Z (Qceiling q))%Q \/ (inject_Z (Qceiling q) <= inject_Z (-1))%Q).
      { destruct (Z.le_gt_cases 0 (Qceiling q)); [left|right]; rewrite <- Zle_Qle; lia. }
      destruct G1 as [G1|G1].
      - rewrite <- Zle_Qle in G1. assert (G2 : (inject_Z (Qceiling q - 1) < inject_Z 0)%Q) by (eapply Qlt_trans; [exact F2|exact N]).
        rewrite <- Zlt_Qlt in G2. lia.
      - exfalso. change (inject_Z (-1)) with (-(1))%Q in G1. lra. }
    rewrite F. reflexivity.
Qed.
Print Assumptions C95_integer_data_vanish.

Theorem C95_round_trip_refuted :
  exists data vec, scaler_real "real" "localmax" data = Ok vec /\ (forall v, In v vec -> ~ v == 0)%Q /\
    entry data 0 0 = Some 5%Q /\ entry (descale_part (scale_part store_integer data vec) vec) 0 0 = Some (Some 0%Q).
Proof. exists [[5; -7]%Q], [70%Q]. split; [reflexivity|]. split; [|split; reflexivity]. intros v [<-|[]]. vm_compute. discriminate. Qed.
Print Assumptions C95_round_trip_refuted.

(* ---------- C72: training sequences ---------- *)
(* the sample starting at t: n_in snapshots, and the n_out ones that start fh after the last of them *)
Definition sample {A} (data : list A) (n_in n_out fh t : nat) (s : list A * list A) : Prop :=
  length (fst s) = n_in /\ length (snd s) = n_out /\
  (forall k, k < n_in -> nth_error (fst s) k = nth_error data (t + k)) /\
  (forall k, k < n_out -> nth_error (snd s) k = nth_error data ((t + n_in - 1) + fh + k)).
(* all positions of the sample starting at t exist *)
Definition admissible (nt n_in n_out fh t : nat) : Prop := t + n_in + fh + n_out - 1 <= nt.

Lemma all_res_ok A B (f : A -> res B) (g : A -> B) l : (forall a, In a l -> f a = Ok (g a)) -> all_res f l = Ok (map g l).
Proof.
  induction l as [|a l IH]; intros H; [reflexivity|]. cbn. rewrite H by now left. cbn. rewrite IH by (intros; apply H; now right). reflexivity.
Qed.
Lemma nth_error_window_lt A s n k (l : list A) : k < n -> nth_error (window s n l) k = nth_error l (s + k).
Proof. intros H. unfold window. rewrite nth_error_firstn_lt by assumption. apply nth_error_skipn. Qed.

Theorem C72_sequences : forall A (data : list A) n_in n_out fh,
  1 <= n_in -> 1 <= n_out -> 1 <= fh ->
  match extract_sequences n_in n_out data (Z.of_nat fh) with
  | Ok l =>
      (* sample t starts at snapshot t and is in range *)
      (forall t, t < length l -> exists s, nth_error l t = Some s /\ sample data n_in n_out fh t s /\ admissible (length data) n_in n_out fh t) /\
      (* exactly the last admissible start is left out *)
      (forall t, admissible (length data) n_in n_out fh t <-> t < length l + 1)
  | Err e => e = ValueError /\ forall t, ~ admissible (length data) n_in n_out fh t
  end.
Proof.
  intros A data n_in n_out fh Hi Ho Hf. unfold extract_sequences, admissible. set (nt := length data).
  destruct (Z.ltb_spec (Z.of_nat fh) 1); [lia|].
  destruct (Z.ltb_spec (Z.of_nat nt - Z.of_nat n_in - Z.of_nat n_out - Z.of_nat fh + 1) 0) as [L|L].
  - split; [reflexivity|]. intros t. lia.
  - set (T := Z.to_nat (Z.of_nat nt - Z.of_nat n_in - Z.of_nat n_out - Z.of_nat fh + 1)).
    assert (ET : T + n_in + n_out + fh = nt + 1) by (unfold T; lia). clearbody T. clear L.
    rewrite Nat2Z.id.
    rewrite (@all_res_ok _ _ _ (fun t => (window t n_in data, window (t + n_in + fh - 1) n_out data))).
    + rewrite map_length, seq_length. split; [|intros; lia].
      intros t Ht. eexists. split; [rewrite nth_error_map, (nth_error_nth' _ 0), seq_nth by (try rewrite seq_length; lia); reflexivity|].
      cbn [Nat.add]. split; [|lia]. split; [|split; [|split]]; cbn [fst snd].
      * rewrite window_length. fold nt. lia.
      * rewrite window_length. fold nt. lia.
      * intros k Hk. now apply nth_error_window_lt.
      * intros k Hk. rewrite nth_error_window_lt by assumption. f_equal. lia.
    + intros t Ht. apply in_seq in Ht. fold nt.
      assert (F : forallb (fun i => i <? nt) (seq t n_in ++ seq (t + n_in + fh - 1) n_out) = true).
      { apply forallb_forall. intros i Hin. apply in_app_or in Hin as [Hin|Hin]; apply in_seq in Hin; apply Nat.ltb_lt; lia. }
      now rewrite F.
Qed.
Print Assumptions C72_sequences.

(* the inputs of a sample do not depend on anything from its first target on *)
Theorem C72_no_leak : forall A (data data' : list A) n_in n_out fh l l' t s s',
  1 <= n_in -> 1 <= n_out -> 1 <= fh ->
  extract_sequences n_in n_out data (Z.of_nat fh) = Ok l -> extract_sequences n_in n_out data' (Z.of_nat fh) = Ok l' ->
  nth_error l t = Some s -> nth_error l' t = Some s' ->
  (forall i, i < (t + n_in - 1) + fh -> nth_error data i = nth_error data' i) ->
  fst s = fst s'.
Proof.
  intros A data data' n_in n_out fh l l' t s s' Hi Ho Hf E E' Hs Hs' Hag.
  pose proof (@C72_sequences A data n_in n_out fh Hi Ho Hf) as S. pose proof (@C72_sequences A data' n_in n_out fh Hi Ho Hf) as S'.
  rewrite E in S. rewrite E' in S'. destruct S as [S _], S' as [S' _].
  destruct (S t) as [x [Ex [X _]]]; [apply nth_error_Some; congruence|].
  destruct (S' t) as [x' [Ex' [X' _]]]; [apply nth_error_Some; congruence|].
  rewrite Hs in Ex. injection Ex as <-. rewrite Hs' in Ex'. injection Ex' as <-.
  destruct X as [L1 [_ [P1 _]]], X' as [L1' [_ [P1' _]]].
  apply nth_error_ext. intros k. destruct (Nat.lt_ge_cases k n_in) as [Hk|Hk].
  - rewrite P1, P1' by assumption. apply Hag. lia.
  - rewrite !(proj2 (nth_error_None _ _)) by lia. reflexivity.
Qed.
Print Assumptions C72_no_leak.

Theorem C72_bad_horizon_rejected : forall A (data : list A) n_in n_out fh, (fh < 1)%Z ->
  extract_sequences n_in n_out data fh = Err ValueError.
Proof. intros. unfold extract_sequences. destruct (Z.ltb_spec fh 1); [reflexivity|lia]. Qed.
Print Assumptions C72_bad_horizon_rejected.

(* expectation: all admissible samples are used *)
Theorem C72_all_samples_refuted : exists (data : list nat) n_in n_out fh l,
  extract_sequences n_in n_out data (Z.of_nat fh) = Ok l /\ admissible (length data) n_in n_out fh (length l) /\ 0 < length l.
Proof. exists [0; 1; 2; 3; 4], 2, 1, 1. eexists. split; [vm_compute; reflexivity|]. unfold admissible. cbn. lia. Qed.
Print Assumptions C72_all_samples_refuted.
Example C72_case : extract_sequences 2 1 [0; 1; 2; 3; 4] 1 = Ok [([0; 1], [2]); ([1; 2], [3])].
Proof. reflexivity. Qed.

(* ---------- C73: inference ---------- *)
Section Inference.
Variable A : Type.
Variable zero : A.
Lemma put_cols_tail (pre : list A) r lb ub block : lb = length pre -> ub = lb + length block -> length block <= r ->
  put_cols (pre ++ repeat zero r) lb ub block = Ok ((pre ++ block) ++ repeat zero (r - length block)).
Proof.
  intros -> -> Hr. unfold put_cols. rewrite app_length, repeat_length.
  replace (min (length pre + length block) (length pre + r) - length pre) with (length block) by lia.
  rewrite Nat.eqb_refl. rewrite firstn_app, Nat.sub_diag, firstn_all, firstn_O, app_nil_r.
  rewrite skipn_app. rewrite skipn_all2 by lia. replace (length pre + length block - length pre) with (length block) by lia.
  rewrite <- app_assoc. cbn [app]. do 3 f_equal. clear. revert r; induction (length block) as [|n IH]; intros r; [now rewrite Nat.sub_0_r|].
  destruct r; [reflexivity|]. apply IH.
Qed.
Lemma fill_ok n_in n_out (blocks : list (list A)) : (forall b, In b blocks -> length b = n_out) -> forall i pre r,
  length pre = n_out * i + n_in -> length blocks * n_out <= r ->
  fill n_in n_out blocks i (pre ++ repeat zero r) = Ok ((pre ++ concat blocks) ++ repeat zero (r - length blocks * n_out)).
Proof.
  induction blocks as [|b blocks IH]; intros Hb i pre r Hp Hr; cbn [fill concat length] in *.
  - now rewrite app_nil_r, Nat.mul_0_l, Nat.sub_0_r.
  - assert (Lb : length b = n_out) by (apply Hb; now left).
    rewrite put_cols_tail by (try rewrite Lb; lia). cbn [bind]. rewrite IH.
    + rewrite !app_assoc. do 2 f_equal. f_equal. lia.
    + intros; apply Hb; now right.
    + rewrite app_length. lia.
    + lia.
Qed.
Lemma fill_bad n_in n_out (blocks : list (list A)) b : (forall b, In b blocks -> length b = n_out) -> length b = n_out -> forall i pre r,
  length pre = n_out * i + n_in -> length blocks * n_out < r -> r < length blocks * n_out + n_out ->
  fill n_in n_out (blocks ++ [b]) i (pre ++ repeat zero r) = Err ValueError.
Proof.
  intros Hbs Lb'. induction blocks as [|c blocks IH]; intros i pre r Hp Hr Hr'; cbn [fill app length] in *.
  - unfold put_cols. rewrite app_length, repeat_length.
    replace (min (n_in + n_out * (i + 1)) (length pre + r) - (n_out * i + n_in)) with r by lia.
    destruct (Nat.eqb_spec (length b) r); [lia|]. destruct b as [|x [|y b]]; cbn in *; try reflexivity; lia.
  - assert (Lb : length c = n_out) by (apply Hbs; now left).
    rewrite put_cols_tail by (try rewrite Lb; lia). cbn [bind]. apply IH.
    + intros; apply Hbs; now right.
    + rewrite app_length. lia.
    + lia.
    + lia.
Qed.
Lemma concat_length n (l : list (list A)) : (forall b, In b l -> length b = n) -> length (concat l) = length l * n.
Proof.
  induction l as [|b l IH]; intros H; [reflexivity|]. cbn [concat length]. rewrite app_length, (H b) by now left.
  rewrite IH by (intros; apply H; now right). lia.
Qed.
End Inference.

Theorem C73_inference : forall A (predict : list A -> list A) (zero : A) n_in n_out (data : list A),
  (forall l, length l = n_in -> length (predict l) = n_out) -> 1 <= n_out -> n_in <= length data ->
  (n_out * ((length data - n_in) / n_out) = length data - n_in ->
   exists out, model_inference predict zero n_in n_out data = Ok out /\ length out = length data /\
     window 0 n_in out = window 0 n_in data /\
     forall i, i < (length data - n_in) / n_out ->
       window (n_in + i * n_out) n_out out = predict (window (i * n_out) n_in data)) /\
  (n_out * ((length data - n_in) / n_out) <> length data - n_in ->
   model_inference predict zero n_in n_out data = Err ValueError).
Proof.
  intros A predict zero n_in n_out data Hpred Ho Hi. unfold model_inference.
  destruct (Nat.ltb_spec (length data) n_in); [lia|]. destruct (Nat.eqb_spec n_out 0); [lia|].
  set (nt := length data) in *. set (d := nt - n_in). set (q := d / n_out).
  pose proof (Nat.div_mod_eq d n_out) as DM. fold q in DM. pose proof (Nat.mod_upper_bound d n_out ltac:(lia)) as MB.
  assert (P0 : put_cols (repeat zero nt) 0 n_in (window 0 n_in data) = Ok (window 0 n_in data ++ repeat zero d)).
  { assert (L : length (window 0 n_in data) = n_in) by (rewrite window_length; fold nt; lia).
    rewrite <- (app_nil_l (repeat zero nt)). rewrite put_cols_tail; [|reflexivity|now rewrite L|rewrite L; lia].
    rewrite L. reflexivity. }
  rewrite P0. cbn [bind].
  assert (L0 : length (window 0 n_in data) = n_in) by (rewrite window_length; fold nt; lia).
  set (blk := fun cnt => predict (window (cnt * n_out) n_in data)).
  assert (Lblk : forall i, i * n_out + n_in <= nt -> length (blk i) = n_out).
  { intros i Hin. apply Hpred. rewrite window_length. fold nt. lia. }
  unfold n_passes. fold d.
  split.
  - intros Hdiv.
    assert (EP : (d + n_out - 1) / n_out = q).
    { replace (d + n_out - 1) with (n_out - 1 + q * n_out) by lia. rewrite Nat.div_add by lia. rewrite Nat.div_small by lia. lia. }
    rewrite EP.
    assert (Lb : forall b, In b (map blk (seq 0 q)) -> length b = n_out).
    { intros b Hb. apply in_map_iff in Hb as [i [<- Hin]]. apply in_seq in Hin. apply Lblk.
      assert ((i + 1) * n_out <= q * n_out) by (apply Nat.mul_le_mono_r; lia). lia. }
    rewrite (@fill_ok A zero n_in n_out (map blk (seq 0 q)) Lb 0) by (rewrite ?map_length, ?seq_length; lia).
    rewrite map_length, seq_length. replace (d - q * n_out) with 0 by lia. cbn [repeat]. rewrite app_nil_r.
    eexists. split; [reflexivity|].
    assert (LC : length (concat (map blk (seq 0 q))) = q * n_out).
    { rewrite (@concat_length _ n_out _ Lb). now rewrite map_length, seq_length. }
    split; [rewrite app_length, L0, LC; lia|]. split.
    + unfold window at 1. cbn [skipn]. rewrite firstn_app, L0, Nat.sub_diag, firstn_O, app_nil_r. apply firstn_all2. lia.
    + intros i Hq. unfold window at 1. rewrite skipn_app, skipn_all2 by lia. rewrite L0. cbn [app].
      replace (n_in + i * n_out - n_in) with (i * n_out) by lia.
      change (predict (window (i * n_out) n_in data)) with (blk i).
      replace (seq 0 q) with (seq 0 i ++ i :: seq (S i) (q - i - 1)).
      2:{ replace q with (i + S (q - i - 1)) at 2 by lia. rewrite seq_app. cbn [seq Nat.add]. reflexivity. }
      rewrite map_app, concat_app. cbn [map concat].
      assert (LI : length (concat (map blk (seq 0 i))) = i * n_out).
      { assert (Lb' : forall b, In b (map blk (seq 0 i)) -> length b = n_out).
        { intros b Hb. apply in_map_iff in Hb as [k [<- Hk]]. apply in_seq in Hk. apply Lb, in_map_iff. exists k. split; [reflexivity|]. apply in_seq. lia. }
        rewrite (@concat_length _ n_out _ Lb'). now rewrite map_length, seq_length. }
      rewrite skipn_app, skipn_all2 by lia. rewrite LI, Nat.sub_diag. cbn [skipn app].
      assert (Li : length (blk i) = n_out) by (apply Lb, in_map_iff; exists i; split; [reflexivity|]; apply in_seq; lia).
      rewrite firstn_app, Li, Nat.sub_diag, firstn_O, app_nil_r. apply firstn_all2. lia.
  - intros Hnd. assert (Hm : 0 < d mod n_out) by lia.
    assert (EP : (d + n_out - 1) / n_out = S q).
    { replace (d + n_out - 1) with (d mod n_out - 1 + (S q) * n_out) by lia. rewrite Nat.div_add by lia. rewrite Nat.div_small by lia. lia. }
    rewrite EP, seq_S, map_app. cbn [map Nat.add].
    assert (Hq : q * n_out <= d) by lia.
    apply fill_bad.
    + intros b Hb. apply in_map_iff in Hb as [i [<- H']]. apply in_seq in H'. apply Lblk.
      assert ((i + 1) * n_out <= q * n_out) by (apply Nat.mul_le_mono_r; lia). lia.
    + apply Lblk. lia.
    + lia.
    + rewrite map_length, seq_length. lia.
    + rewrite map_length, seq_length. lia.
Qed.
Print Assumptions C73_inference.

(* a record shorter than the input window raises NameError instead of the intended ValueError *)
Theorem C73_short_record : forall A (predict : list A -> list A) zero n_in n_out data, length data < n_in ->
  model_inference predict zero n_in n_out data = Err NameError.
Proof. intros. unfold model_inference. destruct (Nat.ltb_spec (length data) n_in); [reflexivity|lia]. Qed.
Print Assumptions C73_short_record.

(* the inference is not free-running: block i sees only measured snapshots, never earlier predictions, and no
   snapshot from its own start on *)
Theorem C73_one_block_ahead : forall A (predict predict' : list A -> list A) zero n_in n_out (data data' : list A) out out' i,
  (forall l, length l = n_in -> length (predict l) = n_out) -> (forall l, length l = n_in -> length (predict' l) = n_out) ->
  1 <= n_out -> n_in <= length data -> length data' = length data ->
  model_inference predict zero n_in n_out data = Ok out -> model_inference predict' zero n_in n_out data' = Ok out' ->
  i < (length data - n_in) / n_out ->
  predict (window (i * n_out) n_in data) = predict' (window (i * n_out) n_in data) ->
  (forall k, k < n_in + i * n_out -> nth_error data k = nth_error data' k) ->
  window (n_in + i * n_out) n_out out = window (n_in + i * n_out) n_out out'.
Proof.
  intros A predict predict' zero n_in n_out data data' out out' i Hp Hp' Ho Hi Hl E E' Hq Hsame Hag.
  destruct (@C73_inference A predict zero n_in n_out data Hp Ho Hi) as [S1 S2].
  destruct (@C73_inference A predict' zero n_in n_out data' Hp' Ho ltac:(lia)) as [T1 T2].
  destruct (Nat.eq_dec (n_out * ((length data - n_in) / n_out)) (length data - n_in)) as [Hd|Hd].
  2:{ rewrite (S2 Hd) in E. discriminate. }
  destruct (S1 Hd) as [o [Eo [_ [_ So]]]]. rewrite E in Eo. injection Eo as <-.
  rewrite Hl in T1. destruct (T1 Hd) as [o' [Eo' [_ [_ To]]]]. rewrite E' in Eo'. injection Eo' as <-.
  rewrite So, To by assumption. rewrite Hsame. f_equal.
  apply nth_error_ext. intros k. destruct (Nat.lt_ge_cases k n_in) as [Hk|Hk].
  - rewrite !nth_error_window_lt by assumption. apply Hag. lia.
  - rewrite !(proj2 (nth_error_None _ _)) by (rewrite window_length; lia). reflexivity.
Qed.
Print Assumptions C73_one_block_ahead.

Example C73_case : model_inference (fun l => [sum l; sum l]) 0 2 2 [1; 2; 3; 4; 5; 6] = Ok [1; 2; 3; 3; 7; 7] /\
  model_inference (fun l => [sum l; sum l]) 0 2 2 [1; 2; 3; 4; 5] = Err ValueError.
Proof. split; reflexivity. Qed.
