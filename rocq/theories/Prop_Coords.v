(* C64: the nearest grid point. *)
From Coq Require Import QArith Qabs.
From Verif Require Import Base_List Model_Select Model_Reader1 Model_Coords Spec_Select Proof_Select.
Set Implicit Arguments.
Local Open Scope nat_scope.

Lemma list_eqb_refl l : list_eqb l l = true.
Proof. induction l; cbn; [reflexivity|]. now rewrite Nat.eqb_refl. Qed.

Lemma prod_pos l : (forall d, In d l -> 0 < d) -> 0 < prod l.
Proof.
  induction l as [|d l IH]; intros H; cbn [prod fold_right]; [lia|].
  assert (0 < d) by (apply H; now left). assert (0 < prod l) by (apply IH; intros; apply H; now right). unfold prod in *. nia.
Qed.
(* component i of the multi-index *)
Lemma unravel_nth dims : (forall d, In d dims -> 0 < d) -> forall p i, p < prod dims -> i < length dims ->
  nth i (unravel dims p) 0 = (p / prod (skipn (S i) dims)) mod (nth i dims 0).
Proof.
  intros Hd. induction dims as [|d dims IH]; intros p i Hp Hi; [cbn in Hi; lia|].
  assert (Hpos : 0 < prod dims) by (apply prod_pos; intros; apply Hd; now right).
  change (prod (d :: dims)) with (d * prod dims) in Hp.
  destruct i as [|i]; cbn [unravel nth]; [change (skipn 1 (d :: dims)) with dims|].
  - symmetry. apply Nat.mod_small. apply Nat.div_lt_upper_bound; lia.
  - cbn [length] in Hi. rewrite IH.
    + set (s := prod (skipn (S i) dims)). change (skipn (S (S i)) (d :: dims)) with (skipn (S i) dims). fold s.
      assert (E : exists q, prod dims = q * (nth i dims 0 * s)).
      { exists (prod (firstn i dims)). clear - Hi. subst s.
        revert i Hi; induction dims as [|e dims IH']; intros i Hi; [cbn in Hi; lia|]. destruct i as [|i].
        - cbn. lia.
        - cbn [firstn nth skipn length] in *. change (prod (e :: dims)) with (e * prod dims).
          change (prod (e :: firstn i dims)) with (e * prod (firstn i dims)). rewrite (IH' i) by lia. nia. }
      destruct E as [q E]. assert (Hs : 0 < s). { subst s. apply prod_pos. intros e He. apply Hd. right. rewrite <- (firstn_skipn (S i) dims). apply in_or_app. now right. }
      assert (Hn : 0 < nth i dims 0) by (apply Hd; right; apply nth_In; lia).
      set (n := nth i dims 0) in *.
      (* (p mod (q n s)) / s mod n = p / s mod n *)
      assert (Ep : p / s = p mod prod dims / s + p / prod dims * q * n).
      { rewrite <- Nat.div_add by lia. f_equal. rewrite (Nat.div_mod_eq p (prod dims)) at 1. rewrite E at 1. lia. }
      rewrite Ep, Nat.mod_add by lia. reflexivity.
    + intros; apply Hd; now right.
    + apply Nat.mod_upper_bound. lia.
    + lia.
Qed.
Lemma mesh_nth_error x i p : p < prod (map (@length Q) x) ->
  nth_error (mesh x i) p = Some (nth (nth i (unravel (map (@length Q) x) p) 0) (nth i x []) 0%Q).
Proof.
  intros Hp. unfold mesh. rewrite nth_error_map, (nth_error_nth' _ 0) by (now rewrite seq_length). now rewrite seq_nth by assumption.
Qed.
Lemma mesh_length x i : length (mesh x i) = prod (map (@length Q) x).
Proof. unfold mesh. now rewrite map_length, seq_length. Qed.

Lemma prod_firstn_skipn l i : i < length l -> prod l = prod (firstn i l) * (nth i l 0 * prod (skipn (S i) l)).
Proof.
  revert i; induction l as [|e l IH]; intros i Hi; [cbn in Hi; lia|]. destruct i as [|i].
  - cbn. lia.
  - cbn [firstn nth skipn length] in *. change (prod (e :: l)) with (e * prod l).
    change (prod (e :: firstn i l)) with (e * prod (firstn i l)). rewrite (IH i) by lia. nia.
Qed.
Lemma nth_skipn_plus A (d : A) l s k : nth k (skipn s l) d = nth (s + k) l d.
Proof. revert l; induction s as [|s IH]; intros l; [reflexivity|]. destruct l; [now destruct k|]. apply IH. Qed.
Lemma prod_skipn_div l i k : i < k -> k < length l -> exists q, prod (skipn (S i) l) = q * (nth k l 0 * prod (skipn (S k) l)).
Proof.
  intros Hi Hk. exists (prod (firstn (k - S i) (skipn (S i) l))).
  rewrite (@prod_firstn_skipn (skipn (S i) l) (k - S i)) by (rewrite skipn_length; lia).
  rewrite nth_skipn_plus. rewrite skipn_skipn_add. repeat f_equal; lia.
Qed.

(* the flat position chosen: nearest along axis i, first along all the others *)
Lemma argmin_mesh x i coord v j : (forall a, In a x -> a <> []) -> i < length x -> nearest (nth i x []) coord v j ->
  argmin (map (fun g => Qabs (g - coord)) (mesh x i)) = Ok (j * prod (skipn (S i) (map (@length Q) x))).
Proof.
  intros Hne Hi [N1 [N2 N3]].
  set (dims := map (@length Q) x) in *. set (s := prod (skipn (S i) dims)).
  assert (Hd : forall d, In d dims -> 0 < d).
  { intros d H. apply in_map_iff in H as [a [<- H]]. apply Hne in H. destruct a; [congruence|cbn; lia]. }
  assert (Hl : length dims = length x) by apply map_length.
  assert (Hn : nth i dims 0 = length (nth i x [])) by (unfold dims; exact (map_nth (@length Q) x [] i)).
  assert (Hs : 0 < s). { subst s. apply prod_pos. intros e He. apply Hd. rewrite <- (firstn_skipn (S i) dims). apply in_or_app. now right. }
  assert (Hj : j < nth i dims 0) by (rewrite Hn; apply nth_error_Some; congruence).
  pose proof (@prod_firstn_skipn dims i ltac:(lia)) as Hprod. fold s in Hprod.
  assert (Hf : 0 < prod (firstn i dims)). { apply prod_pos. intros e He. apply Hd. rewrite <- (firstn_skipn i dims). apply in_or_app. now left. }
  assert (Hjs : j * s < prod dims) by (rewrite Hprod; apply Nat.lt_le_trans with (nth i dims 0 * s); [apply Nat.mul_lt_mono_pos_r; lia|rewrite <- (Nat.mul_1_l (nth i dims 0 * s)) at 1; apply Nat.mul_le_mono_r; lia]).
  set (D := map (fun g => Qabs (g - coord)) (mesh x i)).
  assert (Hat : forall p, p < prod dims -> exists k w, k = (p / s) mod (nth i dims 0) /\ nth_error (nth i x []) k = Some w /\ nth_error D p = Some (Qabs (w - coord))).
  { intros p Hp. exists ((p / s) mod (nth i dims 0)), (nth ((p / s) mod (nth i dims 0)) (nth i x []) 0%Q).
    split; [reflexivity|]. split.
    - apply nth_error_nth'. rewrite <- Hn. apply Nat.mod_upper_bound. lia.
    - unfold D. rewrite nth_error_map, mesh_nth_error by exact Hp. fold dims. rewrite unravel_nth by (auto; lia). reflexivity. }
  destruct (@argmin_spec D) as [p [d [E [A1 [A2 A3]]]]].
  { intros E. apply (f_equal (@length Q)) in E. unfold D in E. rewrite map_length, mesh_length in E. cbn in E. fold dims in E. lia. }
  rewrite E. f_equal.
  assert (Hp : p < prod dims). { assert (L : p < length D) by (apply nth_error_Some; congruence). unfold D in L. now rewrite map_length, mesh_length in L. }
  destruct (Hat p Hp) as [k [w [Ek [Ew Ed]]]]. rewrite Ed in A1. injection A1 as <-.
  destruct (Hat (j * s) Hjs) as [k' [w' [Ek' [Ew' Ed']]]].
  rewrite Nat.div_mul, Nat.mod_small in Ek' by lia. subst k'. rewrite N1 in Ew'. injection Ew' as <-.
  destruct (Nat.lt_trichotomy p (j * s)) as [L|[L|L]]; [exfalso|exact L|exfalso].
  - assert (Hk : p / s < j) by (apply Nat.div_lt_upper_bound; lia).
    rewrite Nat.mod_small in Ek by lia. subst k.
    pose proof (N3 _ _ Hk Ew) as Lt. pose proof (A2 _ _ Ed') as Le. eapply Qlt_not_le; eassumption.
  - pose proof (A3 _ _ L Ed') as Lt. pose proof (N2 _ _ Ew) as Le. eapply Qlt_not_le; eassumption.
Qed.

Lemma unravel_at x i j k : (forall a, In a x -> a <> []) -> i < length x -> k < length x -> j < length (nth i x []) ->
  nth k (unravel (map (@length Q) x) (j * prod (skipn (S i) (map (@length Q) x)))) 0 = if k =? i then j else 0.
Proof.
  intros Hne Hi Hk Hj.
  set (dims := map (@length Q) x) in *. set (s := prod (skipn (S i) dims)).
  assert (Hd : forall d, In d dims -> 0 < d).
  { intros d H. apply in_map_iff in H as [a [<- H]]. apply Hne in H. destruct a; [congruence|cbn; lia]. }
  assert (Hl : length dims = length x) by apply map_length.
  assert (Hn : nth i dims 0 = length (nth i x [])) by (unfold dims; exact (map_nth (@length Q) x [] i)).
  assert (Hsk : forall q, 0 < prod (skipn q dims)). { intros q. apply prod_pos. intros e He. apply Hd. rewrite <- (firstn_skipn q dims). apply in_or_app. now right. }
  assert (Hs : 0 < s) by apply Hsk.
  pose proof (@prod_firstn_skipn dims i ltac:(lia)) as Hprod. fold s in Hprod.
  assert (Hf : 0 < prod (firstn i dims)). { apply prod_pos. intros e He. apply Hd. rewrite <- (firstn_skipn i dims). apply in_or_app. now left. }
  assert (Hjs : j * s < prod dims) by (rewrite Hprod; apply Nat.lt_le_trans with (nth i dims 0 * s); [apply Nat.mul_lt_mono_pos_r; lia|rewrite <- (Nat.mul_1_l (nth i dims 0 * s)) at 1; apply Nat.mul_le_mono_r; lia]).
  rewrite unravel_nth by (auto; lia).
  assert (Hnk : 0 < nth k dims 0) by (apply Hd, nth_In; lia).
  pose proof (Hsk (S k)) as Hsk'.
  destruct (Nat.eqb_spec k i) as [->|Hki].
  - fold s. rewrite Nat.div_mul by lia. apply Nat.mod_small. lia.
  - destruct (Nat.lt_ge_cases i k) as [L|L].
    + destruct (@prod_skipn_div dims i k L ltac:(lia)) as [q Eq]. fold s in Eq. rewrite Eq.
      set (sk := prod (skipn (S k) dims)) in *.
      replace (j * (q * (nth k dims 0 * sk))) with (j * q * nth k dims 0 * sk) by lia.
      rewrite Nat.div_mul by lia. apply Nat.mod_mul. lia.
    + destruct (@prod_skipn_div dims k i ltac:(lia) ltac:(lia)) as [q Eq]. fold s in Eq.
      rewrite Nat.div_small; [apply Nat.mod_small; lia|]. rewrite Eq.
      assert (0 < q). { destruct q; [|lia]. rewrite Eq in Hsk'. cbn in Hsk'. lia. }
      apply Nat.lt_le_trans with (nth i dims 0 * s); [apply Nat.mul_lt_mono_pos_r; lia|]. rewrite <- (Nat.mul_1_l (nth i dims 0 * s)) at 1. apply Nat.mul_le_mono_r; lia.
Qed.

Lemma nearest_exists l c : l <> [] -> exists v j, nearest l c v j.
Proof.
  intros H. destruct (@argmin_spec (map (fun f => Qabs (f - c)) l)) as [i [d [_ [A1 [A2 A3]]]]]; [destruct l; cbn; congruence|].
  rewrite nth_error_map in A1. destruct (nth_error l i) as [v|] eqn:E; [|discriminate]. injection A1 as <-.
  exists v, i. split; [exact E|]. split.
  - intros j w Hw. apply (A2 j). now rewrite nth_error_map, Hw.
  - intros j w Hj Hw. apply (A3 j); [exact Hj|]. now rewrite nth_error_map, Hw.
Qed.

(* What is returned for axis i: the nearest value, and the position along the mirrored axis. *)
Theorem C64_law : forall x i coord v j,
  (forall a, In a x -> a <> []) -> i < length x -> nearest (nth i x []) coord v j ->
  nearest_coord x i coord = Ok (v, if i + i + 1 =? length x then j else 0).
Proof.
  intros x i coord v j Hne Hi N. unfold nearest_coord.
  destruct (Nat.ltb_spec i (length x)); [|lia]. rewrite (@argmin_mesh x i coord v j) by assumption. cbn [bind].
  assert (Hj : j < length (nth i x [])) by (destruct N as [N _]; apply nth_error_Some; congruence).
  rewrite map_length. rewrite unravel_at by (auto; lia).
  replace (length x - i - 1 =? i) with (i + i + 1 =? length x).
  2:{ destruct (Nat.eqb_spec (i + i + 1) (length x)), (Nat.eqb_spec (length x - i - 1) i); try reflexivity; lia. }
  f_equal. f_equal.
  set (p := j * prod (skipn (S i) (map (@length Q) x))).
  pose proof (@argmin_mesh x i coord v j Hne Hi N) as E.
  assert (Hp : p < prod (map (@length Q) x)).
  { destruct (@argmin_spec (map (fun g => Qabs (g - coord)) (mesh x i))) as [q [d [E' [A1 _]]]].
    - intros E'. rewrite E' in E. discriminate E.
    - fold p in E. rewrite E in E'. injection E' as <-.
      assert (L : p < length (map (fun g => Qabs (g - coord)) (mesh x i))) by (apply nth_error_Some; congruence).
      now rewrite map_length, mesh_length in L. }
  apply nth_error_nth. rewrite mesh_nth_error by exact Hp. unfold p. rewrite unravel_at, Nat.eqb_refl by (auto; lia).
  destruct N as [N _]. now rewrite (nth_error_nth _ _ 0%Q N).
Qed.
Print Assumptions C64_law.

Lemma coords_loop_law x : (forall a, In a x -> a <> []) -> forall coords i, i + length coords <= length x ->
  exists xi idx, coords_loop x i coords = Ok (xi, idx) /\ length xi = length coords /\ length idx = length coords /\
    forall k c, nth_error coords k = Some c -> exists v j, nearest (nth (i + k) x []) c v j /\
      nth_error xi k = Some v /\ nth_error idx k = Some (if (i + k) + (i + k) + 1 =? length x then j else 0).
Proof.
  intros Hne coords. induction coords as [|c coords IH]; intros i Hi; cbn [coords_loop length] in *.
  - exists [], []. repeat split. intros [|k] c H; discriminate.
  - destruct (@nearest_exists (nth i x []) c) as [v [j N]]; [apply Hne, nth_In; lia|].
    rewrite (@C64_law x i c v j) by (auto; lia). cbn [bind].
    destruct (IH (S i)) as [xi [idx [E [L1 [L2 H]]]]]; [lia|]. rewrite E. cbn [bind fst snd].
    exists (v :: xi), ((if i + i + 1 =? length x then j else 0) :: idx). repeat split; cbn [length]; try lia.
    intros [|k] c' Hc; cbn [nth_error] in *.
    + injection Hc as <-. exists v, j. rewrite Nat.add_0_r. auto.
    + destruct (H k c' Hc) as [v' [j' [N' H']]]. exists v', j'. replace (i + S k) with (S i + k) by lia. auto.
Qed.

(* Every returned coordinate is the nearest one on its axis; the returned index is that of the mirrored axis. *)
Theorem C64_nearest_coordinates : forall coords x,
  x <> [] -> (forall a, In a x -> a <> []) -> length coords <= length x ->
  exists xi idx, find_nearest_coords coords x (map (@length Q) x) = Ok (xi, idx) /\
    length xi = length coords /\ length idx = length coords /\
    forall i c, nth_error coords i = Some c ->
      exists v j, nearest (nth i x []) c v j /\ nth_error xi i = Some v /\
        nth_error idx i = Some (if i + i + 1 =? length x then j else 0).
Proof.
  intros coords x Hx Hne Hl. unfold find_nearest_coords. destruct x as [|a x]; [congruence|]. rewrite list_eqb_refl.
  exact (@coords_loop_law (a :: x) Hne coords 0 Hl).
Qed.
Print Assumptions C64_nearest_coordinates.

(* in two dimensions the index is (0,0) whatever is requested *)
Theorem C64_two_dimensions : forall a b c0 c1 xi idx, a <> [] -> b <> [] ->
  find_nearest_coords [c0; c1] [a; b] [length a; length b] = Ok (xi, idx) -> idx = [0; 0].
Proof.
  intros a b c0 c1 xi idx Ha Hb H.
  destruct (@C64_nearest_coordinates [c0; c1] [a; b]) as [xi' [idx' [E [_ [L H']]]]].
  - discriminate.
  - intros l [<-|[<-|[]]]; assumption.
  - cbn; lia.
  - change (map (@length Q) [a; b]) with [length a; length b] in E. rewrite H in E. injection E as <- <-.
    destruct (H' 0 c0 eq_refl) as [v0 [j0 [_ [_ A]]]]. destruct (H' 1 c1 eq_refl) as [v1 [j1 [_ [_ B]]]].
    destruct idx as [|p [|q [|r idx]]]; try discriminate. cbn in A, B. congruence.
Qed.
Print Assumptions C64_two_dimensions.

(* shapes that do not match, and empty axes, are rejected *)
Theorem C64_wrong_shape_rejected : forall coords x dims, x <> [] -> dims <> map (@length Q) x ->
  find_nearest_coords coords x dims = Err ValueError.
Proof.
  intros coords x dims Hx Hd. unfold find_nearest_coords. destruct x as [|a x]; [congruence|].
  destruct (list_eqb (map (@length Q) (a :: x)) dims) eqn:E; [|reflexivity]. exfalso. apply Hd. symmetry.
  revert E. generalize (map (@length Q) (a :: x)). clear. intros l; revert dims; induction l as [|n l IH]; intros [|m dims]; cbn; try discriminate; [reflexivity|].
  intros E. apply andb_prop in E as [E1 E2]. apply Nat.eqb_eq in E1. f_equal; auto.
Qed.
Print Assumptions C64_wrong_shape_rejected.

(* expectation: x[i][idx_i] is the returned coordinate *)
Theorem C64_index_refuted : exists coords x xi idx,
  find_nearest_coords coords x (map (@length Q) x) = Ok (xi, idx) /\
  exists i, i < length coords /\ ~ Qeq (nth (nth i idx 0) (nth i x []) 0%Q) (nth i xi 0%Q).
Proof.
  exists [3%Q; 7%Q], [[0; 1; 2; 3]%Q; [5; 6; 7]%Q], [3%Q; 7%Q], [0; 0]. split; [vm_compute; reflexivity|].
  exists 0. split; [cbn; lia|]. vm_compute. discriminate.
Qed.
Print Assumptions C64_index_refuted.
