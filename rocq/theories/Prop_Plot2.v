(* C100: orientation of data plots; C101: negative time indices; C102: time windows of tracers and videos; C103: mode tracers;
   C105: coordinates of 3-D slices; C106: lines at the maximum. *)
From Coq Require Import QArith Qabs.
From Verif Require Import Base_List Model_Select Model_Coords Model_Plot Model_Plot2 Prop_Coords.
Set Implicit Arguments.
Local Open Scope nat_scope.

Section P.
Variable A : Type.
Variable a0 : A.
Notation rec4 := (rec4 A).
(* ---- specification ---- *)
(* the picture shows the value a at the point (x1[i], x2[j]) *)
Definition shows (f : figure A) (i j : nat) (a : A) : Prop :=
  i < length (f_x1 f) /\ j < length (f_x2 f) /\ exists row, nth_error (f_mode f) j = Some row /\ nth_error row i = Some a.

Lemma slab_rows (X : rec4) t v i : i < d_n1 X -> nth_error (slab X t v) i = Some (map (fun j => d_at X t i j v) (seq 0 (d_n2 X))).
Proof.
  intros H. unfold slab. rewrite nth_error_map. assert (E : nth_error (seq 0 (d_n1 X)) i = Some i).
  { rewrite (nth_error_nth' _ 0) by (now rewrite seq_length). now rewrite seq_nth. } now rewrite E.
Qed.
Lemma map_seq_nth B (g : nat -> B) n i : i < n -> nth_error (map g (seq 0 n)) i = Some (g i).
Proof. intros H. rewrite nth_error_map. rewrite (nth_error_nth' _ 0) by (now rewrite seq_length). now rewrite seq_nth. Qed.
Lemma slab_length (X : rec4) t v : length (slab X t v) = d_n1 X.
Proof. unfold slab. now rewrite map_length, seq_length. Qed.
Lemma slab_cols (X : rec4) t v : 1 <= d_n1 X -> n_cols (slab X t v) = d_n2 X.
Proof. intros H. unfold slab. destruct (d_n1 X) as [|n]; [lia|]. cbn [seq map n_cols]. now rewrite map_length, seq_length. Qed.
Lemma transpose_rows (X : rec4) t v j : 1 <= d_n1 X -> j < d_n2 X ->
  nth_error (transpose a0 (slab X t v)) j = Some (map (fun i => d_at X t i j v) (seq 0 (d_n1 X))).
Proof.
  intros H1 Hj. unfold transpose. rewrite slab_cols by exact H1. rewrite map_seq_nth by exact Hj. f_equal. unfold slab. rewrite map_map.
  apply map_ext. intros i. apply nth_error_nth. exact (@map_seq_nth _ (fun j => d_at X t i j v) _ _ Hj).
Qed.
Lemma transpose_length (X : rec4) t v : 1 <= d_n1 X -> length (transpose a0 (slab X t v)) = d_n2 X.
Proof. intros H. unfold transpose. now rewrite map_length, seq_length, slab_cols. Qed.
Lemma transpose_cols (X : rec4) t v : 1 <= d_n1 X -> 1 <= d_n2 X -> n_cols (transpose a0 (slab X t v)) = d_n1 X.
Proof.
  intros H1 H2. assert (E := transpose_rows X t v H1 H2). destruct (transpose a0 (slab X t v)) as [|r m]; [discriminate|]. cbn in E. injection E as ->.
  cbn [n_cols]. now rewrite map_length, seq_length.
Qed.
Lemma contourf_ok (x1 x2 : list Q) (m : mat A) : length m = length x2 -> n_cols m = length x1 -> 2 <= length m -> 2 <= n_cols m ->
  contourf x1 x2 m = Ok (Figure x1 x2 m).
Proof.
  intros H1 H2 H3 H4. unfold contourf. destruct (Nat.eqb_spec (length m) (length x2)); [|lia]. destruct (Nat.eqb_spec (n_cols m) (length x1)); [|lia].
  destruct (Nat.leb_spec 2 (length m)); [|lia]. destruct (Nat.leb_spec 2 (n_cols m)); [|lia]. reflexivity.
Qed.
Lemma norm_nonneg nt t : t < nt -> norm_index nt (Z.of_nat t) = Ok t.
Proof. intros H. unfold norm_index. destruct (Z.leb_spec 0 (Z.of_nat t)); [|lia]. destruct (Z.ltb_spec (Z.of_nat t) (Z.of_nat nt)); [|lia]. cbn. f_equal. lia. Qed.

(* one picture *)
Lemma draw_straight (X : rec4) x1 x2 v t : t < d_nt X -> v < d_nv X -> 2 <= d_n1 X -> 2 <= d_n2 X -> length x1 = d_n2 X -> length x2 = d_n1 X ->
  draw_data a0 X x1 x2 v (Z.of_nat t) = Ok (Figure x1 x2 (slab X t v)).
Proof.
  intros Ht Hv H1 H2 L1 L2. unfold draw_data. rewrite norm_nonneg by exact Ht. cbn [bind].
  destruct (Nat.leb_spec (d_nv X) v); [lia|]. rewrite L1, L2. destruct (Nat.eqb_spec (d_n2 X * d_n1 X) (d_n1 X * d_n2 X)); [|lia].
  rewrite !Nat.eqb_refl. cbn [negb orb]. apply contourf_ok; rewrite ?slab_length, ?slab_cols; lia.
Qed.
Lemma draw_turned (X : rec4) x1 x2 v t : t < d_nt X -> v < d_nv X -> 2 <= d_n1 X -> 2 <= d_n2 X -> d_n1 X <> d_n2 X ->
  length x1 = d_n1 X -> length x2 = d_n2 X ->
  draw_data a0 X x1 x2 v (Z.of_nat t) = Ok (Figure x1 x2 (transpose a0 (slab X t v))).
Proof.
  intros Ht Hv H1 H2 Hd L1 L2. unfold draw_data. rewrite norm_nonneg by exact Ht. cbn [bind].
  destruct (Nat.leb_spec (d_nv X) v); [lia|]. rewrite L1, L2, Nat.eqb_refl. cbn [negb]. destruct (Nat.eqb_spec (d_n1 X) (d_n2 X)); [lia|]. cbn [negb orb].
  apply contourf_ok; rewrite ?transpose_length, ?transpose_cols; lia.
Qed.
Lemma single (X : rec4) t v x1 x2 c : coords_of (d_n1 X) (d_n2 X) x1 x2 = Ok c ->
  plot_2d_data a0 X [t] [v] x1 x2 = (do f <- draw_data a0 X (fst c) (snd c) v t; Ok [f]).
Proof. intros E. unfold plot_2d_data. rewrite E. cbn. destruct (draw_data _ _ _ _ _ _); reflexivity. Qed.
(* the default coordinates: 0, 1, ... along the axes of the data *)
Definition along_axes (n1 n2 : nat) (x1 x2 : option (list Q)) : Prop :=
  (x1 = None /\ x2 = None) \/ exists a b, x1 = Some a /\ x2 = Some b /\ length a = n1 /\ length b = n2.
Lemma along_coords n1 n2 x1 x2 : along_axes n1 n2 x1 x2 -> exists a b, coords_of n1 n2 x1 x2 = Ok (a, b) /\ length a = n1 /\ length b = n2.
Proof.
  intros [[-> ->]|(a & b & -> & -> & La & Lb)]; cbn.
  - eexists _, _. split; [reflexivity|]. now rewrite !map_length, !seq_length.
  - eauto.
Qed.

(* Coordinates along the axes of the data (in particular the default ones): right for grids that are not square ... *)
Theorem C100_rectangular_grid : forall (X : rec4) t v x1 x2, t < d_nt X -> v < d_nv X -> 2 <= d_n1 X -> 2 <= d_n2 X ->
  along_axes (d_n1 X) (d_n2 X) x1 x2 -> d_n1 X <> d_n2 X ->
  exists f, plot_2d_data a0 X [Z.of_nat t] [v] x1 x2 = Ok [f] /\
    forall i j, i < d_n1 X -> j < d_n2 X -> shows f i j (d_at X t i j v).
Proof.
  intros X t v x1 x2 Ht Hv H1 H2 Ha Hd. destruct (along_coords Ha) as (a & b & E & La & Lb). rewrite (single _ _ _ _ _ E). cbn [fst snd].
  rewrite draw_turned by assumption. cbn [bind]. eexists. split; [reflexivity|]. intros i j Hi Hj. split; [cbn; lia|]. split; [cbn; lia|]. cbn [f_mode].
  eexists. split; [apply transpose_rows; lia|]. now rewrite map_seq_nth.
Qed.
(* ... and mirrored for every square one. *)
Theorem C100_square_grid_refuted : forall (X : rec4) t v x1 x2, t < d_nt X -> v < d_nv X -> 2 <= d_n1 X -> d_n2 X = d_n1 X ->
  along_axes (d_n1 X) (d_n2 X) x1 x2 ->
  exists f, plot_2d_data a0 X [Z.of_nat t] [v] x1 x2 = Ok [f] /\
    forall i j, i < d_n1 X -> j < d_n1 X -> shows f i j (d_at X t j i v).
Proof.
  intros X t v x1 x2 Ht Hv H1 H2 Ha. destruct (along_coords Ha) as (a & b & E & La & Lb). rewrite (single _ _ _ _ _ E). cbn [fst snd].
  rewrite draw_straight by lia. cbn [bind]. eexists. split; [reflexivity|]. intros i j Hi Hj. split; [cbn; lia|]. split; [cbn; lia|]. cbn [f_mode].
  eexists. split; [apply slab_rows; lia|]. rewrite map_seq_nth by lia. reflexivity.
Qed.
(* Coordinates in the other order (x1 along the second axis of the data): right for every grid. *)
Theorem C100_second_axis_first : forall (X : rec4) t v a b, t < d_nt X -> v < d_nv X -> 2 <= d_n1 X -> 2 <= d_n2 X ->
  length a = d_n2 X -> length b = d_n1 X ->
  exists f, plot_2d_data a0 X [Z.of_nat t] [v] (Some a) (Some b) = Ok [f] /\
    forall i j, i < d_n2 X -> j < d_n1 X -> shows f i j (d_at X t j i v).
Proof.
  intros X t v a b Ht Hv H1 H2 La Lb. rewrite (@single _ _ _ _ _ (a, b)) by reflexivity. cbn [fst snd].
  rewrite draw_straight by lia. cbn [bind]. eexists. split; [reflexivity|]. intros i j Hi Hj. split; [cbn; lia|]. split; [cbn; lia|]. cbn [f_mode].
  eexists. split; [apply slab_rows; lia|]. rewrite map_seq_nth by lia. reflexivity.
Qed.
(* several variables and times: one picture each, variables first *)
Lemma draw_each_nth B C (g : B -> res C) l r : draw_each g l = Ok r -> length r = length l /\ forall k b, nth_error l k = Some b -> exists c, g b = Ok c /\ nth_error r k = Some c.
Proof.
  revert r. induction l as [|b l IH]; intros r; cbn [draw_each].
  - injection 1 as <-. split; [reflexivity|]. intros [|k] b; discriminate.
  - destruct (g b) as [c|] eqn:E; [|discriminate]. cbn [bind]. destruct (draw_each g l) as [cs|]; [|discriminate]. cbn [bind]. injection 1 as <-.
    destruct (IH cs eq_refl) as [L N]. split; [cbn; lia|]. intros [|k] b' H; cbn in H |- *; [injection H as <-; eauto|auto].
Qed.
Lemma pairs_nth B C (l : list B) (r : list C) k m b c : nth_error l k = Some b -> nth_error r m = Some c -> nth_error (pairs l r) (k * length r + m) = Some (b, c).
Proof.
  revert k. induction l as [|x l IH]; intros k H H'; [destruct k; discriminate|]. unfold pairs. cbn [flat_map].
  assert (Hm : m < length r) by (apply nth_error_Some; congruence).
  destruct k as [|k].
  - injection H as ->. rewrite nth_error_app1 by (rewrite map_length; lia). cbn [Nat.mul Nat.add]. rewrite nth_error_map, H'. reflexivity.
  - cbn in H. rewrite nth_error_app2 by (rewrite map_length; lia). rewrite map_length. replace (S k * length r + m - length r) with (k * length r + m) by lia. now apply IH.
Qed.
Lemma pairs_length B C (l : list B) (r : list C) : length (pairs l r) = length l * length r.
Proof. unfold pairs. induction l as [|x l IH]; [reflexivity|]. cbn [flat_map]. rewrite app_length, map_length, IH. cbn; lia. Qed.
Theorem C100_all_pictures : forall (X : rec4) times vars x1 x2 figs, plot_2d_data a0 X times vars x1 x2 = Ok figs ->
  length figs = length vars * length times /\
  forall k m v t, nth_error vars k = Some v -> nth_error times m = Some t ->
    exists f, plot_2d_data a0 X [t] [v] x1 x2 = Ok [f] /\ nth_error figs (k * length times + m) = Some f.
Proof.
  intros X times vars x1 x2 figs H. unfold plot_2d_data in H. destruct (coords_of _ _ _ _) as [c|] eqn:Ec; [|discriminate]. cbn [bind] in H.
  destruct (draw_each_nth _ _ H) as [L N]. split; [now rewrite L, pairs_length|]. intros k m v t Hk Hm.
  destruct (N _ _ (pairs_nth _ _ _ _ Hk Hm)) as (f & E & F). cbn [fst snd] in E. exists f. split; [|exact F]. rewrite (single _ _ _ _ _ Ec), E. reflexivity.
Qed.

(* ---- C101 ---- *)
(* the result of a call, up to extensionality nothing is needed: records are compared by the pictures they give *)
Lemma zmax_ge l m : zmax l = Some m -> In m l /\ forall z, In z l -> (z <= m)%Z.
Proof.
  destruct l as [|z l]; [discriminate|]. cbn [zmax]. injection 1 as <-. revert z. induction l as [|y l IH]; intros z; cbn [fold_left].
  - split; [now left|]. intros x [->|[]]. lia.
  - destruct (IH (Z.max z y)) as [I M]. split.
    + destruct I as [I|I]; [|right; now right]. destruct (Z.max_spec z y) as [[_ E]|[_ E]]; rewrite E in *; [right; now left|now left].
    + intros x [->|[->|Hx]]; [specialize (M (Z.max x y)); cbn in M; lia|specialize (M (Z.max z x)); cbn in M; lia|apply M; now right].
Qed.
Lemma draw_each_ext B C (g h : B -> res C) l : (forall b, In b l -> g b = h b) -> draw_each g l = draw_each h l.
Proof. induction l as [|b l IH]; intros H; [reflexivity|]. cbn [draw_each]. rewrite H by (now left). rewrite IH; [reflexivity|]. intros b' I. apply H. now right. Qed.
Lemma pairs_in B C (l : list B) (r : list C) p : In p (pairs l r) -> In (fst p) l /\ In (snd p) r.
Proof. unfold pairs. intros H. apply in_flat_map in H as (b & Hb & H). apply in_map_iff in H as (c & <- & Hc). auto. Qed.
Lemma draw_cut (X : rec4) b x1 x2 v t i j : norm_index (d_nt (cut_time X 0 b)) t = i -> norm_index (d_nt X) t = j ->
  i = j -> draw_data a0 (cut_time X 0 b) x1 x2 v t = draw_data a0 X x1 x2 v t.
Proof. intros <- <- E. unfold draw_data. rewrite E. destruct (norm_index (d_nt X) t); reflexivity. Qed.
(* Non-negative indices: the method and the function agree. *)
Theorem C101_nonnegative_indices : forall (X : rec4) times vars x1 x2, times <> [] -> Forall (fun t => (0 <= t)%Z) times ->
  method_plot_2d_data a0 X times vars x1 x2 = plot_2d_data a0 X times vars x1 x2.
Proof.
  intros X times vars x1 x2 Hn Hp. unfold method_plot_2d_data. destruct (zmax times) as [m|] eqn:Em; [|destruct times; [congruence|discriminate]].
  destruct (zmax_ge _ Em) as [Im Hm]. rewrite Forall_forall in Hp. unfold plot_2d_data.
  destruct (coords_of (d_n1 (cut_time X 0 (m + 1))) _ _ _) as [c|] eqn:Ec; cbn [cut_time d_n1 d_n2] in Ec; rewrite Ec; [|reflexivity]. cbn [bind].
  apply draw_each_ext. intros [v t] I. apply pairs_in in I as [_ It]. cbn [fst snd] in *. eapply draw_cut; try reflexivity.
  specialize (Hp t It). specialize (Hm t It). assert (0 <= m)%Z by lia.
  cbn [cut_time d_nt]. unfold stop_of, norm_index. destruct (Z.ltb_spec (m + 1) 0); [lia|]. rewrite Nat.sub_0_r.
  destruct (Z.leb_spec 0 t); [|lia]. destruct (Z.ltb_spec t 0); [lia|]. rewrite !Bool.andb_false_r. cbn [andb].
  destruct (Z.ltb_spec t (Z.of_nat (d_nt X))); destruct (Z.ltb_spec t (Z.of_nat (Z.to_nat (Z.min (m + 1) (Z.of_nat (d_nt X)))))); auto; lia.
Qed.
(* -k should be the k-th snapshot from the end, as in the function ... *)
Theorem C101_function_counts_from_end : forall (X : rec4) k vars x1 x2, 1 <= k -> k <= d_nt X ->
  plot_2d_data a0 X [(- Z.of_nat k)%Z] vars x1 x2 = plot_2d_data a0 X [Z.of_nat (d_nt X - k)] vars x1 x2.
Proof.
  intros X k vars x1 x2 H1 H2. unfold plot_2d_data. destruct (coords_of _ _ _ _) as [c|]; [|reflexivity]. cbn [bind]. unfold pairs.
  induction vars as [|v vars IH]; [reflexivity|]. cbn [flat_map map app draw_each] in IH |- *. rewrite IH. cbn [fst snd].
  assert (E : draw_data a0 X (fst c) (snd c) v (- Z.of_nat k) = draw_data a0 X (fst c) (snd c) v (Z.of_nat (d_nt X - k))).
  { unfold draw_data. rewrite norm_nonneg by lia. unfold norm_index. destruct (Z.leb_spec 0 (- Z.of_nat k)); [lia|]. cbn [andb].
    destruct (Z.leb_spec (- Z.of_nat (d_nt X)) (- Z.of_nat k)); [|lia]. destruct (Z.ltb_spec (- Z.of_nat k) 0); [|lia]. cbn [andb bind].
    now replace (Z.to_nat (- Z.of_nat k + Z.of_nat (d_nt X))) with (d_nt X - k) by lia. }
  now rewrite E.
Qed.
(* ... but in the method -1 always fails, and -k is another snapshot or fails. *)
Theorem C101_method_refuted : forall (X : rec4) k v x1 x2 a b, 1 <= k -> v < d_nv X -> coords_of (d_n1 X) (d_n2 X) x1 x2 = Ok (a, b) ->
  method_plot_2d_data a0 X [(- Z.of_nat k)%Z] [v] x1 x2 =
  if (2 <=? k) && (2 * k <=? d_nt X + 1) then plot_2d_data a0 X [Z.of_nat (d_nt X + 1 - 2 * k)] [v] x1 x2 else Err IndexError.
Proof.
  intros X k v x1 x2 a b H1 Hv Ec. unfold method_plot_2d_data. cbn [zmax fold_left].
  rewrite (@single (cut_time X 0 (- Z.of_nat k + 1)) _ _ _ _ (a, b)) by exact Ec. rewrite (@single X _ _ _ _ (a, b)) by exact Ec. cbn [fst snd].
  unfold draw_data. cbn [cut_time d_nt d_n1 d_n2 d_nv]. rewrite Nat.sub_0_r.
  assert (S : stop_of (d_nt X) (- Z.of_nat k + 1) = if 2 <=? k then d_nt X + 1 - k else 0).
  { unfold stop_of. destruct (Nat.leb_spec 2 k); destruct (Z.ltb_spec (- Z.of_nat k + 1) 0); lia. }
  rewrite S. clear S. destruct (Nat.leb_spec 2 k) as [H2|H2]; cbn [andb].
  - destruct (Nat.leb_spec (2 * k) (d_nt X + 1)) as [H3|H3].
    + rewrite norm_nonneg by lia. unfold norm_index. destruct (Z.leb_spec 0 (- Z.of_nat k)); [lia|]. cbn [andb].
      destruct (Z.leb_spec (- Z.of_nat (d_nt X + 1 - k)) (- Z.of_nat k)); [|lia]. destruct (Z.ltb_spec (- Z.of_nat k) 0); [|lia]. cbn [andb bind].
      replace (Z.to_nat (- Z.of_nat k + Z.of_nat (d_nt X + 1 - k))) with (d_nt X + 1 - 2 * k) by lia. reflexivity.
    + unfold norm_index. destruct (Z.leb_spec 0 (- Z.of_nat k)); [lia|]. cbn [andb].
      destruct (Z.leb_spec (- Z.of_nat (d_nt X + 1 - k)) (- Z.of_nat k)); [lia|]. reflexivity.
  - unfold norm_index. destruct (Z.leb_spec 0 (- Z.of_nat k)); [lia|]. cbn [andb].
    destruct (Z.leb_spec (- Z.of_nat 0) (- Z.of_nat k)); [lia|]. reflexivity.
Qed.
End P.
Print Assumptions C100_rectangular_grid.
Print Assumptions C100_square_grid_refuted.
Print Assumptions C100_second_axis_first.
Print Assumptions C100_all_pictures.
Print Assumptions C101_nonnegative_indices.
Print Assumptions C101_function_counts_from_end.
Print Assumptions C101_method_refuted.

(* concrete records: 5 snapshots of 2 x 3 and 3 x 3 grids *)
Definition ex_rec (n1 n2 : nat) : rec4 nat := Rec4 5 n1 n2 1 (fun t i j v => 100 * t + 10 * i + j).
Example Ex_C100 : plot_2d_data 0 (ex_rec 2 3) [4%Z] [0] None None =
  Ok [Figure [0; 1]%Q [0; 1; 2]%Q [[400; 410]; [401; 411]; [402; 412]]].
Proof. vm_compute. reflexivity. Qed.
Example Ex_C100_square : plot_2d_data 0 (ex_rec 3 3) [4%Z] [0] None None =
  Ok [Figure [0; 1; 2]%Q [0; 1; 2]%Q [[400; 401; 402]; [410; 411; 412]; [420; 421; 422]]].
Proof. vm_compute. reflexivity. Qed.
Example Ex_C101 : method_plot_2d_data 0 (ex_rec 2 3) [(-2)%Z] [0] None None = plot_2d_data 0 (ex_rec 2 3) [2%Z] [0] None None /\
  plot_2d_data 0 (ex_rec 2 3) [(-2)%Z] [0] None None = plot_2d_data 0 (ex_rec 2 3) [3%Z] [0] None None /\
  method_plot_2d_data 0 (ex_rec 2 3) [(-1)%Z] [0] None None = Err IndexError.
Proof. repeat split. Qed.
