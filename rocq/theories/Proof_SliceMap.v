(* Naturality of slicing: a rank's piece of an array of rows is the rows of its piece of the index array. *)
From Verif Require Import Base_List Model_Parallel Spec_Array Proof_Parallel Proof_Npy2.
Local Open Scope nat_scope.
Set Implicit Arguments.

Lemma skipn_flat_map {A B} (g : A -> list B) k : forall l a, (forall x, In x l -> length (g x) = k) ->
  skipn (a * k) (flat_map g l) = flat_map g (skipn a l).
Proof.
  induction l as [|x l IH]; intros a Hg; destruct a as [|a]; cbn [skipn flat_map]; try reflexivity.
  - now rewrite skipn_nil.
  - rewrite skipn_app, (Hg x) by now left. rewrite skipn_all2 by (rewrite (Hg x) by (now left); cbn; lia).
    replace (S a * k - k) with (a * k) by (cbn; lia). cbn [app]. apply IH. intros y Hy. apply Hg. now right.
Qed.
Lemma firstn_flat_map' {A B} (g : A -> list B) k : forall l a, (forall x, In x l -> length (g x) = k) ->
  firstn (a * k) (flat_map g l) = flat_map g (firstn a l).
Proof.
  induction l as [|x l IH]; intros a Hg; destruct a as [|a]; cbn [firstn flat_map]; try reflexivity.
  - now rewrite firstn_nil.
  - rewrite firstn_app, (Hg x) by now left. rewrite firstn_all2 by (rewrite (Hg x) by (now left); cbn; lia).
    replace (S a * k - k) with (a * k) by (cbn; lia). f_equal. apply IH. intros y Hy. apply Hg. now right.
Qed.
Lemma window_flat_map {A B} (g : A -> list B) k l a b : (forall x, In x l -> length (g x) = k) ->
  window (a * k) (b * k) (flat_map g l) = flat_map g (window a b l).
Proof.
  intros Hg. unfold window. rewrite (@skipn_flat_map _ _ g k) by assumption. apply firstn_flat_map'.
  intros x Hx. apply Hg. rewrite <- (firstn_skipn a l). apply in_or_app. now right.
Qed.
Lemma flat_map_concat' {A B} (g : A -> list B) ls : flat_map g (concat ls) = concat (map (flat_map g) ls).
Proof. induction ls as [|l ls IH]; cbn [concat map flat_map]; [reflexivity|]. now rewrite flat_map_app, IH. Qed.
Lemma slice_flat_rows {A B} (g : A -> list B) k o N i s n l : (forall x, In x l -> length (g x) = k) ->
  slice_flat o N (i * k) s n (flat_map g l) = flat_map g (slice_flat o N i s n l).
Proof.
  intros Hg. unfold slice_flat. rewrite flat_map_concat', map_map. f_equal. apply map_ext. intros q.
  rewrite <- (@window_flat_map _ _ g k) by assumption. f_equal; lia.
Qed.
Lemma piece_rows {A B} (g : A -> list B) k sh l ax size r : (forall x, In x l -> length (g x) = k) -> ax < length sh ->
  piece ax size (Nd (sh ++ [k]) (flat_map g l)) r
  = Nd (upd_nth ax (bd_n (nth ax sh 0) size r) sh ++ [k]) (flat_map g (flat (piece ax size (Nd sh l) r))).
Proof.
  intros Hg Hax. unfold piece. cbn [shape]. rewrite app_nth1 by assumption.
  destruct (split_at_axis _ Hax) as (sh1 & N & sh2 & -> & <- & _ & _ & _).
  rewrite axis_nth. rewrite <- app_assoc. cbn [app]. rewrite !slice_axis_split. cbn [flat].
  f_equal.
  - rewrite upd_nth_split by (rewrite app_length; cbn; lia).
    rewrite firstn_app, firstn_all, Nat.sub_diag. cbn [firstn]. rewrite app_nil_r.
    rewrite skipn_app, (skipn_all2 (n := S (length sh1)) sh1) by lia.
    replace (S (length sh1) - length sh1) with 1 by lia. cbn [skipn app]. now rewrite <- app_assoc.
  - rewrite prod_app. replace (prod [k]) with k by (cbn; lia). now apply slice_flat_rows.
Qed.
