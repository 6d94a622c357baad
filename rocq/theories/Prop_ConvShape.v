(* Property theorem C88: when convolution coefficients can be computed at all. *)
From Verif Require Import Base_List Model_ConvShape.
Lemma size_app a b : size_of (a ++ b) = size_of a * size_of b.
Proof. induction a; unfold size_of in *; simpl; [lia|]. rewrite IHa. lia. Qed.
(* frequencies given by a period range (or none): n_idx = n_freq_r. A rank completes exactly when the range covers
   every frequency, there are at least two of them, at least two modes, and the rank does not hold a single entry. *)
Theorem C88_convolution_shapes : forall n_freq n_freq_r xsize nm xshape,
  1 <= n_freq_r <= n_freq -> 1 <= nm -> 1 <= xsize -> size_of xshape = xsize ->
  (conv_shapes n_freq n_freq_r n_freq_r xsize nm xshape = Ok tt <-> n_freq_r = n_freq /\ 2 <= n_freq /\ 2 <= nm /\ 2 <= xsize).
Proof.
intros nf nr xs nm xsh Hf Hm Hx Hs.
unfold conv_shapes, squeeze, transpose, set_shape. rewrite size_app, Hs. cbn [filter].
destruct (Nat.eqb_spec nf 1), (Nat.eqb_spec xs 1), (Nat.eqb_spec nm 1); cbn [negb rev app filter Nat.eqb bcast];
 unfold bcast; rewrite ?Nat.eqb_refl; cbn [bind einsum_ij_kji]; try (split; [discriminate|intros; exfalso; lia]).
unfold bcast. rewrite Nat.eqb_refl.
destruct (Nat.eqb_spec nr nf) as [->|Hne]; cbn [bind].
- unfold assign. cbn. rewrite !Nat.eqb_refl. cbn. replace (nf * (xs * (nm * 1)) =? xs * (nf * (nm * 1))) with true.
  + split; [intros _; lia|reflexivity].
  + symmetry. apply Nat.eqb_eq. nia.
- destruct (Nat.eqb_spec nr 1) as [->|Hn1]; cbn [bind].
  + unfold assign. cbn [length Nat.eqb combine forallb fst snd andb].
    destruct (Nat.eqb_spec nf 1); [lia|]. cbn. split; [discriminate|lia].
  + destruct (Nat.eqb_spec nf 1); [lia|]. cbn. split; [discriminate|lia].
Qed.
Print Assumptions C88_convolution_shapes.
Definition ve {A} (r : res A) : Prop := forall e, r = Err e -> e = ValueError.
Lemma ve_bind {A B} (r : res A) (k : A -> res B) : ve r -> (forall a, ve (k a)) -> ve (bind r k).
Proof. intros H1 H2 e. destruct r; simpl; [apply H2|]. intro E. apply H1. congruence. Qed.
Lemma ve_bcast a b : ve (bcast a b).
Proof. intros e. unfold bcast. destruct (a =? b), (a =? 1), (b =? 1); congruence. Qed.
Lemma conv_ve nf nr ni xs nm xsh : ve (conv_shapes nf nr ni xs nm xsh).
Proof.
unfold conv_shapes. apply ve_bind.
- destruct (squeeze [xs; 1]); [intros e; discriminate|apply ve_bind; [apply ve_bcast|intros a e; discriminate]].
- intro x. apply ve_bind.
  + unfold einsum_ij_kji. destruct x as [|? [|? [|? ?]]]; try (intros e; congruence).
    destruct (transpose _) as [|? [|? [|? [|? ?]]]]; try (intros e; congruence).
    repeat (apply ve_bind; [apply ve_bcast|intro]). intros e; discriminate.
  + intro v. apply ve_bind; [unfold assign|intros []; unfold set_shape].
    * destruct (andb _ _); intros e; congruence.
    * destruct (_ =? _); intros e; congruence.
Qed.
(* it does not just fail: it raises ValueError *)
Theorem C88_error_refuted : forall n_freq n_freq_r xsize nm xshape,
  1 <= n_freq_r <= n_freq -> 1 <= nm -> 1 <= xsize -> size_of xshape = xsize ->
  n_freq_r < n_freq \/ nm = 1 \/ xsize = 1 ->
  conv_shapes n_freq n_freq_r n_freq_r xsize nm xshape = Err ValueError.
Proof.
intros nf nr xs nm xsh Hf Hm Hx Hs Hc.
destruct (conv_shapes nf nr nr xs nm xsh) as [[]|e] eqn:E.
- apply C88_convolution_shapes in E; lia.
- f_equal. revert E. apply conv_ve.
Qed.
Print Assumptions C88_error_refuted.
Example C88_nonvacuous : conv_shapes 5 5 5 12 3 [4; 3; 1] = Ok tt /\ conv_shapes 5 2 2 12 3 [4; 3; 1] = Err ValueError /\ conv_shapes 5 5 5 12 1 [4; 3; 1] = Err ValueError.
Proof. repeat split. Qed.
