From Verif Require Import Base_List Model_StreamShape.
Lemma update_ok flat k : flat <> 1 -> k <> 1 -> update_shapes flat k = Ok [flat; k].
Proof.
intros Hf Hk. unfold update_shapes.
assert (E : forall a, a <> 1 -> negb (a =? 1) = true) by (intros a Ha; apply negb_true_iff, Nat.eqb_neq; exact Ha).
cbn [squeeze filter]. rewrite (E _ Hf), (E _ Hk). cbn [diag_shape bind transpose rev app matmul_shape].
rewrite Nat.eqb_refl. cbn [bind matmul_shape]. rewrite Nat.eqb_refl. cbn [bind broadcast].
unfold bc1. rewrite !Nat.eqb_refl. cbn [bind transpose rev app matmul_shape]. rewrite Nat.eqb_refl. cbn [bind broadcast].
unfold bc1. assert (E1 : (flat =? 1) = false) by (apply Nat.eqb_neq; exact Hf). rewrite E1, Nat.eqb_refl.
cbn [bind hstack2]. rewrite !Nat.eqb_refl. cbn [bind hstack2 vstack2]. rewrite !Nat.eqb_refl.
cbn [bind hstack2 vstack2 nth matmul_shape]. rewrite !Nat.eqb_refl. cbn [bind].
rewrite Nat.eqb_refl, Nat.min_l, Nat.eqb_refl by lia. reflexivity.
Qed.
Lemma update_k1 flat : update_shapes flat 1 = Err ValueError.
Proof. reflexivity. Qed.
Lemma update_flat1 k : update_shapes 1 k = Err ValueError.
Proof.
destruct (Nat.eq_dec k 1) as [->|Hk]; [reflexivity|].
unfold update_shapes. assert (E : negb (k =? 1) = true) by (apply negb_true_iff, Nat.eqb_neq; exact Hk).
cbn [squeeze filter Nat.eqb negb]. rewrite E. cbn [diag_shape bind transpose rev app matmul_shape].
apply negb_true_iff in E. rewrite E. reflexivity.
Qed.
Lemma fit_ok_iff flat k blocks : (exists u, fit_shapes flat k blocks = Ok u) <-> flat <> 1 /\ (k <> 1 \/ blocks = 0).
Proof.
unfold fit_shapes, end_of_stream. destruct (Nat.eq_dec flat 1) as [->|Hf].
- split; [|intros [H _]; congruence]. intros [u H]. destruct (blocks =? 0); [discriminate|].
  rewrite update_flat1 in H. discriminate.
- assert (E1 : (flat =? 1) = false) by (apply Nat.eqb_neq; exact Hf).
  destruct (Nat.eqb_spec blocks 0) as [->|Hb].
  + cbn [bind]. rewrite E1. split; [auto|]. intros _. eexists; reflexivity.
  + destruct (Nat.eq_dec k 1) as [->|Hk].
    * rewrite update_k1. cbn [bind]. split; [intros [u H]; discriminate|]. intros [_ [H|H]]; congruence.
    * rewrite update_ok by assumption. cbn [bind]. rewrite E1. split; [auto|]. intros _. eexists; reflexivity.
Qed.
