From Verif Require Import Base_List Model_Stat Spec_Stat.
From Coq Require Import QArith Qfield Lqa.
Local Open Scope Q_scope.

Lemma count_app l l' : count (l ++ l') == count l + count l'.
Proof. unfold count. rewrite app_length, Nat2Z.inj_add, inject_Z_plus. reflexivity. Qed.
Lemma total_cons x l : total (x :: l) = x + total l.
Proof. reflexivity. Qed.
Lemma total_app l l' : total (l ++ l') == total l + total l'.
Proof. induction l as [|x l IH]; simpl; [ring|]. rewrite IH. ring. Qed.
Lemma count_pos l : l <> [] -> 0 < count l.
Proof.
  intros H. destruct l as [|x l]; [congruence|]. unfold count.
  change 0 with (inject_Z 0). rewrite <- Zlt_Qlt. simpl. lia.
Qed.
Lemma total_ext l (f g : Q -> Q) : (forall x, f x == g x) -> total (map f l) == total (map g l).
Proof. intros H. induction l as [|x l IH]; simpl; [reflexivity|]. now rewrite H, IH. Qed.

(* sum of squared deviations from any centre *)
Lemma sq_dev l c : total (map (fun x => (x - c) ^ 2) l)
  == total (map (fun x => x ^ 2) l) - 2 * c * total l + count l * c ^ 2.
Proof.
  induction l as [|x l IH].
  - unfold count; simpl. ring.
  - cbn [map]. rewrite !total_cons, IH.
    assert (E : count (x :: l) == 1 + count l) by (rewrite (count_app [x] l); reflexivity).
    rewrite E. ring.
Qed.
Lemma variance_alt l : l <> [] ->
  variance l == total (map (fun x => x ^ 2) l) / count l - (mean l) ^ 2.
Proof.
  intros H. apply count_pos in H. unfold variance. rewrite sq_dev. unfold mean. field. lra.
Qed.

Definition stat_ok (s : stat) (l : list Q) : Prop :=
  s_n s == count l /\ (exists m, s_m s = Some m /\ m == mean l) /\
  (exists v, s_v s = Some v /\ v == variance l).

Lemma local_stat_ok l : l <> [] -> stat_ok (local_stat l) l.
Proof.
  intros H. destruct l as [|x l]; [congruence|]. unfold stat_ok, local_stat; cbn [s_n s_m s_v].
  split; [reflexivity|]. split; eexists; (split; [reflexivity|]); [reflexivity|].
  unfold variance. change (qlen (x :: l)) with (count (x :: l)).
  change (qsum (x :: l)) with (total (x :: l)). change (qsum (map ?f (x::l))) with (total (map f (x::l))).
  apply Qmult_comp; [|reflexivity]. change qsum with total.
  apply total_ext. intros y. unfold mean. ring.
Qed.

Lemma op_stat_ok a b la lb : la <> [] -> lb <> [] ->
  stat_ok a la -> stat_ok b lb -> stat_ok (op_stat a b) (la ++ lb).
Proof.
  intros Ha Hb (Na & (ma & Ema & Hma) & (va & Eva & Hva)) (Nb & (mb & Emb & Hmb) & (vb & Evb & Hvb)).
  unfold stat_ok, op_stat. rewrite Ema, Emb, Eva, Evb. cbn [s_n s_m s_v].
  pose proof (count_pos _ Ha) as Pa. pose proof (count_pos _ Hb) as Pb.
  assert (Hab : la ++ lb <> []) by (destruct la; [congruence|discriminate]).
  split; [rewrite count_app, Na, Nb; reflexivity|].
  split; eexists; (split; [reflexivity|]).
  - rewrite Na, Nb, Hma, Hmb. unfold mean. rewrite count_app, total_app. field. lra.
  - rewrite (variance_alt (la ++ lb)) by assumption.
    rewrite Na, Nb, Hma, Hmb, Hva, Hvb, (variance_alt la), (variance_alt lb) by assumption.
    rewrite map_app, total_app, count_app. unfold mean. rewrite total_app, count_app. field. lra.
Qed.

Lemma reduce_ok t : (forall l, In l (leaves t) -> l <> []) ->
  stat_ok (reduce t) (concat (leaves t)) /\ concat (leaves t) <> [].
Proof.
  induction t as [l|t1 IH1 t2 IH2]; intros H; simpl in *.
  - rewrite app_nil_r. split; [apply local_stat_ok|]; apply H; now left.
  - destruct IH1 as [S1 N1]; [intros l Hl; apply H, in_or_app; now left|].
    destruct IH2 as [S2 N2]; [intros l Hl; apply H, in_or_app; now right|].
    rewrite concat_app. split; [now apply op_stat_ok|]. destruct (concat (leaves t1)); [congruence|discriminate].
Qed.

Lemma reduce_nan t : In [] (leaves t) -> s_m (reduce t) = None /\ s_v (reduce t) = None.
Proof.
  induction t as [l|t1 IH1 t2 IH2]; intros H; simpl in *.
  - destruct H as [->|[]]. auto.
  - unfold op_stat. apply in_app_or in H as [H|H].
    + destruct (IH1 H) as [E1 E2]. rewrite E1. auto.
    + destruct (IH2 H) as [E1 E2]. rewrite E1. destruct (s_m (reduce t1)); auto.
Qed.

Lemma pvar_any_reduction t : (forall l, In l (leaves t) -> l <> []) ->
  let data := concat (leaves t) in
  exists v m, pvar t = (Some v, Some m, s_n (reduce t)) /\
    s_n (reduce t) == count data /\ m == mean data /\ v == variance data.
Proof.
  intros H. destruct (reduce_ok t H) as [(Hn & (m & Em & Hm) & (v & Ev & Hv)) _].
  exists v, m. unfold pvar. rewrite Em, Ev. auto.
Qed.

Lemma pvar_empty_nan t : In [] (leaves t) -> exists n, pvar t = (None, None, n).
Proof.
  intros H. destruct (reduce_nan t H) as [E1 E2]. exists (s_n (reduce t)). unfold pvar. now rewrite E1, E2.
Qed.
