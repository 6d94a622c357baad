(* Soundness of a discipline of collective calls and files for the transition system of Model_Spmd. *)
From Coq Require Import String Bool Arith Lia List.
From Verif Require Import Model_Spmd Spec_Spmd.
Import ListNotations.
Set Implicit Arguments.

(* ---- plans: what the processes do together ---- *)
Inductive item := Every (a : act) | Only (r : nat) (a : act) | Looks (d : folder) (f : fname) (b : bool).
Definition proj1 (r : nat) (i : item) : list ev :=
  match i with Every a => [Did a] | Only q a => if q =? r then [Did a] else [] | Looks d f b => [Saw d f b] end.
Definition proj (r : nat) (p : list item) : list ev := flat_map (proj1 r) p.
Inductive follows : prog -> list ev -> Prop :=
| fo_ret : follows Ret []
| fo_act : forall a k l, follows k l -> follows (Act a k) (Did a :: l)
| fo_test : forall d f k b l, follows (k b) l -> follows (Test d f k) (Saw d f b :: l).

Definition sync (c : call) : bool := match c with Barrier | Allreduce | Allgather | Exchange => true | _ => false end.
Record cst := Cst { base : disk; new : list entry; seen : list entry; opened : list (option nat * entry) }.
Definition who_eq_dec (a b : option nat * entry) : {a = b} + {a <> b}.
Proof. decide equality; [apply entry_eq_dec|decide equality; apply Nat.eq_dec]. Defined.
Fixpoint remove1 (x : option nat * entry) (l : list (option nat * entry)) :=
  match l with [] => [] | y :: l => if who_eq_dec x y then l else y :: remove1 x l end.
Definition after_act (w : option nat) (a : act) (s : cst) : cst :=
  match a with
  | Coll (FOpen d f) | OpenW d f => Cst (base s) (File d f :: new s) (seen s) ((w, File d f) :: opened s)
  | Coll (FClose d f) | CloseW d f => Cst (base s) (new s) (seen s) (remove1 (w, File d f) (opened s))
  | Coll c => if sync c then Cst (add (base s) (new s)) [] [] (opened s) else s
  | Makedirs d => Cst (base s) (Dir d :: new s) (seen s) (opened s)
  | Read d f => Cst (base s) (new s) (File d f :: seen s) (opened s)
  end.
Definition ok_act (a : act) (s : cst) : Prop :=
  match a with
  | Coll (FOpen d f) | OpenW d f => base s (Dir d) = true /\ ~ In (File d f) (seen s)
  | Coll c => sync c = true -> opened s = []
  | Read d f => base s (File d f) = true /\ ~ In (File d f) (new s)
  | _ => True
  end.
Definition after1 (i : item) (s : cst) : cst :=
  match i with
  | Every a => after_act None a s
  | Only r a => after_act (Some r) a s
  | Looks d f b => Cst (base s) (new s) (File d f :: seen s) (opened s)
  end.
Definition ok1 (size : nat) (i : item) (s : cst) : Prop :=
  match i with
  | Every a => ok_act a s
  | Only r a => r < size /\ is_coll a = false /\ ok_act a s
  | Looks d f b => base s (File d f) = b /\ (b = false -> ~ In (File d f) (new s))
  end.
Fixpoint after (p : list item) (s : cst) : cst := match p with [] => s | i :: p => after p (after1 i s) end.
Fixpoint safe (size : nat) (p : list item) (s : cst) : Prop := match p with [] => True | i :: p => ok1 size i s /\ safe size p (after1 i s) end.
Lemma after_app : forall p q s, after (p ++ q) s = after q (after p s).
Proof. induction p; cbn; auto. Qed.
Lemma safe_app : forall size p q s, safe size (p ++ q) s <-> safe size p s /\ safe size q (after p s).
Proof. induction p; cbn; intros; [tauto|]. rewrite IHp; tauto. Qed.

(* ---- what a plan creates, its calls, its synchronisations ---- *)
Definition made (h : list ev) : list entry := flat_map (fun e => match e with Did a => creates a | Saw _ _ _ => [] end) h.
Definition nsync (h : list ev) : nat := length (filter sync (calls h)).
Definition act_of (i : item) : option act := match i with Every a | Only _ a => Some a | Looks _ _ _ => None end.
Definition pmade (p : list item) : list entry := flat_map (fun i => match act_of i with Some a => creates a | None => [] end) p.
Definition pcalls (p : list item) : list call := flat_map (fun i => match i with Every (Coll c) => [c] | _ => [] end) p.
Definition psync (p : list item) : nat := length (filter sync (pcalls p)).
Definition is_sync (i : item) : bool := match i with Every (Coll c) => sync c | _ => false end.
Definition no_only_coll (p : list item) : Prop := forall r c, ~ In (Only r (Coll c)) p.
Lemma calls_app : forall a b, calls (a ++ b) = calls a ++ calls b.
Proof. intros; apply flat_map_app. Qed.
Lemma made_app : forall a b, made (a ++ b) = made a ++ made b.
Proof. intros; apply flat_map_app. Qed.
Lemma pmade_app : forall a b, pmade (a ++ b) = pmade a ++ pmade b.
Proof. intros; apply flat_map_app. Qed.
Lemma proj_app : forall r a b, proj r (a ++ b) = proj r a ++ proj r b.
Proof. intros; apply flat_map_app. Qed.
Lemma pcalls_app : forall a b, pcalls (a ++ b) = pcalls a ++ pcalls b.
Proof. intros; apply flat_map_app. Qed.
Lemma nsync_app : forall a b, nsync (a ++ b) = nsync a + nsync b.
Proof. intros; unfold nsync; rewrite calls_app, filter_app, app_length; auto. Qed.
Lemma psync_app : forall a b, psync (a ++ b) = psync a + psync b.
Proof. intros; unfold psync; rewrite pcalls_app, filter_app, app_length; auto. Qed.
Lemma proj_cons : forall r i p, proj r (i :: p) = proj1 r i ++ proj r p.
Proof. reflexivity. Qed.
Lemma pcalls_cons : forall i p, pcalls (i :: p) = (match i with Every (Coll c) => [c] | _ => [] end) ++ pcalls p.
Proof. reflexivity. Qed.
Lemma pmade_cons : forall i p, pmade (i :: p) = (match act_of i with Some a => creates a | None => [] end) ++ pmade p.
Proof. reflexivity. Qed.
Lemma calls_Did : forall a, calls [Did a] = match a with Coll c => [c] | _ => [] end.
Proof. intros [| | | |]; reflexivity. Qed.
Lemma made_Did : forall a, made [Did a] = creates a.
Proof. intros; cbn; apply app_nil_r. Qed.
Lemma calls_proj : forall r p, no_only_coll p -> calls (proj r p) = pcalls p.
Proof.
intros r p; induction p as [|i p IH]; intros H; auto.
rewrite proj_cons, pcalls_cons, calls_app, IH by (intros q c Hi; apply (H q c); right; auto); f_equal.
destruct i as [a|q a|d f b]; cbn; auto; try (destruct a; auto; fail).
destruct (q =? r); cbn; auto. destruct a; cbn; auto. exfalso; apply (H q c); left; auto.
Qed.
Lemma nsync_proj : forall r p, no_only_coll p -> nsync (proj r p) = psync p.
Proof. intros; unfold nsync, psync; rewrite calls_proj; auto. Qed.
Lemma safe_no_only : forall size p s, safe size p s -> no_only_coll p.
Proof.
induction p as [|i p IH]; intros s H r c Hi; destruct Hi; cbn in H; destruct H as [H1 H2].
- subst i; cbn in H1; destruct H1 as [_ [H1 _]]; discriminate.
- eapply IH; eauto.
Qed.
Lemma made_proj : forall r p e, In e (made (proj r p)) -> In e (pmade p).
Proof.
induction p as [|i p IH]; intros e H; auto. rewrite proj_cons, made_app, in_app_iff in H; rewrite pmade_cons; apply in_app_iff; destruct H as [H|H]; [left|right; auto].
destruct i as [a|q a|]; cbn in *; auto; [rewrite app_nil_r in H; auto|].
destruct (q =? r); cbn in *; [rewrite app_nil_r in H; auto|contradiction].
Qed.
Lemma pmade_proj : forall size p s e, safe size p s -> 0 < size -> In e (pmade p) -> exists r, r < size /\ In e (made (proj r p)).
Proof.
induction p as [|i p IH]; intros s e H Hs Hi; [contradiction|]. destruct H as [H1 H2]; rewrite pmade_cons in Hi; apply in_app_iff in Hi; destruct Hi as [Hi|Hi].
- destruct i as [a|q a|]; cbn in Hi; [exists 0|exists q|contradiction].
  + split; auto; rewrite proj_cons, made_app; apply in_or_app; left; cbn; rewrite app_nil_r; auto.
  + rewrite proj_cons; cbn [proj1]; rewrite Nat.eqb_refl; split; [cbn in H1; tauto|]; rewrite made_app; apply in_or_app; left; cbn; rewrite app_nil_r; auto.
- destruct (IH _ _ H2 Hs Hi) as [r [Hr Hm]]; exists r; split; auto; rewrite proj_cons, made_app; apply in_or_app; auto.
Qed.

(* the state of the checker in terms of the plan executed so far *)
Lemma after_base : forall size p s, safe size p s -> forall e, base (after p s) e = true -> base s e = true \/ In e (new s) \/ In e (pmade p).
Proof.
induction p as [|i p IH]; cbn; intros s H e He; auto. destruct H as [H1 H2].
destruct (IH _ H2 _ He) as [Hb|[Hn|Hm]]; [| |right; right; apply in_or_app; auto].
- destruct i as [a|q a|d f b]; cbn in *; auto; destruct a as [c| | | |]; cbn in *; auto; destruct c; cbn in *; auto;
  unfold add, mem in Hb; destruct (in_dec entry_eq_dec e (new s)); auto; rewrite orb_false_r in Hb; auto.
- destruct i as [a|q a|d f b]; cbn in *; auto; destruct a as [c| | | |]; cbn in *; auto; try destruct c; cbn in *; tauto.
Qed.
Lemma after_new : forall size p s, safe size p s -> forall e, In e (new (after p s)) -> In e (new s) \/ In e (pmade p).
Proof.
induction p as [|i p IH]; cbn; intros s H e He; auto. destruct H as [H1 H2].
destruct (IH _ H2 _ He) as [Hn|Hm]; [|right; apply in_or_app; auto].
destruct i as [a|q a|d f b]; cbn in *; auto; destruct a as [c| | | |]; cbn in *; auto; try destruct c; cbn in *; tauto.
Qed.
Definition vis (s : cst) (e : entry) : bool := add (base s) (new s) e.
Lemma mem_In : forall e l, mem e l = true <-> In e l.
Proof. intros; unfold mem; destruct (in_dec entry_eq_dec e l); split; auto; discriminate. Qed.
Lemma vis_spec : forall s e, vis s e = true <-> base s e = true \/ In e (new s).
Proof. intros; unfold vis, add; rewrite orb_true_iff, mem_In; tauto. Qed.
Lemma vis_after1 : forall i s e, vis (after1 i s) e = true <-> vis s e = true \/ In e (match act_of i with Some a => creates a | None => [] end).
Proof.
intros i s e; rewrite !vis_spec.
destruct i as [a|q a|d f b]; cbn; [| |tauto]; destruct a as [c| | | |]; cbn; try tauto; destruct c; cbn; try tauto;
unfold add; rewrite orb_true_iff, mem_In; tauto.
Qed.
Lemma vis_after : forall p s e, vis (after p s) e = true <-> vis s e = true \/ In e (pmade p).
Proof.
induction p as [|i p IH]; cbn; intros s e; [tauto|]. rewrite IH, vis_after1, in_app_iff; tauto.
Qed.

(* splitting at the last synchronisation: the checker's base is what was made before it *)
Fixpoint upto_last (p : list item) : list item :=   (* up to and including the last synchronisation *)
  match p with
  | [] => []
  | i :: p' => match upto_last p' with [] => if is_sync i then [i] else [] | q => i :: q end
  end.
Fixpoint tail_last (p : list item) : list item :=
  match p with [] => [] | i :: p' => match upto_last p' with [] => if is_sync i then p' else i :: p' | _ => tail_last p' end end.
Lemma upto_tail : forall p, p = upto_last p ++ tail_last p.
Proof.
induction p as [|i p IH]; cbn; auto. destruct (upto_last p) eqn:E; [destruct (is_sync i); auto|].
rewrite IH at 1; reflexivity.
Qed.
Lemma is_sync_psync : forall i, psync [i] = if is_sync i then 1 else 0.
Proof. intros [a|q a|d f b]; cbn; auto. destruct a as [c| | | |]; auto. unfold psync; cbn. destruct (sync c); auto. Qed.
Lemma psync_cons : forall i p, psync (i :: p) = (if is_sync i then 1 else 0) + psync p.
Proof. intros; change (i :: p) with ([i] ++ p); rewrite psync_app, is_sync_psync; auto. Qed.
Lemma upto_nil_sync : forall p, upto_last p = [] -> psync p = 0.
Proof.
induction p as [|i p IH]; intros H; auto. cbn [upto_last] in H. destruct (upto_last p) eqn:E; [|discriminate].
destruct (is_sync i) eqn:Ei; [discriminate|]. rewrite psync_cons, Ei, IH; auto.
Qed.
Lemma tail_sync : forall p, psync (tail_last p) = 0.
Proof.
induction p as [|i p IH]; auto. cbn [tail_last]. destruct (upto_last p) eqn:E; auto.
apply upto_nil_sync in E. destruct (is_sync i) eqn:Ei; auto. rewrite psync_cons, Ei; auto.
Qed.
Lemma upto_sync : forall p, psync (upto_last p) = psync p.
Proof. intros p; rewrite (upto_tail p) at 2; rewrite psync_app, tail_sync; lia. Qed.
Lemma sync_after : forall i s, is_sync i = true -> base (after1 i s) = add (base s) (new s) /\ new (after1 i s) = [] /\ seen (after1 i s) = [] /\ opened (after1 i s) = opened s.
Proof. intros [a|q a|d f b] s H; cbn in *; try discriminate. destruct a as [c| | | |]; try discriminate. destruct c; cbn in *; auto; discriminate. Qed.
Lemma nosync_after : forall i s, is_sync i = false -> (forall r c, i <> Only r (Coll c)) -> base (after1 i s) = base s /\
  new (after1 i s) = (match act_of i with Some a => creates a | None => [] end) ++ new s /\ incl (seen s) (seen (after1 i s)).
Proof.
intros [a|q a|d f b] s H Hn; cbn in *.
- destruct a as [c| | | |]; cbn; repeat split; auto using incl_refl, incl_tl; try (destruct c; cbn in *; try discriminate; auto using incl_refl).
- destruct a as [c| | | |]; cbn; repeat split; auto using incl_refl, incl_tl; exfalso; eapply Hn; eauto.
- repeat split; auto using incl_refl, incl_tl.
Qed.
Lemma nosync_seg : forall p s, no_only_coll p -> psync p = 0 ->
  base (after p s) = base s /\ (forall e, In e (new (after p s)) <-> In e (new s) \/ In e (pmade p)) /\ incl (seen s) (seen (after p s)).
Proof.
induction p as [|i p IH]; cbn [after]; intros s Hn Hp; [cbn; repeat split; auto using incl_refl; tauto|].
rewrite psync_cons in Hp; destruct (is_sync i) eqn:Ei; [discriminate|].
assert (Hi : forall r c, i <> Only r (Coll c)) by (intros r c E; apply (Hn r c); left; auto).
destruct (@nosync_after i s Ei Hi) as [H1 [H2 H3]].
destruct (IH (after1 i s)) as [H4 [H5 H6]]; auto; [intros r c E; apply (Hn r c); right; auto|].
split; [congruence|split; [|eapply incl_tran; eauto]].
intros e; rewrite H5, H2, pmade_cons, !in_app_iff; tauto.
Qed.
(* at the end of upto_last p nothing is pending *)
Lemma after_upto : forall p s, upto_last p <> [] -> new (after (upto_last p) s) = [] /\ seen (after (upto_last p) s) = [].
Proof.
induction p as [|i p IH]; cbn; intros s H; [congruence|].
destruct (upto_last p) as [|j l] eqn:E.
- destruct (is_sync i) eqn:Ei; [|congruence]. cbn. destruct (@sync_after i s Ei) as [H1 [H2 [H3 H4]]]; auto.
- cbn. apply (IH (after1 i s)); discriminate.
Qed.
Lemma base_upto : forall p s, no_only_coll p -> new s = [] ->
  forall e, base (after p s) e = true <-> base s e = true \/ In e (pmade (upto_last p)).
Proof.
intros p s Hn Hs e. rewrite (upto_tail p) at 1; rewrite after_app.
assert (Hn2 : no_only_coll (tail_last p)) by (intros r c Hi; apply (Hn r c); rewrite (upto_tail p); apply in_or_app; auto).
destruct (nosync_seg (after (upto_last p) s) Hn2 (tail_sync p)) as [-> _].
destruct (upto_last p) as [|i l] eqn:E; [cbn; tauto|].
assert (Hne : upto_last p <> []) by congruence.
destruct (@after_upto p s Hne) as [H1 _]. rewrite E in H1.
generalize (vis_after (i :: l) s e); rewrite !vis_spec, H1, Hs; cbn; tauto.
Qed.
Lemma new_tail : forall p s, no_only_coll p -> new s = [] -> forall e, In e (new (after p s)) <-> In e (pmade (tail_last p)).
Proof.
intros p s Hn Hs e. rewrite (upto_tail p) at 1; rewrite after_app.
assert (Hn2 : no_only_coll (tail_last p)) by (intros r c Hi; apply (Hn r c); rewrite (upto_tail p); apply in_or_app; auto).
destruct (nosync_seg (after (upto_last p) s) Hn2 (tail_sync p)) as [_ [H _]]. rewrite H.
destruct (upto_last p) as [|i l] eqn:E; [cbn; rewrite Hs; cbn; tauto|].
assert (Hne : upto_last p <> []) by congruence.
destruct (@after_upto p s Hne) as [H1 _]. rewrite E in H1; rewrite H1; cbn; tauto.
Qed.
(* an entry that was looked at is not made in the rest of the epoch *)
Fixpoint seg (p : list item) : list item := match p with [] => [] | i :: p => if is_sync i then [i] else i :: seg p end.
Lemma seen_seg : forall size p s d f, safe size p s -> In (File d f) (seen s) -> ~ In (File d f) (pmade (seg p)).
Proof.
induction p as [|i p IH]; intros s d f H Hin; auto. destruct H as [H1 H2]. cbn [seg].
destruct (is_sync i) eqn:Ei.
- rewrite pmade_cons, app_nil_r. destruct i as [a| |]; try discriminate. destruct a as [c| | | |]; try discriminate. destruct c; try discriminate; cbn; auto.
- rewrite pmade_cons, in_app_iff; intros [Hi|Hi].
  + destruct i as [a|q a|]; cbn in *; auto.
    * destruct a as [c| | | |]; cbn in *; auto; [destruct c; cbn in *; auto| |]; destruct Hi as [Hi|[]]; try discriminate; injection Hi; intros; subst; tauto.
    * destruct a as [c| | | |]; cbn in *; auto; [destruct H1 as [_ [H1 _]]; discriminate| |]; destruct Hi as [Hi|[]]; try discriminate; injection Hi; intros; subst; tauto.
  + revert Hi; apply IH with (after1 i s); auto.
    destruct (@nosync_after i s Ei) as [_ [_ H3]]; auto. intros r c E; subst i; cbn in H1; destruct H1 as [_ [H1 _]]; discriminate.
Qed.

(* ---- open files ---- *)
Definition whose (q : nat) (e : entry) (x : option nat * entry) : bool :=
  (match fst x with None => true | Some r => r =? q end) && (if entry_eq_dec e (snd x) then true else false).
Definition cnt (q : nat) (e : entry) (l : list (option nat * entry)) : nat := length (filter (whose q e) l).
Lemma cnt_remove : forall q e x l, cnt q e l <= cnt q e (remove1 x l) + (if whose q e x then 1 else 0).
Proof.
intros q e x l; unfold cnt; induction l as [|y l IH]; cbn; [lia|].
destruct (who_eq_dec x y) as [->|H]; [destruct (whose q e y); cbn; lia|]. cbn; destruct (whose q e y); cbn; lia.
Qed.
Lemma filter_app_len : forall (A : Type) (P : A -> bool) a b, length (filter P (a ++ b)) = length (filter P a) + length (filter P b).
Proof. intros; rewrite filter_app, app_length; auto. Qed.
Lemma opened_step : forall size i s q e, ok1 size i s ->
  opens e (proj1 q i) + cnt q e (opened s) <= closes e (proj1 q i) + cnt q e (opened (after1 i s)).
Proof.
intros size i s q e H.
assert (Hgen : forall w a, (match a with Coll c => w = None | _ => True end) ->
  (if match w with None => true | Some r => r =? q end then opens e [Did a] else 0) + cnt q e (opened s)
  <= (if match w with None => true | Some r => r =? q end then closes e [Did a] else 0) + cnt q e (opened (after_act w a s))).
{ intros w a Hw. unfold opens, closes. set (W := match w with None => true | Some r => r =? q end).
  assert (HO : forall d f, cnt q e ((w, File d f) :: opened s) = (if W && (if entry_eq_dec e (File d f) then true else false) then 1 else 0) + cnt q e (opened s))
    by (intros d f; unfold cnt; cbn; unfold whose at 1; cbn; fold W; destruct (W && _); cbn; auto).
  assert (HC : forall d f, cnt q e (opened s) <= cnt q e (remove1 (w, File d f) (opened s)) + (if W && (if entry_eq_dec e (File d f) then true else false) then 1 else 0))
    by (intros d f; generalize (cnt_remove q e (w, File d f) (opened s)); unfold whose; cbn; auto).
  destruct a as [c|d|d f|d f|d f]; [destruct c as [| | | | | | |d f| | | | |d f]|..]; cbn -[remove1 cnt]; try (destruct W; cbn; lia).
  - rewrite HO; destruct W; cbn; destruct (entry_eq_dec e (File d f)); cbn; lia.
  - generalize (HC d f); destruct W; cbn; destruct (entry_eq_dec e (File d f)); cbn; lia.
  - rewrite HO; destruct W; cbn; destruct (entry_eq_dec e (File d f)); cbn; lia.
  - generalize (HC d f); destruct W; cbn; destruct (entry_eq_dec e (File d f)); cbn; lia. }
destruct i as [a|r a|d f b]; cbn [proj1 after1].
- apply (Hgen None a). destruct a; auto.
- cbn in H; destruct H as [_ [H _]]. assert (Hg := Hgen (Some r) a); cbn match in Hg.
  destruct (r =? q); (destruct a; [discriminate|..]; apply Hg; auto).
- cbn [opened]. apply Nat.add_le_mono_r; cbn; auto.
Qed.
Lemma opened_plan : forall size p s q e, safe size p s ->
  opens e (proj q p) + cnt q e (opened s) <= closes e (proj q p) + cnt q e (opened (after p s)).
Proof.
induction p as [|i p IH]; intros s q e H; [cbn; auto|]. destruct H as [H1 H2]. rewrite proj_cons. cbn [after].
generalize (@opened_step size i s q e H1) (IH _ q e H2); unfold opens, closes; rewrite !filter_app_len; lia.
Qed.
Lemma opened_upto : forall size p s, safe size p s -> upto_last p <> [] -> opened (after (upto_last p) s) = [].
Proof.
induction p as [|i p IH]; cbn [upto_last]; intros s H Hne; [congruence|]. destruct H as [H1 H2].
destruct (upto_last p) as [|j l] eqn:E.
- destruct (is_sync i) eqn:Ei; [|congruence]. cbn [after]. destruct (@sync_after i s Ei) as [_ [_ [_ ->]]].
  destruct i as [a| |]; try discriminate. destruct a as [c| | | |]; try discriminate. cbn in *. destruct c; try discriminate; auto.
- cbn [after]. apply (IH (after1 i s)); auto; discriminate.
Qed.
Lemma upto_closed : forall size p s q e, safe size p s -> opened s = [] -> opens e (proj q (upto_last p)) <= closes e (proj q (upto_last p)).
Proof.
intros size p s q e H Ho. destruct (upto_last p) as [|i l] eqn:E; [cbn; auto|]. rewrite <- E.
assert (H1 : safe size (upto_last p) s) by (rewrite (upto_tail p) in H; apply safe_app in H; tauto).
assert (Hne : upto_last p <> []) by congruence.
generalize (@opened_plan size _ s q e H1); rewrite (@opened_upto size p s H Hne), Ho; cbn; lia.
Qed.
Lemma new_no_open : forall q p d f, ~ In (File d f) (pmade p) -> opens (File d f) (proj q p) = 0.
Proof.
induction p as [|i p IH]; intros d f H; auto. rewrite pmade_cons, in_app_iff in H. rewrite proj_cons; unfold opens; rewrite filter_app_len.
fold (opens (File d f) (proj q p)); rewrite IH by tauto.
assert (Hd : forall a, ~ In (File d f) (creates a) -> length (filter (opening (File d f)) [Did a]) = 0).
{ intros a Ha; cbn. destruct a as [c| | | |]; cbn in *; auto; [destruct c; cbn in *; auto|];
  match goal with |- context [entry_eq_dec ?x ?y] => destruct (entry_eq_dec x y) as [E|E]; [exfalso; apply Ha; left; congruence|auto] end. }
destruct i as [a|r a|d' f' b]; cbn [proj1 act_of] in *; [rewrite Hd; tauto| |reflexivity].
destruct (r =? q); [rewrite Hd; tauto|reflexivity].
Qed.

(* ---- prefixes ---- *)
Lemma app_split : forall (A : Type) (a b c d : list A), a ++ b = c ++ d -> (exists x, c = a ++ x) \/ (exists x, x <> [] /\ a = c ++ x).
Proof.
induction a as [|x a IH]; intros b c d H; [left; exists c; auto|].
destruct c as [|y c]; [right; exists (x :: a); split; auto; discriminate|].
cbn in H; injection H; intros H1 H2; subst y. destruct (IH _ _ _ H1) as [[z Hz]|[z [Hz1 Hz2]]]; [left; exists z; subst; auto|right; exists z; split; subst; auto].
Qed.
Definition ends_sync (h : list ev) : Prop := exists g c, sync c = true /\ h = g ++ [Did (Coll c)].
Lemma suffix_sync : forall h a x, ends_sync h -> h = a ++ x -> x <> [] -> 1 <= nsync x.
Proof.
intros h a x [g [c [Hc E]]] E2 Hx. destruct (exists_last Hx) as [y [z Ez]]. subst x. rewrite E in E2; rewrite app_assoc in E2.
apply app_inj_tail in E2; destruct E2 as [_ E2]; subst z. rewrite nsync_app. unfold nsync at 2; cbn; rewrite Hc; cbn; lia.
Qed.
Lemma upto_ends : forall q p, upto_last p <> [] -> ends_sync (proj q (upto_last p)).
Proof.
induction p as [|i p IH]; cbn [upto_last]; intros H; [congruence|].
destruct (upto_last p) as [|j l] eqn:E.
- destruct (is_sync i) eqn:Ei; [|congruence]. destruct i as [a| |]; try discriminate. destruct a as [c| | | |]; try discriminate.
  exists [], c; split; auto.
- destruct IH as [g [c [Hc Hg]]]; [discriminate|]. exists (proj1 q i ++ g), c; split; auto. rewrite proj_cons, Hg, app_assoc; auto.
Qed.
Lemma seg_split : forall p, exists r, p = seg p ++ r /\ (r = [] \/ psync (seg p) = 1).
Proof.
induction p as [|i p IH]; cbn [seg]; [exists []; auto|]. destruct (is_sync i) eqn:Ei.
- exists p; split; auto. right. rewrite psync_cons, Ei; auto.
- destruct IH as [r [H1 H2]]; exists r; split; [cbn; rewrite <- H1; auto|]. destruct H2 as [H2|H2]; auto. right. rewrite psync_cons, Ei; auto.
Qed.
Lemma seg_nosync_app : forall a b, psync a = 0 -> seg (a ++ b) = a ++ seg b.
Proof.
induction a as [|i a IH]; intros b H; auto. rewrite psync_cons in H. cbn [app seg]. destruct (is_sync i); [discriminate|]. rewrite IH; auto.
Qed.
Lemma proj_split : forall r p h e rest, proj r p = h ++ e :: rest ->
  exists A i B, p = A ++ i :: B /\ proj r A = h /\ proj1 r i = [e] /\ proj r B = rest.
Proof.
induction p as [|i p IH]; intros h e rest H; [destruct h; discriminate|].
rewrite proj_cons in H. assert (Hl : proj1 r i = [] \/ exists x, proj1 r i = [x]) by (destruct i as [a|q a|]; cbn; eauto; destruct (q =? r); eauto).
destruct Hl as [E|[x E]]; rewrite E in H; cbn in H.
- destruct (IH _ _ _ H) as [A [j [B [H1 [H2 [H3 H4]]]]]]. exists (i :: A), j, B; repeat split; auto; [subst; auto|rewrite proj_cons, E; auto].
- destruct h as [|y h]; cbn in H; injection H; intros; subst.
  + exists [], i, p; repeat split; auto.
  + destruct (IH _ _ _ H0) as [A [j [B [H1 [H2 [H3 H4]]]]]]. exists (i :: A), j, B; repeat split; auto; [subst; auto|rewrite proj_cons, E, H2; auto].
Qed.
