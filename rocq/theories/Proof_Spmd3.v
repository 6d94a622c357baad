(* The plans of the calls of PySPOD, and that they are safe. *)
From Coq Require Import String Bool Arith Lia List.
From Verif Require Import Model_Spmd Spec_Spmd Proof_Spmd Proof_Spmd2.
Import ListNotations.
Set Implicit Arguments.

Definition every (l : list act) : list item := map Every l.
Definition r0 (l : list act) : list item := map (Only 0) l.
Lemma every_app : forall a b, every (a ++ b) = every a ++ every b.
Proof. intros; apply map_app. Qed.
Lemma proj_every : forall r l, proj r (every l) = map Did l.
Proof. intros r l; unfold every; induction l as [|a l IH]; auto. cbn [map]. rewrite proj_cons, IH; auto. Qed.
Lemma proj_r0 : forall r l, proj r (r0 l) = map Did (rank0 r l).
Proof.
intros r l; unfold rank0, r0; destruct r as [|r]; cbn [Nat.eqb]; induction l as [|a l IH]; auto; cbn [map] in *; rewrite proj_cons, IH; auto.
Qed.
Lemma follows_does : forall l k e, follows k e -> follows (does l k) (map Did l ++ e).
Proof. induction l as [|a l IH]; cbn; intros; auto. constructor; auto. Qed.
Lemma does_app : forall a b k, does (a ++ b) k = does a (does b k).
Proof. induction a; cbn; intros; auto. rewrite IHa; auto. Qed.
Lemma base_mono1 : forall i s e, base s e = true -> base (after1 i s) e = true.
Proof.
intros i s e H. destruct i as [a|q a|d f b]; cbn; auto; destruct a as [c| | | |]; cbn; auto; destruct c; cbn; auto; unfold add; rewrite H; auto.
Qed.
Lemma base_mono : forall p s e, base s e = true -> base (after p s) e = true.
Proof. induction p as [|i p IH]; cbn; intros; auto. apply IH, base_mono1; auto. Qed.

Section Triples.
Variable size : nat.
Hypothesis Hsize : 0 < size.
(* nothing is open *)
Definition tri0 (need : list entry) (p : list item) : Prop :=
  forall s, opened s = [] -> (forall e, In e need -> base s e = true) -> safe size p s /\ opened (after p s) = [].
(* nothing is open and nothing was looked at since the last synchronisation *)
Definition tri1 (need : list entry) (p : list item) : Prop :=
  forall s, opened s = [] -> seen s = [] -> (forall e, In e need -> base s e = true) -> safe size p s /\ opened (after p s) = [] /\ seen (after p s) = [].
Definition clean (s : cst) : Prop := opened s = [] /\ seen s = [] /\ new s = [].
Lemma tri0_nil : forall need, tri0 need [].
Proof. intros need s H _; cbn; auto. Qed.
Lemma tri1_nil : forall need, tri1 need [].
Proof. intros need s H1 H2 _; cbn; auto. Qed.
Lemma tri0_app : forall need p q, tri0 need p -> tri0 need q -> tri0 need (p ++ q).
Proof.
intros need p q Hp Hq s Ho Hn. destruct (Hp s Ho Hn) as [H1 H2]. destruct (Hq (after p s) H2) as [H3 H4]; [intros; apply base_mono; auto|].
rewrite safe_app, after_app; auto.
Qed.
Lemma tri1_app : forall need p q, tri1 need p -> tri1 need q -> tri1 need (p ++ q).
Proof.
intros need p q Hp Hq s Ho Hs Hn. destruct (Hp s Ho Hs Hn) as [H1 [H2 H2']]. destruct (Hq (after p s) H2 H2') as [H3 H4]; [intros; apply base_mono; auto|].
rewrite safe_app, after_app; auto.
Qed.
Lemma tri0_flat : forall (A : Type) need (g : A -> list item) l, (forall x, In x l -> tri0 need (g x)) -> tri0 need (flat_map g l).
Proof. intros A need g l; induction l as [|x l IH]; cbn; intros H; [apply tri0_nil|]. apply tri0_app; auto. Qed.
Lemma tri1_flat : forall (A : Type) need (g : A -> list item) l, (forall x, In x l -> tri1 need (g x)) -> tri1 need (flat_map g l).
Proof. intros A need g l; induction l as [|x l IH]; cbn; intros H; [apply tri1_nil|]. apply tri1_app; auto. Qed.
Lemma tri_weaken : forall need need' p, incl need need' -> tri1 need p -> tri1 need' p.
Proof. intros need need' p Hi H s Ho Hs Hn; apply H; auto. Qed.
Definition quiet (c : call) : bool := match c with FOpen _ _ | FClose _ _ => false | _ => true end.
Lemma tri1_quiet : forall need c, quiet c = true -> tri1 need (every [Coll c]).
Proof. intros need c Hc s Ho Hs _. destruct c; try discriminate; cbn; rewrite ?Ho, ?Hs; auto. Qed.
Lemma tri1_mk : forall need d, tri1 need (r0 [Makedirs d]).
Proof. intros need d s Ho Hs _; cbn; rewrite Ho, Hs; auto. Qed.
Lemma remove1_hd : forall x l, remove1 x (x :: l) = l.
Proof. intros x l; cbn [remove1]. destruct (who_eq_dec x x); congruence. Qed.
Lemma tri1_write : forall need q d f, q < size -> In (Dir d) need -> tri1 need (map (Only q) (write d f)).
Proof.
intros need q d f Hq Hn s Ho Hs Hb; cbn -[remove1]. rewrite Hs, Ho, remove1_hd. repeat split; auto.
Qed.
Lemma tri1_write_all : forall need d f, In (Dir d) need -> tri1 need (every (write d f)).
Proof.
intros need d f Hn s Ho Hs Hb; cbn -[remove1]. rewrite Hs, Ho, remove1_hd. repeat split; auto.
Qed.
Lemma npy_ok : forall need d f, In (Dir d) need -> tri0 need (every (npy_save d f)) /\ tri1 need (every (npy_save d f)).
Proof.
intros need d f Hn; split; [intros s Ho Hb|intros s Ho Hs Hb]; cbn -[remove1 add]; rewrite Ho, remove1_hd; unfold add; rewrite (Hb _ Hn); cbn;
repeat split; auto; intros; discriminate.
Qed.
(* a synchronisation cleans up *)
Lemma sync_clean : forall c s, sync c = true -> opened s = [] -> ok1 size (Every (Coll c)) s /\ clean (after1 (Every (Coll c)) s).
Proof. intros c s Hc Ho. unfold clean. destruct c; try discriminate; cbn; auto. Qed.
(* base when clean *)
Lemma clean_base : forall p s, clean s -> new (after p s) = [] -> forall e, base (after p s) e = true <-> base s e = true \/ In e (pmade p).
Proof. intros p s [_ [_ Hn]] Hn' e. generalize (vis_after p s e). rewrite !vis_spec, Hn, Hn'; cbn; tauto. Qed.
(* a plan that ends in a barrier leaves a clean state *)
Lemma end_barrier : forall p s, safe size p s -> opened (after p s) = [] -> safe size (p ++ every [Coll Barrier]) s /\ clean (after (p ++ every [Coll Barrier]) s).
Proof. intros p s Hp Ho. rewrite safe_app, after_app. destruct (@sync_clean Barrier (after p s) eq_refl Ho) as [H1 H2]. cbn; repeat split; auto; apply H2. Qed.
(* reading files that are there *)
Lemma reads_ok : forall l s, new s = [] -> (forall a, In a l -> exists d f, a = Read d f /\ base s (File d f) = true) ->
  safe size (every l) s /\ opened (after (every l) s) = opened s /\ new (after (every l) s) = [] /\ base (after (every l) s) = base s.
Proof.
induction l as [|a l IH]; intros s Hn H; [cbn; auto|]. destruct (H a (or_introl eq_refl)) as [d [f [-> Hb]]].
cbn [every map safe after after1 after_act]. destruct (IH (Cst (base s) (new s) (File d f :: seen s) (opened s))) as [H1 [H2 [H3 H4]]]; auto; [intros b Hb'; apply H; right; auto|].
repeat split; auto. cbn. rewrite Hn; auto.
Qed.
Lemma looks_ok : forall (l : list (folder * fname)) s (D : disk), new s = [] -> (forall x, In x l -> base s (File (fst x) (snd x)) = D (File (fst x) (snd x))) ->
  safe size (map (fun x => Looks (fst x) (snd x) (D (File (fst x) (snd x)))) l) s
  /\ opened (after (map (fun x => Looks (fst x) (snd x) (D (File (fst x) (snd x)))) l) s) = opened s
  /\ new (after (map (fun x => Looks (fst x) (snd x) (D (File (fst x) (snd x)))) l) s) = []
  /\ base (after (map (fun x => Looks (fst x) (snd x) (D (File (fst x) (snd x)))) l) s) = base s.
Proof.
induction l as [|x l IH]; intros s D Hn H; [cbn; auto|]. cbn [map safe after after1].
destruct (IH (Cst (base s) (new s) (File (fst x) (snd x) :: seen s) (opened s)) D) as [H1 [H2 [H3 H4]]]; auto; [intros y Hy; apply H; right; auto|].
repeat split; auto; [apply H; left; auto|]. rewrite Hn; auto.
Qed.
End Triples.
