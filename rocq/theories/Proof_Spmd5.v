(* The plans of the calls of PySPOD are safe, and what they make. *)
From Coq Require Import String Bool Arith Lia List.
From Verif Require Import Model_Spmd Spec_Spmd Proof_Spmd Proof_Spmd2 Proof_Spmd3 Proof_Spmd4.
Import ListNotations.
Set Implicit Arguments.

Section Safe.
Variable size : nat.
Hypothesis Hsize : 0 < size.
Lemma tri1_r0s : forall need ds, tri1 size need (r0 (map Makedirs ds)).
Proof. intros need ds; induction ds as [|d ds IH]; [apply tri1_nil|]. change (r0 (map Makedirs (d :: ds))) with (r0 [Makedirs d] ++ r0 (map Makedirs ds)). apply tri1_app; auto. apply tri1_mk; auto. Qed.
Definition folder_list (c : fitcfg) : list folder := [f_dir c; modes_dir (f_dir c)] ++ if f_savefft c then [blocks_dir (f_dir c)] else [].
Lemma folders_map : forall c, folders c = map Makedirs (folder_list c).
Proof. intros c; unfold folders, folder_list; destruct (f_savefft c); auto. Qed.
Lemma pmade_r0 : forall ds, pmade (r0 (map Makedirs ds)) = map Dir ds.
Proof. unfold r0; induction ds as [|d ds IH]; auto. cbn [map]. rewrite pmade_cons, IH; auto. Qed.
Lemma quiet_src : forall c st, all_quiet (reader_init (f_src c) ++ (if st : bool then distribute else get_data (f_src c)) ++ distribute ++ norm_calls c) = true.
Proof.
intros c st. repeat apply quiet_app; try reflexivity.
- destruct (f_src c); try reflexivity; apply quiet_reps; reflexivity.
- destruct st; try reflexivity. destruct (f_src c); [apply quiet_reps; reflexivity| |]; apply quiet_app; try reflexivity; apply quiet_reps; reflexivity.
- unfold norm_calls. destruct (f_norm c); [apply quiet_reps|]; reflexivity.
Qed.
Lemma barrier_end : forall need p s, tri1 size need p -> clean s -> (forall e, In e need -> base s e = true) ->
  safe size (p ++ every [Coll Barrier]) s /\ clean (after (p ++ every [Coll Barrier]) s).
Proof. intros need p s Hp [Ho [Hs _]] Hn. destruct (Hp s Ho Hs Hn) as [H1 [H2 _]]. apply end_barrier; auto. Qed.
Lemma clean_after : forall p s, clean s -> clean (after p s) -> forall e, base (after p s) e = true <-> base s e = true \/ In e (pmade p).
Proof. intros p s H H'; apply clean_base; auto; apply H'. Qed.
Lemma seq_ok : forall p q s, safe size p s -> safe size q (after p s) /\ clean (after q (after p s)) -> safe size (p ++ q) s /\ clean (after (p ++ q) s).
Proof. intros p q s Hp [Hq Hc]. rewrite safe_app, after_app; auto. Qed.
Lemma init_made : forall c st, pmade (init_items c st) = map Dir (folder_list c).
Proof. intros c st. unfold init_items. rewrite !pmade_app, quiet_made by apply quiet_src. rewrite folders_map, pmade_r0. cbn. rewrite app_nil_r; auto. Qed.
Lemma init_ok : forall c st s, clean s -> safe size (init_items c st) s /\ clean (after (init_items c st) s).
Proof.
intros c st s Hc. unfold init_items. rewrite (app_assoc (r0 _)), app_assoc. apply barrier_end with (need := []); auto.
repeat apply tri1_app.
- apply tri1_quiets, quiet_src.
- rewrite folders_map; apply tri1_r0s.
- apply tri1_quiets; reflexivity.
Qed.
Lemma in_pmade_flat : forall (A : Type) (g : A -> list item) l e, In e (pmade (flat_map g l)) <-> exists x, In x l /\ In e (pmade (g x)).
Proof.
intros A g l e; induction l as [|x l IH]; cbn [flat_map]; [split; [intros []|intros [x [[] _]]]|].
rewrite pmade_app, in_app_iff, IH. split.
- intros [H|[y [H1 H2]]]; [exists x|exists y]; split; auto; [left|right]; auto.
- intros [y [[->|H1] H2]]; auto. right; exists y; auto.
Qed.
Lemma every_flat : forall (A : Type) (g : A -> list act) l, every (flat_map g l) = flat_map (fun x => every (g x)) l.
Proof. intros; apply map_flat. Qed.

(* ---- fit ---- *)
Definition fit_need (c : fitcfg) : list entry := map Dir (folder_list c).
Lemma need_dir : forall c, In (Dir (f_dir c)) (fit_need c) /\ In (Dir (modes_dir (f_dir c))) (fit_need c).
Proof. intros; unfold fit_need, folder_list; cbn; auto. Qed.
Lemma tri_store : forall c, tri1 size (fit_need c) (store_items c).
Proof.
intros c. destruct (need_dir c) as [H1 H2]. unfold store_items. repeat apply tri1_app; try (apply npy_ok; auto); try (apply tri1_write; auto). apply tri1_quiets; auto.
Qed.
Lemma tri_freqs : forall c, tri1 size (fit_need c) (flat_map (fun f => every (npy_save (modes_dir (f_dir c)) (Mode f))) (seq 0 (f_nf c))).
Proof. intros c. destruct (need_dir c) as [H1 H2]. apply tri1_flat. intros f _. apply npy_ok; auto. Qed.
Lemma tri_save : forall c, tri1 size (fit_need c) (save_items c size).
Proof.
intros c. destruct (need_dir c) as [H1 H2]. unfold save_items. destruct (f_store c); [apply tri1_nil|apply tri_freqs|].
apply tri1_app; [apply tri1_quiets; auto|]. unfold rounds_items. apply tri1_flat. intros ip _. apply tri1_app; [apply tri1_quiets; auto|].
apply tri1_flat. intros i _. apply tri1_write; auto. apply Nat.mod_upper_bound; lia.
Qed.
Lemma tri_tail : forall c, tri1 size (fit_need c) (fit_tail c size).
Proof. intros c. unfold fit_tail. apply tri1_app; [apply tri1_quiets; auto|apply tri1_app; [apply tri_save|apply tri_store]]. Qed.
Lemma filter_full : forall (A : Type) (p : A -> bool) l, length (filter p l) = length l -> forall x, In x l -> p x = true.
Proof.
intros A p l; induction l as [|y l IH]; cbn; intros H x Hx; [destruct Hx|].
assert (Hl : length (filter p l) <= length l) by (clear; induction l as [|z l IH]; cbn; auto; destruct (p z); cbn; lia).
destruct (p y) eqn:E; cbn in H; [|lia]. destruct Hx as [->|Hx]; auto.
Qed.
Lemma present_blocks : forall c D b f, present c D = true -> b < f_nb c -> f < f_nf c -> D (File (blocks_dir (f_dir c)) (Block b f)) = true.
Proof.
intros c D b f H Hb Hf. apply Nat.eqb_eq in H. assert (Hf1 : full c D b = true) by (apply (filter_full (full c D) (seq 0 (f_nb c))); [rewrite seq_length; auto|apply in_seq; lia]).
apply Nat.eqb_eq in Hf1. apply (filter_full (fun f => D (File (blocks_dir (f_dir c)) (Block b f))) (seq 0 (f_nf c))); [rewrite seq_length; auto|apply in_seq; lia].
Qed.
Lemma blocks_ok : forall c s, clean s -> (forall e, In e (fit_need c) -> base s e = true) ->
  safe size (blocks_items c (base s)) s /\ opened (after (blocks_items c (base s)) s) = [].
Proof.
intros c s [Ho [Hs Hn]] Hb. unfold blocks_items.
assert (Hl : safe size (if f_reuse c then map (look (base s)) (block_files c) else []) s
  /\ opened (after (if f_reuse c then map (look (base s)) (block_files c) else []) s) = opened s
  /\ new (after (if f_reuse c then map (look (base s)) (block_files c) else []) s) = []
  /\ base (after (if f_reuse c then map (look (base s)) (block_files c) else []) s) = base s).
{ destruct (f_reuse c); [|cbn; auto]. apply (@looks_ok size (block_files c) s (base s)); auto. }
destruct Hl as [H1 [H2 [H3 H4]]]. rewrite safe_app, after_app. set (s' := after _ s) in *.
destruct (f_reuse c && present c (base s)) eqn:E.
- apply andb_true_iff in E; destruct E as [_ E]. unfold load_blocks. rewrite every_app, safe_app, after_app.
  match goal with |- context [every ?l] => match l with flat_map _ (seq 0 (f_nb c)) => destruct (@reads_ok size l s') as [R1 [R2 [R3 R4]]]; auto end end.
  + intros a Ha. apply in_flat_map in Ha; destruct Ha as [b [Hb1 Ha]]. apply in_map_iff in Ha; destruct Ha as [f [<- Hf]].
    apply in_seq in Hb1; apply in_seq in Hf. exists (blocks_dir (f_dir c)), (Block b f); split; auto. rewrite H4. apply present_blocks; auto; lia.
  + assert (Q : forall n s1, opened s1 = [] -> safe size (every (reps n distribute)) s1 /\ opened (after (every (reps n distribute)) s1) = []).
    { intros n s1 Ho1. unfold reps. rewrite every_flat. apply (@tri0_flat size nat [] (fun _ => every distribute)); auto.
      intros x _ s2 Ho2 _. destruct (@sync_clean size Barrier s2 eq_refl Ho2) as [Q1 [Q2 _]]. cbn; auto. }
    match goal with |- context [after (every ?l) s'] => destruct (Q (f_nf c) (after (every l) s')) as [Q1 Q2]; [rewrite R2, H2; auto|] end. auto.
- assert (T : tri0 size (fit_need c) (every (compute_blocks c))).
  { unfold compute_blocks. rewrite every_flat. apply tri0_flat. intros b _. destruct (f_savefft c) eqn:Es; [|apply tri0_nil].
    rewrite every_flat. apply tri0_flat. intros f _. apply npy_ok. unfold fit_need, folder_list. rewrite Es. cbn; auto. }
  destruct (T s') as [T1 T2]; [congruence|intros e He; rewrite H4; auto|]. auto.
Qed.
Lemma fit_ok : forall c s, clean s -> safe size (fit_plan c size s) s /\ clean (after (fit_plan c size s) s).
Proof.
intros c s Hc. unfold fit_plan. destruct (init_ok c false Hc) as [I1 I2].
assert (Hb : forall e, In e (fit_need c) -> base (after (init_items c false) s) e = true) by (intros e He; apply (clean_after _ Hc I2); right; rewrite init_made; auto).
apply seq_ok; auto. set (s1 := after (init_items c false) s) in *.
destruct (@blocks_ok c s1 I2 Hb) as [B1 B2]. destruct (@end_barrier size _ _ B1 B2) as [B3 B4].
rewrite app_assoc. apply seq_ok; auto. apply (@barrier_end _ _ _ (@tri_tail c) B4). intros e He; apply base_mono; auto.
Qed.
(* what is made *)
Lemma made_npy : forall d f, pmade (every (npy_save d f)) = [File d f].
Proof. reflexivity. Qed.
Lemma made_store : forall c, pmade (store_items c) = map (File (f_dir c)) [Weights; LtmModes; ParamsModes; EigsFreq].
Proof. reflexivity. Qed.
Lemma rounds_cover : forall total n, 0 < n -> forall i, (exists ip, In ip (seq 0 ((total + n - 1) / n)) /\ In i (seq (ip * n) (Nat.min ((ip + 1) * n) total - ip * n))) <-> i < total.
Proof.
intros total n Hn i. split.
- intros [ip [_ H]]. apply in_seq in H. destruct (Nat.min_spec ((ip + 1) * n) total) as [[H1 E]|[H1 E]]; rewrite E in H; lia.
- intros Hi. exists (i / n). assert (D := Nat.div_mod i n ltac:(lia)). assert (M := Nat.mod_upper_bound i n ltac:(lia)).
  split.
  + apply in_seq. split; [lia|]. change (S (i / n) <= (total + n - 1) / n). apply Nat.div_le_lower_bound; [lia|]. rewrite Nat.mul_succ_r.
    generalize dependent (i / n); generalize dependent (i mod n); intros; lia.
  + apply in_seq. generalize dependent (i / n); generalize dependent (i mod n). intros m M q E. split; [lia|].
    destruct (Nat.min_spec ((q + 1) * n) total) as [[H1 E2]|[H1 E2]]; rewrite E2; lia.
Qed.
Lemma made_rounds : forall c e, In e (pmade (rounds_items c size)) <-> exists f m, f < f_nf c /\ m < f_nm c /\ e = File (modes_dir (f_dir c)) (ModePart f m).
Proof.
intros c e. unfold rounds_items. rewrite in_pmade_flat. split.
- intros [ip [Hip H]]. rewrite pmade_app in H. cbn [every map] in H. cbn [pmade flat_map act_of creates app] in H. apply in_pmade_flat in H. destruct H as [i [Hi H]].
  destruct H as [H|[]]. assert (Hlt : i < f_nf c * f_nm c) by (apply (@rounds_cover (f_nf c * f_nm c) size Hsize); eauto).
  exists (i / f_nm c), (i mod f_nm c). assert (f_nm c <> 0) by (intros E; rewrite E in Hlt; lia).
  repeat split; auto; [apply Nat.div_lt_upper_bound; lia|apply Nat.mod_upper_bound; auto].
- intros [f [m [Hf [Hm ->]]]].
  assert (Hlt : f * f_nm c + m < f_nf c * f_nm c) by nia. apply (@rounds_cover (f_nf c * f_nm c) size Hsize) in Hlt. destruct Hlt as [ip [H1 H2]].
  exists ip; split; auto. rewrite pmade_app. apply in_or_app; right. apply in_pmade_flat. exists (f * f_nm c + m); split; auto.
  left. cbn. rewrite Nat.div_add_l, Nat.div_small, Nat.add_0_r by lia. rewrite Nat.add_comm, Nat.mod_add, Nat.mod_small by lia. auto.
Qed.
Lemma made_looks : forall D l, pmade (map (look D) l) = [].
Proof. intros D l; induction l as [|x l IH]; auto. Qed.
Lemma made_reads : forall (A : Type) (g : A -> folder) (h : A -> fname) l, pmade (every (map (fun x => Read (g x) (h x)) l)) = [].
Proof. intros A g h l; unfold every; induction l as [|x l IH]; auto. Qed.
Lemma made_freqs : forall d nf, pmade (flat_map (fun f => every (npy_save d (Mode f))) (seq 0 nf)) = map (fun f => File d (Mode f)) (seq 0 nf).
Proof. intros d nf; generalize 0. induction nf as [|n IH]; intros a; auto. cbn [seq flat_map map]. rewrite pmade_app, IH; auto. Qed.
Lemma made_save : forall c e, In e (pmade (save_items c size)) <-> In e match f_store c with
         | NoModes => []
         | PerFreq => map (fun f => File (modes_dir (f_dir c)) (Mode f)) (seq 0 (f_nf c))
         | PerMode => map (fun fm => File (modes_dir (f_dir c)) (ModePart (fst fm) (snd fm))) (list_prod (seq 0 (f_nf c)) (seq 0 (f_nm c)))
         end.
Proof.
intros c e. unfold save_items. destruct (f_store c); [tauto|rewrite made_freqs; tauto|].
rewrite pmade_app. cbn [every map pmade flat_map act_of creates app]. rewrite made_rounds, in_map_iff. split.
- intros [f [m [Hf [Hm ->]]]]. exists (f, m); split; auto. apply in_prod; apply in_seq; lia.
- intros [[f m] [<- H]]. apply in_prod_iff in H. destruct H as [H1 H2]. apply in_seq in H1; apply in_seq in H2. exists f, m; repeat split; lia.
Qed.
Lemma made_compute : forall c e, In e (pmade (every (compute_blocks c))) <->
  f_savefft c = true /\ In e (map (fun bf => File (blocks_dir (f_dir c)) (Block (fst bf) (snd bf))) (list_prod (seq 0 (f_nb c)) (seq 0 (f_nf c)))).
Proof.
intros c e. unfold compute_blocks. rewrite every_flat, in_pmade_flat, in_map_iff. destruct (f_savefft c); [|split; [intros [x [_ []]]|intros [H _]; discriminate]]. split.
- intros [b [Hb H]]. rewrite every_flat, in_pmade_flat in H. destruct H as [f [Hf H]]. rewrite made_npy in H. destruct H as [<-|[]]. split; auto.
  exists (b, f); split; auto. apply in_prod; auto.
- intros [_ [[b f] [<- H]]]. apply in_prod_iff in H. destruct H as [H1 H2]. exists b; split; auto. rewrite every_flat, in_pmade_flat. exists f; split; auto. left; auto.
Qed.
Lemma load_made : forall c, pmade (every (load_blocks c)) = [].
Proof.
intros c. unfold load_blocks. rewrite every_app, pmade_app, (quiet_made (reps (f_nf c) distribute)) by (apply quiet_reps; auto). rewrite app_nil_r, every_flat.
generalize (seq 0 (f_nb c)); intros l; induction l as [|b l IH]; auto. cbn [flat_map]. rewrite pmade_app, IH, app_nil_r. apply (@made_reads nat (fun _ => blocks_dir (f_dir c)) (Block b)).
Qed.
Lemma fit_made : forall c s e, clean s -> (base s e = true \/ In e (pmade (fit_plan c size s))) <-> (base s e = true \/ In e (leaves (CFit c))).
Proof.
intros c s e Hc. destruct (init_ok c false Hc) as [I1 I2]. assert (Hb := clean_after _ Hc I2).
unfold fit_plan, blocks_items, fit_tail. set (D := base (after (init_items c false) s)) in *.
rewrite !pmade_app, init_made, made_store, !in_app_iff, made_save.
replace (pmade (if f_reuse c then map (look D) (block_files c) else [])) with (@nil entry) by (destruct (f_reuse c); auto; rewrite made_looks; auto).
replace (pmade (every [Coll Barrier])) with (@nil entry) by reflexivity. replace (pmade (every allreduce)) with (@nil entry) by reflexivity.
unfold leaves. rewrite !in_app_iff. unfold folder_list. cbn [In].
set (S := In e (match f_store c with NoModes => _ | PerFreq => _ | PerMode => _ end)). set (F := In e (map (File (f_dir c)) _)).
assert (HB : (base s e = true \/ In e (map Dir ([f_dir c; modes_dir (f_dir c)] ++ if f_savefft c then [blocks_dir (f_dir c)] else []))
                \/ In e (pmade (every (if f_reuse c && present c D then load_blocks c else compute_blocks c))))
           <-> (base s e = true \/ In e [Dir (f_dir c); Dir (modes_dir (f_dir c))]
                \/ In e (if f_savefft c then Dir (blocks_dir (f_dir c)) :: map (fun bf => File (blocks_dir (f_dir c)) (Block (fst bf) (snd bf))) (list_prod (seq 0 (f_nb c)) (seq 0 (f_nf c))) else []))).
{ rewrite map_app, in_app_iff. cbn [map]. destruct (f_reuse c && present c D) eqn:E.
  - rewrite load_made. cbn [In]. destruct (f_savefft c) eqn:Es; cbn [map In]; [|tauto].
    split; [tauto|]. intros [H|[H|[H|H]]]; try tauto. apply andb_true_iff in E; destruct E as [_ E].
    apply in_map_iff in H. destruct H as [[b f] [<- H]]. apply in_prod_iff in H. destruct H as [H1 H2]. apply in_seq in H1; apply in_seq in H2.
    assert (Hp := @present_blocks c D b f E ltac:(lia) ltac:(lia)). cbn [fst snd]. apply Hb in Hp. destruct Hp as [Hp|Hp]; auto.
    rewrite init_made in Hp. apply in_map_iff in Hp. destruct Hp as [x [Hx _]]; discriminate.
  - rewrite made_compute. destruct (f_savefft c); cbn [map In]; intuition discriminate. }
cbn [In map] in HB. cbn [In]. tauto.
Qed.

(* ---- streaming ---- *)
Lemma quiet_stream : forall c l, all_quiet (distribute ++ stream_steps c l) = true.
Proof.
intros c l. apply quiet_app; auto. unfold stream_steps. apply quiet_flat. intros [i b]. apply quiet_app; [destruct (fst (i, b) =? 0); auto|].
destruct (snd (i, b)); auto. apply quiet_reps; auto.
Qed.
Lemma stream_ok : forall c l s, clean s -> safe size (stream_plan c l) s /\ clean (after (stream_plan c l) s).
Proof.
intros c l s Hc. unfold stream_plan. destruct (init_ok c true Hc) as [I1 I2].
assert (Hb : forall e, In e (fit_need c) -> base (after (init_items c true) s) e = true) by (intros e He; apply (clean_after _ Hc I2); right; rewrite init_made; auto).
apply seq_ok; auto. set (s1 := after (init_items c true) s) in *.
match goal with |- safe size (?p ++ _) s1 /\ _ => assert (T : tri1 size (fit_need c) p) end.
{ apply tri1_app; [apply tri1_quiets, quiet_stream|apply tri1_app; [apply tri_freqs|apply tri_store]]. }
destruct (@barrier_end _ _ _ T I2 Hb); auto.
Qed.
Lemma stream_made : forall c l e, In e (pmade (stream_plan c l)) <-> In e (leaves (CStream c l)).
Proof.
intros c l e. unfold stream_plan. rewrite !pmade_app, init_made, (quiet_made (distribute ++ stream_steps c l)) by apply quiet_stream.
rewrite made_freqs, made_store. cbn [app every map pmade flat_map act_of creates]. rewrite app_nil_r. unfold leaves, folder_list.
rewrite map_app, <- app_assoc. destruct (f_savefft c); tauto.
Qed.

(* ---- the calls that read ---- *)
(* reading, then a barrier *)
Lemma read_barrier : forall l s, clean s -> (forall a, In a l -> exists d f, a = Read d f /\ base s (File d f) = true) ->
  safe size (every l ++ every [Coll Barrier]) s /\ clean (after (every l ++ every [Coll Barrier]) s) /\ pmade (every l ++ every [Coll Barrier]) = [].
Proof.
intros l s [Ho [Hs Hn]] H. destruct (@reads_ok size l s Hn H) as [R1 [R2 [R3 R4]]].
destruct (@end_barrier size (every l) s R1) as [E1 E2]; [congruence|]. repeat split; auto; try apply E2.
rewrite pmade_app. cbn. rewrite app_nil_r. clear - H. unfold every. induction l as [|a l IH]; auto. cbn [map]. rewrite pmade_cons, IH by (intros b Hb; apply H; right; auto).
destruct (H a (or_introl eq_refl)) as [d [f [-> _]]]; auto.
Qed.
Lemma same_base : forall p s, clean s -> clean (after p s) -> pmade p = [] -> forall e, base (after p s) e = base s e.
Proof.
intros p s H H' Hm e. generalize (clean_after _ H H' e). rewrite Hm; cbn. destruct (base (after p s) e), (base s e); intuition.
Qed.
Lemma freq_ok : forall d D bound f s, clean s -> (forall e, base s e = D e) -> has_modes D d bound f ->
  safe size (freq_items d D bound f) s /\ clean (after (freq_items d D bound f) s) /\ pmade (freq_items d D bound f) = [].
Proof.
intros d D bound f s [Ho [Hs Hn]] HD Hm. unfold freq_items.
match goal with |- safe size (?x :: ?p ++ every _) s /\ _ => change (x :: p ++ every [Coll Barrier]) with ((x :: p) ++ every [Coll Barrier]); set (q := p) end.
assert (Hq : safe size (look D (d, Mode f) :: q) s /\ opened (after (look D (d, Mode f) :: q) s) = [] /\ pmade (look D (d, Mode f) :: q) = []).
{ destruct (@looks_ok size [(d, Mode f)] s D Hn) as [L1 [L2 [L3 L4]]]; [intros x _; apply HD|].
  change (look D (d, Mode f) :: q) with (map (look D) [(d, Mode f)] ++ q). rewrite safe_app, after_app, pmade_app, made_looks. cbn [app].
  change (map (fun x => Looks (fst x) (snd x) (D (File (fst x) (snd x)))) [(d, Mode f)]) with (map (look D) [(d, Mode f)]) in *.
  set (s1 := after (map (look D) [(d, Mode f)]) s) in *. rewrite Ho in L2. unfold q. destruct (D (File d (Mode f))) eqn:E.
  - destruct (@reads_ok size [Read d (Mode f)] s1 L3) as [R1 [R2 [R3 R4]]]; [|rewrite R2, L2; auto].
    intros a [<-|[]]. exists d, (Mode f); split; auto. rewrite L4, HD; auto.
  - set (l := map (fun m => (d, ModePart f m)) (seq 0 bound)). destruct (@looks_ok size l s1 D L3) as [M1 [M2 [M3 M4]]]; [intros x _; rewrite L4; apply HD|].
    change (map (fun x => Looks (fst x) (snd x) (D (File (fst x) (snd x)))) l) with (map (look D) l) in *. rewrite safe_app, after_app, pmade_app, made_looks. cbn [app].
    set (s2 := after (map (look D) l) s1) in *.
    destruct (@reads_ok size (map (fun m => Read d (ModePart f m)) (parts d D bound f)) s2 M3) as [R1 [R2 [R3 R4]]].
    + intros a Ha. apply in_map_iff in Ha. destruct Ha as [m [<- Hm']]. apply filter_In in Hm'. exists d, (ModePart f m); split; auto. rewrite M4, L4, HD; tauto.
    + rewrite R2, M2, L2, (@made_reads nat (fun _ => d) (ModePart f)). auto. }
destruct Hq as [Q1 [Q2 Q3]]. destruct (@end_barrier size _ _ Q1 Q2) as [E1 E2]. rewrite pmade_app, Q3. auto.
Qed.
Lemma freqs_ok : forall d D bound fs s, clean s -> (forall e, base s e = D e) -> (forall f, In f fs -> has_modes D d bound f) ->
  let p := flat_map (freq_items d D bound) fs in safe size p s /\ clean (after p s) /\ pmade p = [].
Proof.
intros d D bound fs; induction fs as [|f fs IH]; intros s Hc HD Hm p; [cbn; auto|]. unfold p; cbn [flat_map]; clear p.
destruct (@freq_ok d D bound f s Hc HD (Hm f (or_introl eq_refl))) as [F1 [F2 F3]].
rewrite safe_app, after_app, pmade_app, F3. cbn [app].
destruct (IH (after (freq_items d D bound f) s) F2) as [G1 [G2 G3]]; auto; [|intros g Hg; apply Hm; right; auto].
intros e; rewrite same_base; auto.
Qed.
(* a folder made by process 0, a barrier, then plans that need the folder *)
Lemma seq_ok2 : forall p q s lv, safe size p s -> pmade p = [] -> safe size q (after p s) /\ clean (after q (after p s)) /\ pmade q = lv ->
  safe size (p ++ q) s /\ clean (after (p ++ q) s) /\ pmade (p ++ q) = lv.
Proof. intros p q s lv Hp Hm [Hq [Hc Hl]]. rewrite safe_app, after_app, pmade_app, Hm; auto. Qed.
Lemma mk_then : forall pre d p s, clean s -> all_quiet pre = true -> tri1 size [Dir d] p ->
  let q := (every pre ++ r0 [Makedirs d] ++ every [Coll Barrier]) ++ p ++ every [Coll Barrier] in
  safe size q s /\ clean (after q s) /\ pmade q = Dir d :: pmade p.
Proof.
intros pre d p s Hc Hq Hp q. unfold q; clear q.
assert (T : tri1 size [] (every pre ++ r0 [Makedirs d])) by (apply tri1_app; [apply tri1_quiets; auto|apply tri1_mk; auto]).
destruct (@barrier_end _ _ _ T Hc) as [B1 B2]; [intros e []|]. rewrite <- app_assoc in B1, B2.
assert (Hm : pmade (every pre ++ r0 [Makedirs d] ++ every [Coll Barrier]) = [Dir d]) by (rewrite !pmade_app, quiet_made; auto).
set (s1 := after (every pre ++ r0 [Makedirs d] ++ every [Coll Barrier]) s) in *.
assert (Hb : forall e, In e [Dir d] -> base s1 e = true) by (intros e He; apply (clean_after _ Hc B2); right; rewrite Hm; auto).
destruct (@seq_ok _ (p ++ every [Coll Barrier]) s B1 (@barrier_end _ _ _ Hp B2 Hb)) as [P1 P2]. split; [auto|split; [auto|]]. rewrite pmade_app, Hm, pmade_app. cbn. rewrite app_nil_r; auto.
Qed.
Lemma tri_coeffs : forall c, tri1 size [Dir (c_dir c)] (coeffs_tail c).
Proof.
intros c. unfold coeffs_tail. repeat apply tri1_app; try (apply npy_ok; left; auto); try (apply tri1_write; [auto|left; auto]); try (apply tri1_quiets; reflexivity).
- apply tri1_quiets; destruct (c_conv c); auto.
- apply tri1_write_all; left; auto.
Qed.
Lemma coeffs_ok : forall c s, clean s -> needs (base s) (CCoeffs c) ->
  safe size (coeffs_plan c s) s /\ clean (after (coeffs_plan c s) s) /\ pmade (coeffs_plan c s) = leaves (CCoeffs c).
Proof.
intros c s Hc [Hn1 Hn2]. unfold coeffs_plan.
destruct (@read_barrier [Read (c_res c) EigsFreq; Read (c_res c) Weights; Read (c_res c) ParamsModes] s Hc) as [R1 [R2 R3]].
{ intros a [<-|[<-|[<-|[]]]]; eexists; eexists; split; eauto; apply Hn1; cbn; auto. }
rewrite app_assoc. apply seq_ok2; auto. set (s1 := after (every _ ++ _) s) in *.
assert (H1 : forall e, base s1 e = base s e) by (apply same_base; auto).
destruct (@barrier_end [] [] s1 (@tri1_nil size []) R2) as [B1 B2]; [intros e []|]. cbn [app] in B1, B2.
apply seq_ok2; auto. set (s2 := after (every [Coll Barrier]) s1) in *.
assert (H2 : forall e, base s2 e = base s e) by (intros e; unfold s2; rewrite (same_base (every [Coll Barrier])); auto).
destruct (@freqs_ok (modes_dir (c_res c)) (base s) (c_bound c) (c_freqs c) s2 B2 H2 Hn2) as [F1 [F2 F3]].
apply seq_ok2; auto. set (s3 := after (flat_map _ _) s2) in *.
destruct (@mk_then [] (c_dir c) (coeffs_tail c) s3 F2 eq_refl (@tri_coeffs c)) as [M1 [M2 M3]].
change (every [] ++ r0 [Makedirs (c_dir c)] ++ every [Coll Barrier]) with (r0 [Makedirs (c_dir c)] ++ every [Coll Barrier]) in *.
split; [auto|split; [auto|]]. etransitivity; [exact M3|]. destruct (c_conv c) eqn:Ec; unfold coeffs_tail; rewrite Ec; reflexivity.
Qed.
Lemma reading_call : forall l q s (lv : list entry), clean s -> (forall a, In a l -> exists d f, a = Read d f /\ base s (File d f) = true) ->
  (forall s', clean s' -> safe size q s' /\ clean (after q s') /\ pmade q = lv) ->
  let p := every l ++ every [Coll Barrier] ++ q in safe size p s /\ clean (after p s) /\ pmade p = lv.
Proof.
intros l q s lv Hc Hr Hq p. unfold p; clear p. destruct (read_barrier l Hc Hr) as [R1 [R2 R3]].
rewrite app_assoc. apply seq_ok2; auto.
Qed.
Lemma rec_ok : forall c s, clean s -> needs (base s) (CRec c) -> safe size (rec_plan c) s /\ clean (after (rec_plan c) s) /\ pmade (rec_plan c) = leaves (CRec c).
Proof.
intros c s Hc Hn. unfold rec_plan. apply reading_call; auto.
- intros a Ha. cbn in Ha. destruct Ha as [<-|[<-|[<-|[<-|[]]]]]; eexists; eexists; split; eauto; apply Hn; cbn; auto 6.
- intros s' Hc'. apply (@mk_then [Coll Barrier] (r_out c) (every (npy_save (r_out c) (Recon (r_name c)))) s' Hc' eq_refl). apply npy_ok; left; auto.
Qed.
Lemma pod_ok : forall d nd norm s, clean s -> safe size (pod_plan d nd norm) s /\ clean (after (pod_plan d nd norm) s) /\ pmade (pod_plan d nd norm) = leaves (CPod d nd norm).
Proof.
intros d nd norm s Hc. unfold pod_plan.
match goal with |- safe size ((every ?pre ++ _) ++ ?p ++ _) s /\ _ => destruct (@mk_then pre d p s Hc) as [M1 [M2 M3]] end.
- repeat apply quiet_app; auto; [apply quiet_reps; auto|]. destruct norm; [apply quiet_reps|]; auto.
- repeat apply tri1_app; try (apply npy_ok; left; auto); try (apply tri1_write; [auto|left; auto]). apply tri1_quiets; auto.
- repeat split; auto; apply M2.
Qed.
Lemma pod_coeffs_ok : forall res dir s, clean s -> needs (base s) (CPodCoeffs res dir) ->
  safe size (pod_coeffs_plan res dir) s /\ clean (after (pod_coeffs_plan res dir) s) /\ pmade (pod_coeffs_plan res dir) = leaves (CPodCoeffs res dir).
Proof.
intros res dir s Hc Hn. unfold pod_coeffs_plan. apply reading_call; auto.
- intros a Ha. cbn in Ha. destruct Ha as [<-|[<-|[<-|[<-|[]]]]]; eexists; eexists; split; eauto; apply Hn; cbn; auto 6.
- intros s' Hc'. match goal with |- safe size ((every ?pre ++ _) ++ ?p ++ _) s' /\ _ => apply (@mk_then pre dir p s' Hc' eq_refl) end.
  repeat apply tri1_app; try (apply npy_ok; left; auto); try (apply tri1_write; [auto|left; auto]). apply tri1_write_all; left; auto.
Qed.
Lemma cmd_ok : forall c s, clean s -> needs (base s) c ->
  safe size (plan_of size c s) s /\ clean (after (plan_of size c s) s)
  /\ forall e, base s e = true \/ In e (pmade (plan_of size c s)) <-> base s e = true \/ In e (leaves c).
Proof.
intros c s Hc Hn. destruct c as [c|c l|c|c|d nd norm|res dir]; cbn [plan_of].
- destruct (fit_ok c Hc); repeat split; auto; try apply H0; intros; apply (@fit_made c s e Hc); auto.
- destruct (stream_ok c l Hc) as [H H0]; repeat split; auto; try apply H0; intros [H1|H1]; auto; right; apply (stream_made c l); auto.
- destruct (@coeffs_ok c s Hc Hn) as [H [H0 ->]]; split; [auto|split; [auto|tauto]].
- destruct (@rec_ok c s Hc Hn) as [H [H0 ->]]; split; [auto|split; [auto|tauto]].
- destruct (pod_ok d nd norm Hc) as [H [H0 ->]]; split; [auto|split; [auto|tauto]].
- destruct (@pod_coeffs_ok res dir s Hc Hn) as [H [H0 ->]]; split; [auto|split; [auto|tauto]].
Qed.
(* ---- sessions ---- *)
Lemma needs_ext : forall c (D D' : disk), (forall e, D e = true -> D' e = true) -> needs D c -> needs D' c.
Proof.
intros c D D' H Hn. destruct c; cbn in *; auto. destruct Hn as [H1 H2]; split; auto. intros f Hf. destruct (H2 f Hf) as [|[m [Hm1 Hm2]]]; auto. right; exists m; auto.
Qed.
Lemma add_spec : forall D l e, add D l e = true <-> D e = true \/ In e l.
Proof. intros; unfold add; rewrite orb_true_iff, mem_In; tauto. Qed.
Lemma session_ok : forall cs s (D : disk), clean s -> (forall e, D e = true <-> base s e = true) -> provided D cs ->
  safe size (session_plan size cs s) s
  /\ (forall r, follows (session size cs r) (proj r (session_plan size cs s)))
  /\ forall e, base s e = true \/ In e (pmade (session_plan size cs s)) <-> base s e = true \/ In e (flat_map leaves cs).
Proof.
induction cs as [|c cs IH]; intros s D Hc HD Hp; cbn [session_plan session flat_map provided] in *.
- split; [cbn; auto|split; [intros; constructor|tauto]].
- destruct Hp as [Hn Hp]. assert (Hn' : needs (base s) c) by (eapply needs_ext; [|eauto]; intros e; apply HD).
  destruct (@cmd_ok c s Hc Hn') as [C1 [C2 C3]].
  assert (Hb := clean_after _ Hc C2).
  destruct (IH (after (plan_of size c s) s) (add D (leaves c)) C2) as [S1 [S2 S3]]; auto.
  { intros e. rewrite Hb, C3, add_spec, HD. tauto. }
  split; [rewrite safe_app; auto|split].
  + intros r. rewrite proj_app. generalize (@follow_cmd size c r s (proj r (session_plan size cs (after (plan_of size c s) s))) (session size cs r) Hn' (S2 r)).
    destruct c; auto.
  + intros e. rewrite pmade_app, !in_app_iff. generalize (Hb e) (C3 e) (S3 e). tauto.
Qed.
End Safe.
