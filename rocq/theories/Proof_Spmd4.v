(* The plans of the calls of PySPOD: what the processes do together, given what is on the disk. *)
From Coq Require Import String Bool Arith Lia List.
From Verif Require Import Model_Spmd Spec_Spmd Proof_Spmd Proof_Spmd2 Proof_Spmd3.
Import ListNotations.
Set Implicit Arguments.

Definition quiet_act (a : act) : bool := match a with Coll c => quiet c | _ => false end.
Definition all_quiet (l : list act) : bool := forallb quiet_act l.
Lemma quiet_app : forall a b, all_quiet a = true -> all_quiet b = true -> all_quiet (a ++ b) = true.
Proof. intros a b Ha Hb; unfold all_quiet in *; rewrite forallb_app, Ha, Hb; auto. Qed.
Lemma quiet_flat : forall (A : Type) (g : A -> list act) l, (forall x, all_quiet (g x) = true) -> all_quiet (flat_map g l) = true.
Proof. intros A g l H; induction l; cbn [flat_map]; auto. apply quiet_app; auto. Qed.
Lemma quiet_reps : forall n l, all_quiet l = true -> all_quiet (reps n l) = true.
Proof. intros; apply quiet_flat; auto. Qed.
Lemma tri1_quiets : forall size need l, all_quiet l = true -> tri1 size need (every l).
Proof.
intros size need l; induction l as [|a l IH]; intros H; [apply tri1_nil|]. cbn in H. apply andb_true_iff in H; destruct H as [H1 H2].
change (every (a :: l)) with (every [a] ++ every l). apply tri1_app; auto. destruct a; try discriminate. apply tri1_quiet; auto.
Qed.
Lemma quiet_made : forall l, all_quiet l = true -> pmade (every l) = [].
Proof.
unfold every; induction l as [|a l IH]; intros H; auto. cbn in H. apply andb_true_iff in H; destruct H as [H1 H2]. cbn [map]. rewrite pmade_cons, IH; auto.
destruct a as [c| | | |]; try discriminate. destruct c; try discriminate; auto.
Qed.

(* ---- fit ---- *)
Definition norm_calls (c : fitcfg) : list act := match f_norm c with Some nv => reps nv [Coll Allreduce] | None => [] end.
Definition folders (c : fitcfg) : list act :=
  [Makedirs (f_dir c); Makedirs (modes_dir (f_dir c))] ++ if f_savefft c then [Makedirs (blocks_dir (f_dir c))] else [].
Definition init_items (c : fitcfg) (streaming : bool) : list item :=
  every (reader_init (f_src c) ++ (if streaming then distribute else get_data (f_src c)) ++ distribute ++ norm_calls c)
  ++ r0 (folders c) ++ every (reps 3 [Coll Allreduce]) ++ every [Coll Barrier].
Definition block_files (c : fitcfg) : list (folder * fname) :=
  flat_map (fun b => map (fun f => (blocks_dir (f_dir c), Block b f)) (seq 0 (f_nf c))) (seq 0 (f_nb c)).
Definition look (D : disk) (x : folder * fname) : item := Looks (fst x) (snd x) (D (File (fst x) (snd x))).
Definition full (c : fitcfg) (D : disk) (b : nat) : bool :=
  length (filter (fun f => D (File (blocks_dir (f_dir c)) (Block b f))) (seq 0 (f_nf c))) =? f_nf c.
Definition present (c : fitcfg) (D : disk) : bool := length (filter (full c D) (seq 0 (f_nb c))) =? f_nb c.
Definition blocks_items (c : fitcfg) (D : disk) : list item :=
  (if f_reuse c then map (look D) (block_files c) else [])
  ++ every (if f_reuse c && present c D then load_blocks c else compute_blocks c).
Definition rounds_items (c : fitcfg) (size : nat) : list item :=
  let total := f_nf c * f_nm c in
  flat_map (fun ipass => every [Coll Exchange] ++
    flat_map (fun i => map (Only (i mod size)) (write (modes_dir (f_dir c)) (ModePart (i / f_nm c) (i mod f_nm c))))
             (seq (ipass * size) (Nat.min ((ipass + 1) * size) total - ipass * size)))
    (seq 0 ((total + size - 1) / size)).
Definition save_items (c : fitcfg) (size : nat) : list item :=
  match f_store c with
  | NoModes => []
  | PerFreq => flat_map (fun f => every (npy_save (modes_dir (f_dir c)) (Mode f))) (seq 0 (f_nf c))
  | PerMode => every [Coll Allreduce; Coll Allgather] ++ rounds_items c size
  end.
Definition store_items (c : fitcfg) : list item :=
  every (npy_save (f_dir c) Weights) ++ every (npy_save (f_dir c) LtmModes)
  ++ r0 (write (f_dir c) ParamsModes) ++ r0 (write (f_dir c) EigsFreq) ++ every [Coll Barrier].
Definition fit_tail (c : fitcfg) (size : nat) : list item := every allreduce ++ save_items c size ++ store_items c.
Definition fit_plan (c : fitcfg) (size : nat) (s : cst) : list item :=
  init_items c false ++ blocks_items c (base (after (init_items c false) s)) ++ every [Coll Barrier] ++ fit_tail c size ++ every [Coll Barrier].
Definition stream_plan (c : fitcfg) (completed : list bool) : list item :=
  init_items c true ++ (every (distribute ++ stream_steps c completed)
  ++ flat_map (fun f => every (npy_save (modes_dir (f_dir c)) (Mode f))) (seq 0 (f_nf c)) ++ store_items c) ++ every [Coll Barrier].

(* ---- coefficients, reconstruction ---- *)
Definition parts (d : folder) (D : disk) (bound f : nat) : list nat := filter (fun m => D (File d (ModePart f m))) (seq 0 bound).
Definition freq_items (d : folder) (D : disk) (bound f : nat) : list item :=
  look D (d, Mode f) ::
  (if D (File d (Mode f)) then every [Read d (Mode f)]
   else map (look D) (map (fun m => (d, ModePart f m)) (seq 0 bound)) ++ every (map (fun m => Read d (ModePart f m)) (parts d D bound f)))
  ++ every [Coll Barrier].
Definition coeffs_tail (c : coefcfg) : list item :=
  every ((if c_conv c then [] else allreduce ++ allreduce) ++ [Coll Barrier])
  ++ every (npy_save (c_dir c) ModesR) ++ every (npy_save (c_dir c) Ltm) ++ every [Coll Barrier]
  ++ r0 (write (c_dir c) CoeffsNpy) ++ every [Coll Barrier] ++ every (write (c_dir c) ParamsCoeffs).
Definition coeffs_plan (c : coefcfg) (s : cst) : list item :=
  every [Read (c_res c) EigsFreq; Read (c_res c) Weights; Read (c_res c) ParamsModes] ++ every [Coll Barrier] ++ every [Coll Barrier]
  ++ flat_map (freq_items (modes_dir (c_res c)) (base s) (c_bound c)) (c_freqs c)
  ++ (r0 [Makedirs (c_dir c)] ++ every [Coll Barrier]) ++ coeffs_tail c ++ every [Coll Barrier].
Definition rec_plan (c : reccfg) : list item :=
  every [Read (r_dir c) Ltm; Read (r_dir c) ModesR; Read (r_dir c) ParamsCoeffs; Read (r_dir c) CoeffsNpy]
  ++ every [Coll Barrier] ++ (every [Coll Barrier] ++ r0 [Makedirs (r_out c)] ++ every [Coll Barrier])
  ++ every (npy_save (r_out c) (Recon (r_name c))) ++ every [Coll Barrier].
Definition pod_plan (d : folder) (nd : nat) (norm : option nat) : list item :=
  (every (reps nd distribute ++ distribute ++ match norm with Some nv => reps nv [Coll Allreduce] | None => [] end)
  ++ r0 [Makedirs d] ++ every [Coll Barrier])
  ++ (every allreduce ++ every (npy_save d PodModes) ++ every (npy_save d Weights)
  ++ r0 (write d ParamsModes) ++ r0 (write d Eigs)) ++ every [Coll Barrier].
Definition pod_coeffs_plan (res dir : folder) : list item :=
  every [Read res Weights; Read res PodModes; Read res Eigs; Read res ParamsModes]
  ++ every [Coll Barrier] ++ (every ([Coll Barrier; Coll Barrier] ++ allreduce) ++ r0 [Makedirs dir] ++ every [Coll Barrier])
  ++ (r0 (write dir CoeffsNpy) ++ every (npy_save dir ModesR) ++ every (npy_save dir Ltm) ++ every (write dir ParamsCoeffs)) ++ every [Coll Barrier].
Definition plan_of (size : nat) (c : cmd) (s : cst) : list item :=
  match c with
  | CFit c => fit_plan c size s
  | CStream c l => stream_plan c l
  | CCoeffs c => coeffs_plan c s
  | CRec c => rec_plan c
  | CPod d nd norm => pod_plan d nd norm
  | CPodCoeffs res dir => pod_coeffs_plan res dir
  end.
Fixpoint session_plan (size : nat) (cs : list cmd) (s : cst) : list item :=
  match cs with [] => [] | c :: cs => plan_of size c s ++ session_plan size cs (after (plan_of size c s) s) end.

(* ---- the programs follow the plans ---- *)
Ltac pj := rewrite ?proj_app, ?proj_every, ?proj_r0, <- ?app_assoc.
Lemma proj_looks : forall r D l, proj r (map (look D) l) = map (fun x => Saw (fst x) (snd x) (D (File (fst x) (snd x)))) l.
Proof. intros r D l; induction l as [|x l IH]; auto. cbn [map]. rewrite proj_cons, IH; auto. Qed.
Lemma proj_flat : forall (A : Type) r (g : A -> list item) (h : A -> list act) l,
  (forall x, proj r (g x) = map Did (h x)) -> proj r (flat_map g l) = map Did (flat_map h l).
Proof. intros A r g h l H; induction l as [|x l IH]; auto. cbn [flat_map]. rewrite proj_app, IH, H, map_app; auto. Qed.
Lemma proj_only : forall r q l, proj r (map (Only q) l) = map Did (if q =? r then l else []).
Proof. intros r q l; induction l as [|a l IH]; [destruct (q =? r); auto|]. cbn [map]. rewrite proj_cons, IH. cbn. destruct (q =? r); auto. Qed.
Lemma proj_init : forall c st r, proj r (init_items c st) = map Did (initialize c st r).
Proof. intros c st r. unfold init_items, initialize. pj. fold (folders c). unfold norm_calls. rewrite !map_app, <- ?app_assoc. reflexivity. Qed.
Lemma proj_rounds : forall c size r, proj r (rounds_items c size) = map Did (mode_rounds c size r).
Proof.
intros c size r; unfold rounds_items, mode_rounds. apply proj_flat. intros ip. pj. cbn [map app]. f_equal. apply proj_flat. intros i. apply proj_only.
Qed.
Lemma proj_save : forall c size r, proj r (save_items c size) = map Did (save_modes c size r).
Proof.
intros c size r; unfold save_items, save_modes. destruct (f_store c); auto.
- apply proj_flat. intros; apply proj_every.
- pj. rewrite proj_rounds, map_app; auto.
Qed.
Lemma rank0_app : forall r a b, rank0 r (a ++ b) = rank0 r a ++ rank0 r b.
Proof. intros; unfold rank0; destruct (r =? 0); auto. Qed.
Lemma proj_store : forall c r, proj r (store_items c) = map Did (store_and_save c r).
Proof. intros c r; unfold store_items, store_and_save. pj. rewrite rank0_app, !map_app, <- ?app_assoc; auto. Qed.
Lemma proj_tail : forall c size r, map Did [Coll Barrier] ++ proj r (fit_tail c size) ++ map Did [Coll Barrier] = map Did (after_blocks c size r).
Proof. intros c size r; unfold fit_tail, after_blocks. pj. rewrite proj_save, proj_store, !map_app, <- ?app_assoc; auto. Qed.
Lemma freqs_follow : forall d D b fs cnt k e, follows (k (cnt + length (filter (fun f => D (File d (Block b f))) fs))) e ->
  follows (freqs_present d b fs cnt k) (map (fun f => Saw d (Block b f) (D (File d (Block b f)))) fs ++ e).
Proof.
intros d D b fs; induction fs as [|f fs IH]; intros cnt k e H; cbn in *; [rewrite Nat.add_0_r in H; auto|].
constructor. apply IH. destruct (D (File d (Block b f))); auto. cbn in H. rewrite Nat.add_succ_r in H; auto.
Qed.
Lemma blocks_follow : forall d D nf bs cnt k e,
  follows (k (cnt + length (filter (fun b => length (filter (fun f => D (File d (Block b f))) (seq 0 nf)) =? nf) bs))) e ->
  follows (blocks_present d nf bs cnt k) (flat_map (fun b => map (fun f => Saw d (Block b f) (D (File d (Block b f)))) (seq 0 nf)) bs ++ e).
Proof.
intros d D nf bs; induction bs as [|b bs IH]; intros cnt k e H; cbn [blocks_present flat_map filter] in *; [rewrite Nat.add_0_r in H; auto|].
rewrite <- app_assoc. apply freqs_follow. apply IH. cbn [plus].
destruct (length (filter (fun f => D (File d (Block b f))) (seq 0 nf)) =? nf); auto. cbn in H. rewrite Nat.add_succ_r in H; auto.
Qed.
Lemma map_flat : forall (A B C : Type) (h : B -> C) (g : A -> list B) l, map h (flat_map g l) = flat_map (fun x => map h (g x)) l.
Proof. intros; induction l as [|x l IH]; auto. cbn [flat_map]. rewrite map_app, IH; auto. Qed.
Lemma follow_fit : forall c size r k s e, follows k e -> follows (spod_fit c size r k) (proj r (fit_plan c size s) ++ e).
Proof.
intros c size r k s e H. unfold spod_fit, fit_plan. rewrite proj_app, <- app_assoc, proj_init. apply follows_does.
set (D := base (after (init_items c false) s)).
assert (Hgo : forall b : bool, follows (does (if b then load_blocks c else compute_blocks c) (does (after_blocks c size r) k))
  (map Did (if b then load_blocks c else compute_blocks c) ++ map Did (after_blocks c size r) ++ e)) by (intros b; apply follows_does, follows_does; auto).
unfold blocks_items. rewrite !proj_app, !proj_every, <- !app_assoc.
assert (Et : map Did (after_blocks c size r) ++ e = map Did [Coll Barrier] ++ proj r (fit_tail c size) ++ map Did [Coll Barrier] ++ e) by (rewrite <- proj_tail, <- !app_assoc; auto).
rewrite <- Et.
destruct (f_reuse c); cbn [andb app]; [|apply (Hgo false)].
rewrite proj_looks. unfold block_files. rewrite map_flat.
rewrite (flat_map_ext _ (fun b => map (fun f => Saw (blocks_dir (f_dir c)) (Block b f) (D (File (blocks_dir (f_dir c)) (Block b f)))) (seq 0 (f_nf c)))) by (intros b; rewrite map_map; reflexivity).
apply blocks_follow with (D := D). cbn [plus]. apply Hgo.
Qed.
Lemma parts_follow : forall d D f ms found k e, follows (k (found ++ filter (fun m => D (File d (ModePart f m))) ms)) e ->
  follows (find_parts d f ms found k) (map (fun m => Saw d (ModePart f m) (D (File d (ModePart f m)))) ms ++ e).
Proof.
intros d D f ms; induction ms as [|m ms IH]; intros found k e H; cbn in *; [rewrite app_nil_r in H; auto|].
constructor. apply IH. destruct (D (File d (ModePart f m))); auto. rewrite <- app_assoc; auto.
Qed.
Definition has_modes (D : disk) (d : folder) (bound f : nat) : Prop :=
  D (File d (Mode f)) = true \/ exists m, m < bound /\ D (File d (ModePart f m)) = true.
Lemma modes_follow : forall d D bound fs r k e, (forall f, In f fs -> has_modes D d bound f) -> follows k e ->
  follows (get_modes d bound fs k) (proj r (flat_map (freq_items d D bound) fs) ++ e).
Proof.
intros d D bound fs r; induction fs as [|f fs IH]; intros k e Hm H; cbn [get_modes flat_map]; auto.
rewrite proj_app, <- app_assoc. unfold freq_items at 1. rewrite proj_cons, <- app_assoc. cbn [proj1 look app fst snd]. constructor.
specialize (IH k e (fun g Hg => Hm g (or_intror Hg)) H). rewrite proj_app, <- app_assoc, (proj_every r [Coll Barrier]).
destruct (D (File d (Mode f))) eqn:E.
- rewrite proj_every. cbn. constructor. constructor. auto.
- rewrite proj_app, <- app_assoc, proj_looks, map_map. cbn [fst snd].
  apply parts_follow with (D := D). cbn [app]. fold (parts d D bound f). rewrite proj_every.
  destruct (parts d D bound f) as [|m l] eqn:Ep.
  + exfalso. destruct (Hm f (or_introl eq_refl)) as [Hf|[m [Hlt Hm']]]; [congruence|].
    assert (Hin : In m (parts d D bound f)) by (apply filter_In; split; auto; apply in_seq; lia). rewrite Ep in Hin; destruct Hin.
  + rewrite <- Ep. rewrite app_assoc, <- map_app. apply follows_does; auto.
Qed.
Lemma follow_cmd : forall size c r s e k, needs (base s) c -> follows k e ->
  follows (match c with
           | CFit c => spod_fit c size r k | CStream c l => stream_fit c l r k | CCoeffs c => spod_coeffs c r k | CRec c => reconstruct c r k
           | CPod d nd norm => pod_fit d nd norm r k | CPodCoeffs res dir => pod_coeffs res dir r k end) (proj r (plan_of size c s) ++ e).
Proof.
intros size c r s e k Hn H. destruct c as [c|c l|c|c|d nd norm|res dir]; cbn [plan_of].
- apply follow_fit; auto.
- unfold stream_fit, stream_plan.
  replace (proj r _) with (map Did (initialize c true r ++ distribute ++ stream_steps c l
        ++ flat_map (fun f => npy_save (modes_dir (f_dir c)) (Mode f)) (seq 0 (f_nf c)) ++ store_and_save c r ++ [Coll Barrier])); [apply follows_does; auto|].
  pj. rewrite proj_init, proj_store, (proj_flat r _ (fun f => npy_save (modes_dir (f_dir c)) (Mode f))), !map_app, <- ?app_assoc; auto; intros; apply proj_every.
- unfold spod_coeffs, coeffs_plan. pj. rewrite !app_assoc, <- !map_app, <- !app_assoc. apply follows_does.
  destruct Hn as [_ Hn]. apply modes_follow; auto.
  unfold coeffs_tail. pj. repeat rewrite (app_assoc (map Did _)), <- map_app. rewrite <- !app_assoc. cbn [app]. apply follows_does; auto.
- unfold reconstruct, rec_plan. pj. repeat rewrite (app_assoc (map Did _)), <- map_app. rewrite <- !app_assoc. apply follows_does; auto.
- unfold pod_fit, pod_plan. pj. rewrite rank0_app. repeat rewrite (app_assoc (map Did _)), <- map_app. rewrite <- !app_assoc. apply follows_does; auto.
- unfold pod_coeffs, pod_coeffs_plan. pj. repeat rewrite (app_assoc (map Did _)), <- map_app. rewrite <- !app_assoc. apply follows_does; auto.
Qed.
