From Verif Require Import Base_List Model_Parallel Spec_Array Proof_Parallel.
Set Implicit Arguments.

Section Writes.
Context {B : Type}.
Implicit Types (es : list (nat * B)) (f : @file B).

Lemma run_writes_notin es f p : ~ In p (map fst es) -> run_writes es f p = f p.
Proof.
  revert f; induction es as [|[q b] es IH]; intros f H; simpl in *; [reflexivity|].
  rewrite IH by tauto. unfold write1; simpl. destruct (Nat.eqb_spec p q); [subst; tauto|reflexivity].
Qed.

Lemma run_writes_in es f p b : NoDup (map fst es) -> In (p, b) es -> run_writes es f p = Some b.
Proof.
  revert f; induction es as [|[q c] es IH]; intros f Hn Hin; simpl in *; [tauto|].
  inversion Hn; subst. destruct Hin as [E|Hin].
  - injection E as -> ->. rewrite run_writes_notin by assumption.
    unfold write1; simpl. now rewrite Nat.eqb_refl.
  - now apply IH.
Qed.

Lemma run_writes_perm_seq es (T : list B) :
  Permutation es (combine (seq 0 (length T)) T) ->
  forall p, run_writes es (@empty_file B) p = nth_error T p.
Proof.
  intros HP p.
  assert (Hfst : map fst (combine (seq 0 (length T)) T) = seq 0 (length T)).
  { assert (length (seq 0 (length T)) = length T) as HL by apply seq_length.
    revert HL. generalize (seq 0 (length T)) as l. clear. intros l; revert T.
    induction l as [|x l IH]; intros [|t T] H; simpl in *; try lia; [reflexivity|].
    f_equal. apply IH. lia. }
  assert (Hn : NoDup (map fst es)).
  { eapply Permutation_NoDup; [symmetry; apply Permutation_map, HP|]. rewrite Hfst. apply seq_NoDup. }
  assert (Hnth : forall q, nth_error (combine (seq 0 (length T)) T) q
                 = match nth_error T q with Some b => Some (q, b) | None => None end).
  { clear. assert (forall d (T : list B) q, nth_error (combine (seq d (length T)) T) q
        = match nth_error T q with Some b => Some (d + q, b) | None => None end) as G.
    { intros d T'; revert d; induction T' as [|t T' IH]; intros d q; simpl; [now destruct q|].
      destruct q as [|q]; simpl; [f_equal; f_equal; lia|]. rewrite IH.
      destruct (nth_error T' q); [f_equal; f_equal; lia|reflexivity]. }
    intros q. rewrite G. reflexivity. }
  destruct (nth_error T p) as [b|] eqn:E.
  - apply run_writes_in; [assumption|]. eapply Permutation_in; [symmetry; exact HP|].
    apply nth_error_In with (n := p). rewrite Hnth, E. reflexivity.
  - rewrite run_writes_notin; [reflexivity|]. intros Hin.
    assert (In p (seq 0 (length T))) as Hin'.
    { rewrite <- Hfst. eapply Permutation_in; [|exact Hin]. apply Permutation_map, HP. }
    apply in_seq in Hin'. apply nth_error_None in E. lia.
Qed.
End Writes.

Lemma concat_map_concat {X Y} (f : X -> list Y) (ls : list (list X)) :
  concat (map f (concat ls)) = concat (map (fun l => concat (map f l)) ls).
Proof. induction ls as [|l ls IH]; [reflexivity|]. simpl. now rewrite map_app, concat_app, IH. Qed.

Section Save.
Context {A B : Type}.
Variables (enc : A -> list B) (hdr : list nat -> list B) (es : nat).
Hypothesis enc_len : forall a, length (enc a) = es.

Lemma bytes_at_seq off d l :
  concat (map (fun pa => bytes_at enc off es (fst pa) (snd pa)) (combine (seq d (length l)) l))
  = combine (seq (off + d * es) (length l * es)) (concat (map enc l)).
Proof using enc_len.
  revert d; induction l as [|a l IH]; intros d; [reflexivity|].
  cbn [length seq combine map concat fst snd]. rewrite IH. unfold bytes_at.
  replace (S (length l) * es) with (es + length l * es) by lia.
  rewrite seq_app, combine_app' by (rewrite seq_length, enc_len; reflexivity).
  f_equal. f_equal. f_equal. lia.
Qed.

Lemma concat_enc_length l : length (concat (map enc l)) = length l * es.
Proof using enc_len.
  rewrite (@concat_length_const _ _ es), map_length; [reflexivity|].
  intros x Hx. apply in_map_iff in Hx as [a [<- _]]. apply enc_len.
Qed.

Lemma rank_writes_eq ax off G displ (a : nd A) :
  rank_writes enc ax off es G displ a
  = concat (map (fun pa => bytes_at enc off es (fst pa) (snd pa))
      (combine (subarray_pos (prod (firstn ax (shape a))) G (prod (skipn (S ax) (shape a))) displ
                             (nth ax (shape a) 0)) (flat a))).
Proof.
  unfold rank_writes. destruct (Nat.ltb_spec 0 (nth ax (shape a) 0)); [reflexivity|].
  replace (nth ax (shape a) 0) with 0 by lia.
  replace (subarray_pos _ G _ displ 0) with (@nil nat); [reflexivity|].
  unfold subarray_pos. symmetry. induction (seq 0 _) as [|o os IH]; [reflexivity|]. simpl. exact IH.
Qed.

Lemma map_nth_error_ext_combine {X Y Z} (F : nat * X -> Z) (Gf : nat * Y -> Z) ds xs ys dx dy :
  length ds = length xs -> length xs = length ys ->
  (forall r, r < length xs -> F (nth r ds 0, nth r xs dx) = Gf (nth r ds 0, nth r ys dy)) ->
  map F (combine ds xs) = map Gf (combine ds ys).
Proof.
  revert xs ys; induction ds as [|d ds IH]; intros xs ys H1 H2 H; destruct xs as [|x xs], ys as [|y ys];
    simpl in *; try lia; [reflexivity|]. f_equal.
  - apply (H 0). lia.
  - apply IH; try lia. intros r Hr. apply (H (S r)). lia.
Qed.

(* the writes of all ranks are, in some order, the bytes of the serial file *)
Lemma npy_save_writes_perm ax (locs : list (nd A)) :
  joinable ax locs -> locs <> [] ->
  let T := np_save enc hdr (concat_axis ax locs) in
  Permutation (npy_save_writes enc hdr es ax locs) (combine (seq 0 (length T)) T).
Proof using enc_len.
  intros HJ Hne. destruct (joinable_split HJ Hne) as (sh1 & sh2 & <- & Hsh).
  rewrite (@concat_axis_eq _ sh1 sh2 locs Hne Hsh).
  set (cs := map (fun p => nth (length sh1) (shape p) 0) locs).
  set (ps := pcs_of (length sh1) locs).
  set (G := sum cs). set (outer := prod sh1). set (inner := prod sh2).
  set (whole := concat_flat outer inner ps).
  pose proof (@pcs_lengths _ sh1 sh2 locs Hsh) as Hlens. fold ps in Hlens.
  assert (Hcs : map fst ps = cs) by (unfold ps, pcs_of, cs; rewrite map_map; reflexivity).
  assert (Hwl : length whole = outer * G * inner)
    by (unfold whole; rewrite concat_flat_length, Hcs; auto).
  unfold np_save. cbn [shape flat]. cbv zeta.
  unfold npy_save_writes. fold cs. fold G.
  assert (Hgs : match locs with a0 :: _ => upd_nth (length sh1) G (shape a0) | [] => [] end = sh1 ++ G :: sh2).
  { destruct locs as [|p0 ls]; [congruence|]. destruct (Hsh p0 (or_introl eq_refl)) as (n & -> & _).
    now rewrite axis_upd. }
  rewrite Hgs. set (H := hdr (sh1 ++ G :: sh2)).
  rewrite app_length, seq_app, combine_app' by apply seq_length.
  apply Permutation_app_head. rewrite concat_enc_length. simpl.
  replace (seq (length H) (length whole * es)) with (seq (length H + 0 * es) (length whole * es))
    by (f_equal; lia).
  rewrite <- bytes_at_seq.
  transitivity (concat (map (fun pa => bytes_at enc (length H) es (fst pa) (snd pa))
     (concat (map (fun p => slice_flat outer G inner (fst p) (snd p) (combine (seq 0 (length whole)) whole))
                  (combine (displs 0 cs) cs))))).
  - rewrite concat_map_concat, map_map.
    rewrite (@map_nth_error_ext_combine _ _ _ _
      (fun x => concat (map (fun pa => bytes_at enc (length H) es (fst pa) (snd pa))
         (slice_flat outer G inner (fst x) (snd x) (combine (seq 0 (length whole)) whole))))
      (displs 0 cs) locs cs (Nd [] []) 0); [reflexivity| | |].
    + rewrite displs_length. unfold cs. apply map_length.
    + unfold cs. now rewrite map_length.
    + intros r Hr. cbn [fst snd]. rewrite rank_writes_eq. f_equal. f_equal.
      assert (Hp : In (nth r locs (Nd [] [])) locs) by (apply nth_In; lia).
      destruct (Hsh _ Hp) as (n & Es & El).
      assert (Hn : nth r cs 0 = n).
      { unfold cs. rewrite (nth_indep _ 0 (nth (length sh1) (shape (Nd (A:=A) [] [])) 0))
          by (rewrite map_length; lia).
        rewrite (map_nth (fun p => nth (length sh1) (shape p) 0) locs (Nd [] []) r), Es. apply axis_nth. }
      assert (Hd : nth r (displs 0 cs) 0 + n <= G).
      { unfold cs. rewrite displs_nth by (rewrite map_length; lia). fold cs. rewrite <- Hn.
        apply sum_nth_le. unfold cs. rewrite map_length. lia. }
      rewrite Es, axis_firstn, axis_skipn, axis_nth, Hn. fold outer inner.
      rewrite <- slice_flat_combine; [|rewrite seq_length; assumption|assumption|assumption].
      rewrite Hwl, slice_flat_seq by assumption. f_equal.
      pose proof (@slice_concat_flat _ outer inner ps r Hlens) as Hsl.
      rewrite Hcs in Hsl. fold G whole in Hsl. rewrite Hn in Hsl. rewrite Hsl.
      * unfold ps, pcs_of.
        rewrite (nth_indep _ (0, []) (nth (length sh1) (shape (Nd (A:=A) [] [])) 0, flat (Nd (A:=A) [] [])))
          by (rewrite map_length; lia).
        now rewrite (map_nth (fun p => (nth (length sh1) (shape p) 0, flat p)) locs (Nd [] []) r).
      * unfold ps, pcs_of. rewrite map_length. lia.
  - apply Permutation_concat, Permutation_map, slices_permutation; [|reflexivity].
    rewrite combine_length, seq_length, Hwl. lia.
Qed.
End Save.
