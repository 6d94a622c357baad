(* C69, C70: configuration files and data formats. *)
From Coq Require Import String Ascii.
From Verif Require Import Base_List Model_Select Model_IO Spec_Case Proof_Case.
Set Implicit Arguments.
Local Open Scope nat_scope.

(* ---------- C69 ---------- *)
(* the value an item list gives to a key: that of the last item whose first key it is *)
Fixpoint last_value {V} (l : list (item V)) (k : string) : option V :=
  match l with
  | [] => None
  | it :: r =>
      match last_value r k with
      | Some v => Some v
      | None => match it with Dict ((k', v) :: _) => if String.eqb k' k then Some v else None | _ => None end
      end
  end.
Definition well_formed {V} (l : list (item V)) : Prop := forall it, In it l -> exists k v d, it = Dict ((k, v) :: d).

Section S.
Variable V : Type.
Lemma get_set (d : pydict V) k v k' : get_key (set_key d k v) k' = if String.eqb k k' then Some v else get_key d k'.
Proof.
  unfold get_key. induction d as [|[a b] d IH]; cbn [set_key find fst snd].
  - now destruct (String.eqb k k').
  - destruct (String.eqb_spec k a) as [->|Hne]; cbn [find fst snd].
    + now destruct (String.eqb a k').
    + destruct (String.eqb_spec a k') as [->|Hak]; cbn [snd].
      * destruct (String.eqb_spec k k'); [contradiction|reflexivity].
      * exact IH.
Qed.
Lemma set_keys (d : pydict V) k v : In k (map fst (set_key d k v)).
Proof. induction d as [|[a b] d IH]; cbn; [now left|]. destruct (String.eqb_spec k a); cbn; auto. Qed.
Lemma set_nodup (d : pydict V) k v : NoDup (map fst d) -> NoDup (map fst (set_key d k v)).
Proof.
  assert (I : forall x d, In x (map fst (set_key d k v)) -> x = k \/ In x (map fst d)).
  { intros x e. induction e as [|[a b] e IH]; cbn.
    - intros [H|[]]; auto.
    - destruct (String.eqb_spec k a); cbn; intros [H|H]; auto. destruct (IH H); auto. }
  induction d as [|[a b] d IH]; cbn; intros H; [repeat constructor; auto|]. inversion H; subst.
  destruct (String.eqb_spec k a) as [->|Hne]; cbn; [assumption|]. constructor; [|auto].
  intros Hin. apply I in Hin as [E|Hin]; [congruence|contradiction].
Qed.
Lemma parse_nodup (l : list (item V)) d p : NoDup (map fst d) -> parse_items l d = Ok p -> NoDup (map fst p).
Proof.
  revert d; induction l as [|it l IH]; intros d Hd H; cbn in H; [injection H as <-; assumption|].
  destruct it as [[|[k v] e]|]; try discriminate. eapply IH; [|exact H]. now apply set_nodup.
Qed.
Lemma parse_get (l : list (item V)) : forall d p k, parse_items l d = Ok p ->
  get_key p k = match last_value l k with Some v => Some v | None => get_key d k end.
Proof.
  induction l as [|it l IH]; intros d p k H; cbn in H; [injection H as <-; reflexivity|].
  destruct it as [[|[k' v] e]|]; try discriminate. rewrite (IH _ _ k H). cbn [last_value].
  destruct (last_value l k); [reflexivity|]. rewrite get_set. now destruct (String.eqb k' k).
Qed.
Lemma parse_wf (l : list (item V)) d : well_formed l -> exists p, parse_items l d = Ok p.
Proof.
  revert d; induction l as [|it l IH]; intros d H; cbn; [eauto|].
  destruct (H it (or_introl eq_refl)) as [k [v [e ->]]]. apply IH. intros x Hx. apply H. now right.
Qed.
Lemma parse_wf_inv (l : list (item V)) d p : parse_items l d = Ok p -> well_formed l.
Proof.
  revert d; induction l as [|it l IH]; intros d H it' Hin; [contradiction|]. cbn in H.
  destruct it as [[|[k v] e]|]; try discriminate. destruct Hin as [<-|Hin]; [eauto|]. exact (IH _ H _ Hin).
Qed.
Lemma get_fold (o d : pydict V) k : NoDup (map fst o) ->
  get_key (fold_left (fun d e => set_key d (fst e) (snd e)) o d) k = match get_key o k with Some v => Some v | None => get_key d k end.
Proof.
  revert d; induction o as [|[a b] o IH]; intros d H; [reflexivity|]. inversion H as [|? ? Ha Ho]; subst. cbn [fold_left fst snd map].
  rewrite IH by assumption. rewrite get_set. unfold get_key at 3. cbn [find fst snd].
  destruct (String.eqb_spec a k) as [->|Hne]; [|reflexivity].
  replace (get_key o k) with (@None V); [reflexivity|]. unfold get_key. symmetry.
  destruct (find (fun e => String.eqb (fst e) k) o) as [[x y]|] eqn:E; [|reflexivity]. exfalso. apply find_some in E as [E1 E2].
  cbn in E2. apply String.eqb_eq in E2. subst. apply Ha. apply in_map_iff. exists (k, y). auto.
Qed.
End S.

(* Every key is returned with its last value, the optional section overriding the required one; keys that appear in
   neither section are absent. *)
Theorem C69_values : forall V (req opt : list (item V)) params k,
  (read_config (Some (Some req)) (Some (Some opt)) = Ok params ->
   get_key params k = match last_value opt k with Some v => Some v | None => last_value req k end) /\
  (read_config (Some (Some req)) None = Ok params -> get_key params k = last_value req k).
Proof.
  intros V req opt params k. split; intros H; cbn in H.
  - destruct (parse_items req []) as [p|] eqn:Ep; [|discriminate]. cbn in H.
    destruct (parse_items opt []) as [q|] eqn:Eq; [|discriminate]. cbn in H. injection H as <-.
    rewrite get_fold by (apply (@parse_nodup V opt [] q); [apply (NoDup_nil string)|exact Eq]).
    rewrite (@parse_get V opt _ _ k Eq), (@parse_get V req _ _ k Ep). cbn.
    destruct (last_value opt k); [reflexivity|]. now destruct (last_value req k).
  - destruct (parse_items req []) as [p|] eqn:Ep; [|discriminate]. cbn in H. injection H as <-.
    rewrite (@parse_get V req _ _ k Ep). cbn. now destruct (last_value req k).
Qed.
Print Assumptions C69_values.

(* a configuration is accepted iff its items are non-empty mappings: the four required keys play no role *)
Theorem C69_accepted_iff : forall V (req opt : list (item V)),
  (exists params, read_config (Some (Some req)) (Some (Some opt)) = Ok params) <-> well_formed req /\ well_formed opt.
Proof.
  intros V req opt. split.
  - intros [p H]. cbn in H. destruct (parse_items req []) as [a|] eqn:Ea; [|discriminate]. cbn in H.
    destruct (parse_items opt []) as [b|] eqn:Eb; [|discriminate]. split; eapply parse_wf_inv; eassumption.
  - intros [H1 H2]. destruct (@parse_wf V req [] H1) as [a Ea], (@parse_wf V opt [] H2) as [b Eb].
    eexists. cbn. rewrite Ea. cbn. rewrite Eb. reflexivity.
Qed.
Print Assumptions C69_accepted_iff.

(* expectation: a configuration without the required keys is reported *)
Theorem C69_missing_keys_refuted : exists (req : list (item nat)) params,
  read_config (Some (Some req)) None = Ok params /\ req <> [] /\
  forall k, In k ["time_step"; "n_space_dims"; "n_variables"; "n_dft"]%string -> get_key params k = None.
Proof.
  exists [Dict [("overlap"%string, 50)]]. eexists. split; [reflexivity|]. split; [discriminate|].
  intros k [<-|[<-|[<-|[<-|[]]]]]; reflexivity.
Qed.
Print Assumptions C69_missing_keys_refuted.

(* expectation: every key of an item is returned; only the first one is *)
Theorem C69_second_key_of_an_item_refuted : exists (req : list (item nat)) params,
  read_config (Some (Some req)) None = Ok params /\
  (exists d, In (Dict d) req /\ In ("n_dft"%string, 64) d) /\ get_key params "n_dft" = None.
Proof.
  exists [Dict [("time_step"%string, 1); ("n_dft"%string, 64)]]. eexists. split; [reflexivity|]. split; [|reflexivity].
  eexists. split; [now left|]. right. now left.
Qed.
Print Assumptions C69_second_key_of_an_item_refuted.
Example C69_case : exists p, read_config (Some (Some [Dict [("a"%string, 1)]; Dict [("b"%string, 2)]; Dict [("a"%string, 3)]]))
    (Some (Some [Dict [("b"%string, 5)]])) = Ok p /\ get_key p "a" = Some 3 /\ get_key p "b" = Some 5.
Proof. eexists. split; [reflexivity|]. split; reflexivity. Qed.

(* ---------- C70 ---------- *)
Definition no_char (c : ascii) (s : string) : Prop := ~ In c (list_ascii_of_string s).
Lemma rfind_app c a : forall b i best, rfind c (a ++ b) i best = rfind c b (i + length a) (rfind c a i best).
Proof.
  induction a as [|x a IH]; intros b i best; cbn [app rfind length]; [now rewrite Nat.add_0_r|].
  rewrite IH. f_equal. lia.
Qed.
Lemma rfind_none c l : ~ In c l -> forall i best, rfind c l i best = best.
Proof.
  induction l as [|x l IH]; intros H i best; [reflexivity|]. cbn [rfind]. destruct (Ascii.eqb_spec x c) as [->|Hne].
  - exfalso. apply H. now left.
  - apply IH. intros Hin. apply H. now right.
Qed.
Lemma rfind_none_iff c l i : ~ In c l -> rfind c l i None = None.
Proof. intros H. now apply rfind_none. Qed.
Lemma lasc_app (a b : string) : list_ascii_of_string (a ++ b) = list_ascii_of_string a ++ list_ascii_of_string b.
Proof. induction a as [|x a IH]; cbn; [reflexivity|now rewrite IH]. Qed.
Lemma window_app_mid {A} (a b c : list A) : window (length a) (length b) (a ++ b ++ c) = b.
Proof.
  unfold window. rewrite skipn_app, skipn_all, Nat.sub_diag. cbn [skipn app]. rewrite firstn_app, firstn_all, Nat.sub_diag.
  cbn [firstn]. apply app_nil_r.
Qed.
Lemma existsb_nondot (b : list ascii) : (exists c, In c b /\ c <> "."%char) -> existsb (fun c => negb (Ascii.eqb c ".")) b = true.
Proof.
  intros [c [H1 H2]]. apply existsb_exists. exists c. split; [assumption|].
  destruct (Ascii.eqb_spec c "."); [contradiction|reflexivity].
Qed.

Definition dir_part (d : string) : Prop := d = EmptyString \/ exists d', d = (d' ++ "/")%string.
Lemma start_of_dir d rest : dir_part d -> ~ In "/"%char rest ->
  match rfind "/" (list_ascii_of_string d ++ rest) 0 None with Some s => S s | None => 0 end = length (list_ascii_of_string d).
Proof.
  intros Hd Hr. rewrite rfind_app, (@rfind_none _ rest Hr). destruct Hd as [->|[d' ->]]; [reflexivity|].
  rewrite lasc_app, rfind_app, app_length. cbn. lia.
Qed.
Lemma splitext_ext d base ext :
  dir_part d -> no_char "/" base -> (exists c, In c (list_ascii_of_string base) /\ c <> "."%char) ->
  no_char "/" ext -> no_char "." ext -> splitext (d ++ base ++ "." ++ ext) = ("." ++ ext)%string.
Proof.
  intros Hd Hb Hn He1 He2. unfold splitext. rewrite !lasc_app.
  set (D := list_ascii_of_string d). set (B := list_ascii_of_string base). set (E := list_ascii_of_string ext).
  change (list_ascii_of_string ".") with ["."%char].
  replace (rfind "." (D ++ B ++ ["."%char] ++ E) 0 None) with (Some (length D + length B)).
  2:{ rewrite app_assoc, rfind_app, (rfind_app _ ["."%char]), (@rfind_none _ E He2). cbn. now rewrite app_length. }
  assert (St := fun H => @start_of_dir d (B ++ ["."%char] ++ E) Hd H). fold D in St. cbv beta zeta iota. rewrite St.
  - replace (length D + length B - length D) with (length B) by lia. rewrite window_app_mid.
    fold B in Hn. rewrite existsb_nondot by assumption.
    destruct (Nat.leb_spec (length D) (length D + length B)); [|lia]. cbn [andb].
    rewrite app_assoc, skipn_app, <- app_length, skipn_all, Nat.sub_diag. cbn [app skipn]. cbn.
    unfold E. now rewrite string_of_list_ascii_of_string.
  - rewrite !in_app_iff. intros [H|[[H|[]]|H]]; [exact (Hb H)|discriminate|exact (He1 H)].
Qed.
(* no dot in the last component, or only leading ones *)
Lemma splitext_none d dots base :
  dir_part d -> (forall c, In c (list_ascii_of_string dots) -> c = "."%char) -> no_char "/" base -> no_char "." base ->
  splitext (d ++ dots ++ base) = EmptyString.
Proof.
  intros Hd Hdots Hb1 Hb2. unfold splitext. rewrite !lasc_app.
  set (D := list_ascii_of_string d). set (P := list_ascii_of_string dots). set (B := list_ascii_of_string base).
  assert (HP : ~ In "/"%char P) by (intros H; apply Hdots in H; discriminate).
  assert (St := fun H => @start_of_dir d (P ++ B) Hd H). fold D in St. cbv beta zeta iota. rewrite St; [|rewrite in_app_iff; intros [H|H]; [exact (HP H)|exact (Hb1 H)]].
  destruct (rfind "." (D ++ P ++ B) 0 None) as [k|] eqn:Ek; [|reflexivity].
  assert (Hk : k < length D + length P).
  { rewrite app_assoc, rfind_app, (@rfind_none _ B Hb2) in Ek.
    assert (G : forall l i best, (forall b, best = Some b -> b < i) -> forall r, rfind "." l i best = Some r -> r < i + length l).
    { clear. induction l as [|x l IH]; intros i best Hb r H; cbn in H; [rewrite Nat.add_0_r; auto|]. cbn [length].
      replace (i + S (length l)) with (S i + length l) by lia. refine (IH _ _ _ _ H).
      destruct (Ascii.eqb x "."); intros b E; [injection E as <-; lia|]. apply Hb in E. lia. }
    apply G in Ek; [rewrite app_length in Ek; exact Ek|discriminate]. }
  destruct (Nat.leb_spec (length D) k) as [Hle|]; [|reflexivity]. cbn [andb].
  replace (existsb _ _) with false; [reflexivity|]. symmetry. apply Bool.not_true_iff_false. intros H.
  apply existsb_exists in H as [c [Hc1 Hc2]]. unfold window in Hc1. rewrite skipn_app, skipn_all, Nat.sub_diag in Hc1. cbn [skipn app] in Hc1.
  rewrite firstn_app in Hc1. replace (k - length D - length P) with 0 in Hc1 by lia. cbn [firstn] in Hc1. rewrite app_nil_r in Hc1.
  assert (Hin : In c P) by (rewrite <- (firstn_skipn (k - length D) P); apply in_or_app; now left).
  apply Hdots in Hin. subst c. discriminate.
Qed.

(* what happens for an extension, in any case: numpy files cannot be read (the loader is not defined), unknown formats are refused *)
Definition by_extension (ext : string) (r : res loader) : Prop :=
  (same_word ext "nc" /\ r = Ok NetCDF) \/ (same_word ext "mat" /\ r = Ok Matlab) \/ (same_word ext "npy" /\ r = Err NameError) \/
  (~ same_word ext "nc" /\ ~ same_word ext "mat" /\ ~ same_word ext "npy" /\ r = Err ValueError).
Definition expected (ext : string) : option loader :=
  if String.eqb (lower ext) "nc" then Some NetCDF else if String.eqb (lower ext) "mat" then Some Matlab else None.
Definition outcome (ext : string) : res loader :=
  match expected ext with Some l => Ok l | None => if String.eqb (lower ext) "npy" then Err NameError else Err ValueError end.

Lemma outcome_ok ext : by_extension ext (outcome ext).
Proof.
  unfold by_extension, outcome, expected. rewrite !same_wordE' by reflexivity.
  destruct (String.eqb_spec (lower ext) "nc"); [auto|]. destruct (String.eqb_spec (lower ext) "mat"); [auto|].
  destruct (String.eqb_spec (lower ext) "npy"); [auto|]. right. right. right. auto.
Qed.
Lemma read_ext name : forall ext, (forall x, ext <> String "." x) -> ext <> EmptyString ->
  read_data name (Some ext) = outcome ext /\ read_data name (Some ("." ++ ext)%string) = outcome ext.
Proof.
  intros ext H1 H2. destruct ext as [|a x]; [contradiction|]. unfold read_data, outcome, expected.
  remember (lower (String a x)) as w eqn:Ew.
  assert (Hl : lower ("." ++ String a x) = ("." ++ w)%string) by (now rewrite Ew).
  assert (Hd : forall y, w <> String "." y).
  { intros y E. rewrite Ew in E. cbn in E. injection E as E _. apply (H1 x). f_equal.
    revert E. clear. destruct a as [[] [] [] [] [] [] [] []]; cbn; intros E; try discriminate E; reflexivity. }
  change ("." ++ String a x)%string with (String "." (String a x)) in *. cbv beta zeta iota. rewrite Hl, <- ?Ew.
  assert (Hx : forall y, String.eqb w (String "." y) = false) by (intros y; apply String.eqb_neq; apply Hd).
  assert (Hy : forall y z, String.eqb ("." ++ w) (String z y) = Ascii.eqb "." z && String.eqb w y) by reflexivity.
  assert (Hz : forall y, String.eqb (String "." w) (String "." y) = String.eqb w y) by reflexivity.
  change ("." ++ w)%string with (String "." w). rewrite !Hx, !Hz. cbn [orb].
  assert (N1 : String.eqb (String "." w) "npy" = false) by reflexivity.
  assert (N2 : String.eqb (String "." w) "nc" = false) by reflexivity.
  assert (N3 : String.eqb (String "." w) "mat" = false) by reflexivity.
  rewrite N1, N2, N3, !Bool.orb_false_r.
  destruct (String.eqb_spec w "npy") as [->|]; [split; reflexivity|].
  destruct (String.eqb_spec w "nc"); [split; reflexivity|]. destruct (String.eqb_spec w "mat"); split; reflexivity.
Qed.

Lemma extension_decides : forall dir base ext fmt, fmt = None \/ fmt = Some EmptyString ->
  (dir = EmptyString \/ exists d, dir = (d ++ "/")%string) ->
  no_char "/" base -> (exists c, In c (list_ascii_of_string base) /\ c <> "."%char) ->
  no_char "/" ext -> no_char "." ext ->
  read_data (dir ++ base ++ "." ++ ext) fmt = outcome ext.
Proof.
  intros dir base ext fmt Hf Hd Hb Hn He1 He2.
  assert (S := splitext_ext Hd Hb Hn He1 He2).
  destruct ext as [|a x].
  - unfold read_data. rewrite S. destruct Hf as [-> | ->]; reflexivity.
  - destruct (@read_ext EmptyString (String a x)) as [_ H]; [intros y E; injection E as -> _; apply He2; now left|discriminate|].
    unfold read_data in *. rewrite S. destruct Hf as [-> | ->]; exact H.
Qed.
(* Without a format (absent or empty) the extension of the file decides, in any case, whatever the directory and the rest of the name. *)
Theorem C70_extension_decides : forall dir base ext fmt, fmt = None \/ fmt = Some EmptyString ->
  (dir = EmptyString \/ exists d, dir = (d ++ "/")%string) ->
  no_char "/" base -> (exists c, In c (list_ascii_of_string base) /\ c <> "."%char) ->
  no_char "/" ext -> no_char "." ext ->
  by_extension ext (read_data (dir ++ base ++ "." ++ ext) fmt).
Proof. intros. rewrite extension_decides by assumption. apply outcome_ok. Qed.
Print Assumptions C70_extension_decides.

(* An explicit format wins over the name, with or without its leading dot. *)
Theorem C70_explicit_format_wins : forall name ext, ext <> EmptyString -> (forall x, ext <> String "." x) ->
  by_extension ext (read_data name (Some ext)) /\ by_extension ext (read_data name (Some ("." ++ ext)%string)).
Proof. intros name ext H1 H2. destruct (@read_ext name ext H2 H1) as [-> ->]. split; apply outcome_ok. Qed.
Print Assumptions C70_explicit_format_wins.

(* A name without extension, or a hidden file, is rejected even if it spells a known format. *)
Theorem C70_no_extension_rejected : forall dir dots base fmt, fmt = None \/ fmt = Some EmptyString ->
  (dir = EmptyString \/ exists d, dir = (d ++ "/")%string) ->
  (forall c, In c (list_ascii_of_string dots) -> c = "."%char) -> no_char "/" base -> no_char "." base ->
  read_data (dir ++ dots ++ base) fmt = Err ValueError.
Proof. intros dir dots base fmt Hf Hd H1 H2 H3. unfold read_data. destruct Hf as [-> | ->]; now rewrite splitext_none. Qed.
Print Assumptions C70_no_extension_rejected.

(* expectation: each of the three documented formats can be read; no numpy file can, whatever its name or the format given *)
Theorem C70_numpy_refuted :
  (forall dir base, (dir = EmptyString \/ exists d, dir = (d ++ "/")%string) -> no_char "/" base ->
     (exists c, In c (list_ascii_of_string base) /\ c <> "."%char) -> read_data (dir ++ base ++ ".npy") None = Err NameError) /\
  (forall name, read_data name (Some "npy"%string) = Err NameError /\ read_data name (Some ".NPY"%string) = Err NameError).
Proof.
  split.
  - intros dir base Hd Hb Hn. apply (@extension_decides dir base "npy" None (or_introl eq_refl) Hd Hb Hn); intros H; repeat destruct H as [H|H]; try discriminate; contradiction.
  - intros name. split; reflexivity.
Qed.
Print Assumptions C70_numpy_refuted.
Example C70_case : read_data "/data/run.v2/flow.v1.NC" None = Ok NetCDF /\ read_data "/data/run.v2/flow" None = Err ValueError /\
  read_data ".mat" None = Err ValueError /\ read_data "x.nc" (Some "MAT"%string) = Ok Matlab.
Proof. repeat split. Qed.
