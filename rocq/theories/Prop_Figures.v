(* C142: figures in files and on the screen *)
From Coq Require Import String Ascii Lia ZArith List.
From Verif Require Import Base_List Model_Base Model_IO Model_Figures Proof_Names Prop_IO.
Import ListNotations.
Set Implicit Arguments.
Local Open Scope nat_scope.

(* ---------- specification ---------- *)
Section Spec.
Variable A : Type.
(* the contents of a file: that of the latest save under its name *)
Fixpoint file_of (l : list (string * string * list A)) (d n : string) : option (list A) :=
  match l with
  | [] => None
  | (d', n', f) :: r => if andb (String.eqb d' d) (String.eqb n' n) then Some f else file_of r d n
  end.
End Spec.
(* dir/base.ext *)
Definition good_name (dir base ext : string) : Prop :=
  dir_part dir /\ no_char "/" base /\ (exists c, In c (list_ascii_of_string base) /\ c <> "."%char) /\ no_char "/" ext /\ no_char "." ext.
Definition name_of (dir base ext : string) : string := (dir ++ base ++ "." ++ ext)%string.
(* the name of a picture: text added between base and extension *)
Definition with_text (dir base ext text : string) : string := (dir ++ base ++ text ++ "." ++ ext)%string.
Definition mode_text (v m : Z) : string := ("_var" ++ py_str v ++ "_mode" ++ py_str m)%string.
Definition time_text (v t : Z) : string := ("_var" ++ py_str v ++ "_time" ++ py_str t)%string.
Definition place_text (c : string) (v : Z) : string := ("_coords" ++ c ++ "_var" ++ py_str v)%string.
Definition coeff_text (i : Z) : string := ("_coeff_id" ++ py_str i)%string.

(* what a loop with one picture per job should do: the open figures are what they were, every job has its file with exactly its own picture,
   and no other file is touched *)
Definition one_file_each {A J} (before after : st A) (where_ : string) (dir base ext : string) (text : J -> string) (pic : J -> res A) (jobs : list J) : Prop :=
  open after = open before /\
  (forall j, In j jobs -> exists a, pic j = Ok a /\ file_of (files after) where_ (with_text dir base ext (text j)) = Some [a]) /\
  (forall d n, (forall j, In j jobs -> (d, n) <> (where_, with_text dir base ext (text j))) -> file_of (files after) d n = file_of (files before) d n).

(* ---------- names ---------- *)
Lemma sapp_assoc (a b c : string) : ((a ++ b) ++ c = a ++ b ++ c)%string.
Proof. induction a as [|x a IH]; cbn; [reflexivity|now rewrite IH]. Qed.
Lemma sapp_inj_r (s t u : string) : (s ++ u = t ++ u)%string -> s = t.
Proof.
  intros H. assert (L : String.length s = String.length t).
  { apply (f_equal String.length) in H. rewrite !string_length_app in H. lia. }
  revert t H L. induction s as [|c s IH]; intros [|e t] H L; try discriminate; [reflexivity|]. cbn in H. injection H as -> H. f_equal.
  apply IH; [exact H|]. now injection L.
Qed.
Lemma substring_prefix (s t : string) : substring 0 (String.length s) (s ++ t) = s.
Proof. induction s as [|c s IH]; cbn; [now destruct t|now rewrite IH]. Qed.
Lemma root_of_name dir base ext : good_name dir base ext -> root_of (name_of dir base ext) = (dir ++ base)%string.
Proof.
  intros (H1 & H2 & H3 & H4 & H5). unfold root_of, name_of. rewrite splitext_ext by assumption.
  rewrite <- sapp_assoc.
  replace (String.length ((dir ++ base) ++ "." ++ ext) - String.length ("." ++ ext)) with (String.length (dir ++ base))
    by (rewrite (string_length_app (dir ++ base)); lia).
  apply substring_prefix.
Qed.
Lemma name_nonempty dir base ext : name_of dir base ext <> EmptyString.
Proof.
  intros E. apply (f_equal String.length) in E. unfold name_of in E. rewrite !string_length_app in E. cbn in E. lia.
Qed.
Lemma tmp_name_eq dir base ext suffix : good_name dir base ext ->
  tmp_name (name_of dir base ext) suffix = with_text dir base ext suffix.
Proof.
  intros H. unfold tmp_name. destruct (String.eqb_spec (name_of dir base ext) "") as [E|_]; [now apply name_nonempty in E|].
  rewrite root_of_name by assumption. destruct H as (H1 & H2 & H3 & H4 & H5). unfold name_of, with_text.
  rewrite splitext_ext by assumption. now rewrite sapp_assoc.
Qed.
Lemma with_text_nonempty dir base ext t : with_text dir base ext t <> EmptyString.
Proof.
  intros E. apply (f_equal String.length) in E. unfold with_text in E. rewrite !string_length_app in E. cbn in E. lia.
Qed.
Lemma with_text_inj dir base ext t t' : with_text dir base ext t = with_text dir base ext t' -> t = t'.
Proof. unfold with_text. intros H. apply app_inj_l in H. apply app_inj_l in H. now apply sapp_inj_r in H. Qed.
Lemma mode_text_inj v m v' m' : mode_text v m = mode_text v' m' -> (v, m) = (v', m').
Proof.
  unfold mode_text. intros H. apply app_inj_l in H. cbn [append] in H. apply split_unique in H as [H1 H]; [|apply py_str_lacks..].
  change ("mode" ++ py_str m = "mode" ++ py_str m')%string in H. apply app_inj_l in H.
  apply py_str_inj in H1, H. now subst.
Qed.
Lemma time_text_inj v m v' m' : time_text v m = time_text v' m' -> (v, m) = (v', m').
Proof.
  unfold time_text. intros H. apply app_inj_l in H. cbn [append] in H. apply split_unique in H as [H1 H]; [|apply py_str_lacks..].
  change ("time" ++ py_str m = "time" ++ py_str m')%string in H. apply app_inj_l in H.
  apply py_str_inj in H1, H. now subst.
Qed.
Lemma coeff_text_inj i j : coeff_text i = coeff_text j -> i = j.
Proof. unfold coeff_text. intros H. apply app_inj_l in H. now apply py_str_inj in H. Qed.
Lemma split_last c s : forall t u v, lacks c u -> lacks c v -> (s ++ String c u = t ++ String c v)%string -> s = t /\ u = v.
Proof.
  assert (L : forall c s w, ~ lacks c (s ++ String c w)%string).
  { clear. intros c s w. induction s as [|x s IH]; cbn; [now intros [H _]|]. intros [_ H]. auto. }
  induction s as [|x s IH]; intros [|y t] u v Hu Hv H; cbn in *.
  - injection H as ->. auto.
  - injection H as <- H. subst u. now apply L in Hu.
  - injection H as -> H. subst v. now apply L in Hv.
  - injection H as -> H. destruct (IH t u v Hu Hv H) as [-> ->]. auto.
Qed.
Lemma place_text_inj c v c' v' : place_text c v = place_text c' v' -> (c, v) = (c', v').
Proof.
  unfold place_text. intros H. apply app_inj_l in H. cbn [append] in H.
  assert (Lv : forall z, lacks "_" (String "v" (String "a" (String "r" (py_str z))))).
  { intros z. cbn. repeat split; try discriminate. apply py_str_lacks. }
  apply split_last in H as [H1 H]; [|apply Lv..]. injection H as H. apply py_str_inj in H. now subst.
Qed.

(* where a figure goes: the folder asked for, or the folder of the session *)
Definition target (here : string) (p : place) : string := match p with CWD => here | Path d => d end.
Section Proofs.
Variable A : Type.
Variable here : string.
Variable blocking : bool.
Notation save_show := (@save_show A here blocking).
Lemma file_of_cons d n f l d' n' : file_of ((d, n, f) :: l) d' n' = if andb (String.eqb d d') (String.eqb n n') then @Some (list A) f else file_of l d' n'.
Proof. reflexivity. Qed.
Lemma picture_saved J (suffix : J -> string) (draws : J -> res A) dir base ext p j s s' : good_name dir base ext ->
  picture here blocking suffix draws (name_of dir base ext) p false j s = (s', Ok tt) ->
  exists a, draws j = Ok a /\ s' = St (open s) ((target here p, with_text dir base ext (suffix j), [a]) :: files s) (pages s) (shown s).
Proof.
  intros G H. unfold picture in H. destruct (draws j) as [a|e]; [|discriminate]. injection H as <-. exists a. split; [reflexivity|].
  rewrite tmp_name_eq by assumption. unfold Model_Figures.save_show. destruct (String.eqb_spec (with_text dir base ext (suffix j)) "") as [E|_]; [now apply with_text_nonempty in E|].
  reflexivity.
Qed.
Lemma each_saved J (suffix : J -> string) (draws : J -> res A) dir base ext p : good_name dir base ext ->
  (forall j j', suffix j = suffix j' -> j = j') -> forall jobs s s',
  each (picture here blocking suffix draws (name_of dir base ext) p false) jobs s = (s', Ok tt) ->
  open s' = open s /\ pages s' = pages s /\ shown s' = shown s /\
  (forall j, In j jobs -> exists a, draws j = Ok a /\ file_of (files s') (target here p) (with_text dir base ext (suffix j)) = Some [a]) /\
  (forall d n, (forall j, In j jobs -> (d, n) <> (target here p, with_text dir base ext (suffix j))) -> file_of (files s') d n = file_of (files s) d n).
Proof.
  intros G Inj. induction jobs as [|j jobs IH]; intros s s' H; cbn [each] in H.
  { injection H as <-. repeat split; auto. now intros j []. }
  destruct (picture here blocking suffix draws (name_of dir base ext) p false j s) as [s1 r] eqn:E.
  destruct r as [[]|e]; [|discriminate]. apply (picture_saved suffix) in E as (a & Ha & E); [|assumption].
  apply IH in H as (H1 & H2 & H3 & H4 & H5). subst s1. cbn [open files pages shown] in *. repeat split; auto.
  - assert (Hold : ~ In j jobs -> file_of (files s') (target here p) (with_text dir base ext (suffix j)) = Some [a]).
    { intros Hn. rewrite H5; [|intros j' Hj' Heq; injection Heq as Heq; apply with_text_inj in Heq; apply Inj in Heq; subst; auto].
      rewrite file_of_cons. now rewrite !String.eqb_refl. }
    intros j' [<-|Hj']; [|now apply H4]. 
    (* the last picture of the same job is the same *)
    assert (D : In j jobs \/ ~ In j jobs).
    { clear - Inj. induction jobs as [|x l IH]; [right; auto|]. destruct IH as [IH|IH]; [left; now right|].
      destruct (string_dec (suffix x) (suffix j)) as [E|E]; [left; left; now apply Inj|]. right. intros [->|H]; auto. }
    destruct D as [D|D]; [destruct (H4 j D) as (b & Hb & Hf); exists b; auto|exists a; auto].
  - intros d n Hn. rewrite H5; [|intros j' Hj'; apply Hn; now right]. rewrite file_of_cons.
    destruct (String.eqb_spec (target here p) d) as [<-|]; [|reflexivity]. cbn [andb].
    destruct (String.eqb_spec (with_text dir base ext (suffix j)) n) as [<-|]; [|reflexivity].
    exfalso. now apply (Hn j (or_introl eq_refl)).
Qed.
End Proofs.

(* ---------- one file for each picture ---------- *)
Theorem C142_one_file_per_mode : forall A here blocking vars modes n pic dir base ext p (s s' : st A), good_name dir base ext ->
  plot_2d_modes here blocking vars modes n pic (name_of dir base ext) p false s = (s', Ok tt) ->
  one_file_each s s' (target here p) dir base ext (fun vm => mode_text (fst vm) (snd vm)) pic
    (filter (fun vm => (snd vm <? n)%Z) (list_prod vars modes)).
Proof.
  intros A here blocking vars modes n pic dir base ext p s s' G H. unfold plot_2d_modes in H. apply each_saved in H; [|assumption|].
  - unfold one_file_each. destruct H as (H1 & _ & _ & H4 & H5). auto.
  - intros [v m] [v' m'] E. now apply mode_text_inj in E.
Qed.
Print Assumptions C142_one_file_per_mode.
Theorem C142_one_file_per_slice : forall A here blocking vars modes pic dir base ext p (s s' : st A), good_name dir base ext ->
  plot_3d_slices here blocking vars modes pic (name_of dir base ext) p s = (s', Ok tt) ->
  one_file_each s s' (target here p) dir base ext (fun vm => mode_text (fst vm) (snd vm)) pic (list_prod vars modes).
Proof.
  intros A here blocking vars modes pic dir base ext p s s' G H. unfold plot_3d_slices in H. apply each_saved in H; [|assumption|].
  - unfold one_file_each. destruct H as (H1 & _ & _ & H4 & H5). auto.
  - intros [v m] [v' m'] E. now apply mode_text_inj in E.
Qed.
Print Assumptions C142_one_file_per_slice.
Theorem C142_one_file_per_snapshot : forall A here blocking vars times pic dir base ext p (s s' : st A), good_name dir base ext ->
  plot_2d_data here blocking vars times pic (name_of dir base ext) p s = (s', Ok tt) ->
  one_file_each s s' (target here p) dir base ext (fun vt => time_text (fst vt) (snd vt)) pic (list_prod vars times).
Proof.
  intros A here blocking vars modes pic dir base ext p s s' G H. unfold plot_2d_data in H. apply each_saved in H; [|assumption|].
  - unfold one_file_each. destruct H as (H1 & _ & _ & H4 & H5). auto.
  - intros [v m] [v' m'] E. now apply time_text_inj in E.
Qed.
Print Assumptions C142_one_file_per_snapshot.
Theorem C142_one_file_per_place : forall A here blocking places vars pic dir base ext p (s s' : st A), good_name dir base ext ->
  plot_data_tracers here blocking places vars pic (name_of dir base ext) p s = (s', Ok tt) ->
  one_file_each s s' (target here p) dir base ext (fun cv => place_text (fst cv) (snd cv)) pic (list_prod places vars).
Proof.
  intros A here blocking places vars pic dir base ext p s s' G H. unfold plot_data_tracers in H. apply each_saved in H; [|assumption|].
  - unfold one_file_each. destruct H as (H1 & _ & _ & H4 & H5). auto.
  - intros [v m] [v' m'] E. now apply place_text_inj in E.
Qed.
Print Assumptions C142_one_file_per_place.
Lemma good_png : good_name "out/" "mode" "png".
Proof.
  unfold good_name, no_char. cbn. repeat split; try (intros H; repeat destruct H as [H|H]; try discriminate; now auto).
  - right. exists "out"%string. reflexivity.
  - exists "m"%char. split; [now left|discriminate].
Qed.
Example C142_case : forall b s, exists s',
  plot_2d_modes "/home" b [0%Z] [0%Z; 1%Z; 7%Z] 3 (fun vm => Ok vm) (name_of "out/" "mode" "png") (@CWD) false s = (s', Ok tt) /\
  file_of (files s') "/home" "out/mode_var0_mode1.png" = Some [(0, 1)]%Z /\ file_of (files s') "/home" "out/mode_var0_mode7.png" = file_of (files s) "/home" "out/mode_var0_mode7.png".
Proof.
  intros b s. eexists. assert (G := good_png). split.
  - unfold plot_2d_modes. cbn [list_prod map app filter fst snd Z.ltb Z.compare Pos.compare Pos.compare_cont each]. unfold picture. rewrite !tmp_name_eq by assumption. reflexivity.
  - split; reflexivity.
Qed.

(* ---------- frequency and slice are not part of the name ---------- *)
Lemma one_of_the_jobs (d name where_ : string) dir base ext (jobs : list (Z * Z)) :
  (exists j, In j jobs /\ (d, name) = (where_, with_text dir base ext (mode_text (fst j) (snd j)))) \/
  (forall j, In j jobs -> (d, name) <> (where_, with_text dir base ext (mode_text (fst j) (snd j)))).
Proof.
  induction jobs as [|x l IH]; [right; now intros j []|]. destruct IH as [(j & Hj & E)|IH]; [left; exists j; split; [now right|assumption]|].
  destruct (string_dec d where_) as [->|Hd]; [|right; intros j _ E; injection E; auto].
  destruct (string_dec name (with_text dir base ext (mode_text (fst x) (snd x)))) as [->|Hn].
  - left. exists x. split; [now left|reflexivity].
  - right. intros j [<-|Hj]; [intros E; injection E; auto|now apply IH].
Qed.
Theorem C142_frequencies_have_own_files_refuted : forall A here blocking vars modes n pic_f pic_g dir base ext p (s s1 s2 : st A), good_name dir base ext ->
  plot_2d_modes here blocking vars modes n pic_f (name_of dir base ext) p false s = (s1, Ok tt) ->
  plot_2d_modes here blocking vars modes n pic_g (name_of dir base ext) p false s1 = (s2, Ok tt) ->
  forall d name, file_of (files s2) d name = file_of (files s) d name \/
    exists v m a, In v vars /\ In m modes /\ pic_g (v, m) = Ok a /\ file_of (files s2) d name = Some [a].
Proof.
  intros A here blocking vars modes n pf pg dir base ext p s s1 s2 G H1 H2 d name.
  apply C142_one_file_per_mode in H1 as (_ & _ & K1); [|assumption]. apply C142_one_file_per_mode in H2 as (_ & W & K2); [|assumption].
  set (jobs := filter (fun vm : Z * Z => (snd vm <? n)%Z) (list_prod vars modes)) in *.
  destruct (one_of_the_jobs d name (target here p) dir base ext jobs) as [(j & Hj & E)|D].
  - right. injection E as -> ->. destruct (W j Hj) as (a & Ha & Hf). destruct j as [v m]. unfold jobs in Hj. apply filter_In in Hj as [Hj _].
    apply in_prod_iff in Hj as [Hv Hm]. exists v, m, a. auto.
  - left. rewrite K2, K1; auto.
Qed.
Print Assumptions C142_frequencies_have_own_files_refuted.
(* slices i and j of the same mode; likewise a slice after a 2-D plot *)
Theorem C142_slices_have_own_files_refuted : forall A here blocking vars modes pic_i pic_j dir base ext p (s s1 s2 : st A), good_name dir base ext ->
  plot_3d_slices here blocking vars modes pic_i (name_of dir base ext) p s = (s1, Ok tt) ->
  plot_3d_slices here blocking vars modes pic_j (name_of dir base ext) p s1 = (s2, Ok tt) ->
  forall d name, file_of (files s2) d name = file_of (files s) d name \/
    exists v m a, In v vars /\ In m modes /\ pic_j (v, m) = Ok a /\ file_of (files s2) d name = Some [a].
Proof.
  intros A here blocking vars modes pf pg dir base ext p s s1 s2 G H1 H2 d name.
  apply C142_one_file_per_slice in H1 as (_ & _ & K1); [|assumption]. apply C142_one_file_per_slice in H2 as (_ & W & K2); [|assumption].
  destruct (one_of_the_jobs d name (target here p) dir base ext (list_prod vars modes)) as [(j & Hj & E)|D].
  - right. injection E as -> ->. destruct (W j Hj) as (a & Ha & Hf). destruct j as [v m].
    apply in_prod_iff in Hj as [Hv Hm]. exists v, m, a. auto.
  - left. rewrite K2, K1; auto.
Qed.
Print Assumptions C142_slices_have_own_files_refuted.
Example C142_overwritten : forall b s, exists s1 s2,
  plot_2d_modes "/home" b [0%Z] [0%Z] 3 (fun vm => Ok "at frequency 1"%string) (name_of "out/" "mode" "png") (@CWD) false s = (s1, Ok tt) /\
  file_of (files s1) "/home" "out/mode_var0_mode0.png" = Some ["at frequency 1"%string] /\
  plot_2d_modes "/home" b [0%Z] [0%Z] 3 (fun vm => Ok "at frequency 2"%string) (name_of "out/" "mode" "png") (@CWD) false s1 = (s2, Ok tt) /\
  file_of (files s2) "/home" "out/mode_var0_mode0.png" = Some ["at frequency 2"%string].
Proof.
  intros b s. eexists. eexists. assert (G := good_png). split; [|split; [|split]].
  - unfold plot_2d_modes. cbn [list_prod map app filter fst snd Z.ltb Z.compare Pos.compare Pos.compare_cont each]. unfold picture. rewrite !tmp_name_eq by assumption. reflexivity.
  - reflexivity.
  - unfold plot_2d_modes. cbn [list_prod map app filter fst snd Z.ltb Z.compare Pos.compare Pos.compare_cont each]. unfold picture. rewrite !tmp_name_eq by assumption. reflexivity.
  - reflexivity.
Qed.

(* ---------- curves of coefficients ---------- *)
Lemma coeffs_loop A here blocking (draws : Z -> res A) dir base ext p (G : good_name dir base ext) : forall ids curves (s : st A),
  NoDup ids -> Forall2 (fun i a => draws i = Ok a) ids curves ->
  exists s', each (fun i s => match draws i with
                   | Err e => (s, Err e)
                   | Ok a => (save_show here blocking (tmp_name (name_of dir base ext) (suffix_coeff i)) p false (draw a s), Ok tt)
                   end) ids s = (s', Ok tt) /\
    open s' = skipn (length ids) (open s) /\
    (forall k i a, nth_error ids k = Some i -> nth_error curves k = Some a ->
       file_of (files s') (target here p) (with_text dir base ext (coeff_text i)) = Some (nth k (open s) [] ++ [a])) /\
    (forall d n, (forall i, In i ids -> (d, n) <> (target here p, with_text dir base ext (coeff_text i))) -> file_of (files s') d n = file_of (files s) d n).
Proof.
  induction ids as [|i ids IH]; intros curves s Hnd HF; inversion HF as [|x a y l Ha HF']; subst; cbn [each].
  { exists s. repeat split; auto. intros [|k]; discriminate. }
  inversion Hnd as [|x y Hni Hnd']; subst.
  rewrite Ha, tmp_name_eq by assumption. unfold Model_Figures.save_show. change (folder here p) with (target here p).
  destruct (String.eqb_spec (with_text dir base ext (suffix_coeff i)) "") as [E|_]; [now apply with_text_nonempty in E|].
  edestruct (IH l) as (s' & E & Ho & Hf & Hk); [assumption|eassumption|]. exists s'. split; [exact E|]. clear E.
  cbn [open files draw] in Ho, Hf, Hk.
  split; [|split].
  - rewrite Ho. cbn [length]. destruct (open s) as [|t r]; cbn [tl skipn]; [now rewrite skipn_nil|reflexivity].
  - intros [|k] j b Hj Hb; cbn [nth_error] in Hj, Hb.
    + injection Hj as <-. injection Hb as <-. rewrite Hk; [|intros j Hj E; injection E as E; apply with_text_inj in E; apply coeff_text_inj in E; congruence].
      rewrite file_of_cons. unfold coeff_text, suffix_coeff. rewrite !String.eqb_refl. cbn [andb]. f_equal. now destruct (open s).
    + rewrite (Hf k j b Hj Hb). f_equal. f_equal. destruct (open s) as [|t r]; cbn [tl]; [|reflexivity]. now destruct k.
  - intros d n Hn. rewrite Hk; [|intros j Hj; apply Hn; now right]. rewrite file_of_cons.
    destruct (String.eqb_spec (target here p) d) as [<-|]; [|reflexivity]. cbn [andb].
    destruct (String.eqb_spec (with_text dir base ext (suffix_coeff i)) n) as [<-|]; [|reflexivity].
    exfalso. now apply (Hn i (or_introl eq_refl)).
Qed.
(* the first curve has a figure of its own; the others are drawn on whatever figures were open, newest first, which are saved with them and closed *)
Theorem C142_coefficient_curves : forall A here blocking (draws : Z -> res A) dir base ext p ids curves (s : st A), good_name dir base ext ->
  NoDup ids -> Forall2 (fun i a => draws i = Ok a) ids curves ->
  exists s', plot_coeffs here blocking ids draws (name_of dir base ext) p s = (s', Ok tt) /\
    open s' = skipn (length ids) ([] :: open s) /\
    (forall i a, nth_error ids 0 = Some i -> nth_error curves 0 = Some a ->
       file_of (files s') (target here p) (with_text dir base ext (coeff_text i)) = Some [a]) /\
    (forall k i a, nth_error ids (S k) = Some i -> nth_error curves (S k) = Some a ->
       file_of (files s') (target here p) (with_text dir base ext (coeff_text i)) = Some (nth k (open s) [] ++ [a])).
Proof.
  intros A here blocking draws dir base ext p ids curves s G Hnd HF.
  destruct (@coeffs_loop A here blocking draws dir base ext p G ids curves (figure s) Hnd HF) as (s' & E & Ho & Hf & _).
  exists s'. split; [exact E|]. split; [exact Ho|]. split.
  - intros i a Hi Ha. now rewrite (Hf 0 i a Hi Ha).
  - intros k i a Hi Ha. now rewrite (Hf (S k) i a Hi Ha).
Qed.
Print Assumptions C142_coefficient_curves.
(* with no other figure open every file shows its own curve alone *)
Theorem C142_coefficient_files : forall A here blocking (draws : Z -> res A) dir base ext p ids curves (s : st A), good_name dir base ext ->
  open s = [] -> ids <> [] -> NoDup ids -> Forall2 (fun i a => draws i = Ok a) ids curves ->
  exists s', plot_coeffs here blocking ids draws (name_of dir base ext) p s = (s', Ok tt) /\ open s' = [] /\
    forall k i a, nth_error ids k = Some i -> nth_error curves k = Some a ->
      file_of (files s') (target here p) (with_text dir base ext (coeff_text i)) = Some [a].
Proof.
  intros A here blocking draws dir base ext p ids curves s G Ho Hn Hnd HF.
  destruct (@C142_coefficient_curves A here blocking draws dir base ext p ids curves s G Hnd HF) as (s' & E & H1 & H2 & H3).
  exists s'. split; [exact E|]. rewrite Ho in H1, H3. split.
  - rewrite H1. destruct ids as [|i ids]; [contradiction|]. cbn [length skipn]. apply skipn_nil.
  - intros [|k] i a Hi Ha; [auto|]. rewrite (H3 k i a Hi Ha). now destruct k.
Qed.
Print Assumptions C142_coefficient_files.
(* a figure the user has open is drawn on, stored under the name of a coefficient, and closed *)
Theorem C142_open_figures_untouched_refuted : forall A here blocking (draws : Z -> res A) dir base ext p i j a b (mine : list A) rest files0 pages0 shown0,
  good_name dir base ext -> i <> j -> draws i = Ok a -> draws j = Ok b ->
  exists s', plot_coeffs here blocking [i; j] draws (name_of dir base ext) p (St (mine :: rest) files0 pages0 shown0) = (s', Ok tt) /\
    open s' = rest /\ file_of (files s') (target here p) (with_text dir base ext (coeff_text j)) = Some (mine ++ [b]).
Proof.
  intros A here blocking draws dir base ext p i j a b mine rest f0 p0 s0 G Hij Ha Hb.
  destruct (@C142_coefficient_curves A here blocking draws dir base ext p [i; j] [a; b] (St (mine :: rest) f0 p0 s0) G) as (s' & E & H1 & _ & H3).
  - repeat constructor; cbn; intuition congruence.
  - repeat constructor; assumption.
  - exists s'. split; [exact E|]. split; [exact H1|]. now apply (H3 0 j b).
Qed.
Print Assumptions C142_open_figures_untouched_refuted.
(* without a file name and without windows all curves pile up in one figure *)
Theorem C142_curves_on_screen : forall A here (draws : Z -> res A) p ids curves (s : st A), Forall2 (fun i a => draws i = Ok a) ids curves ->
  exists s', plot_coeffs here false ids draws "" p s = (s', Ok tt) /\ open s' = curves :: open s /\ files s' = files s /\
    shown s' = shown s ++ map (fun k => firstn (S k) curves :: open s) (seq 0 (length curves)).
Proof.
  intros A here draws p ids curves s HF. unfold plot_coeffs.
  assert (L : forall ids curves done (s : st A) S0, open s = done :: S0 -> Forall2 (fun i a => draws i = Ok a) ids curves ->
    exists s', each (fun i s => match draws i with
                   | Err e => (s, Err e)
                   | Ok a => (save_show here false (tmp_name "" (suffix_coeff i)) p false (draw a s), Ok tt)
                   end) ids s = (s', Ok tt) /\ open s' = (done ++ curves) :: S0 /\ files s' = files s /\
      shown s' = shown s ++ map (fun k => (done ++ firstn (S k) curves) :: S0) (seq 0 (length curves))).
  { clear. induction ids as [|i ids IH]; intros curves done s S0 Ho HF; inversion HF as [|x a y l Ha HF']; subst; cbn [each].
    { exists s. rewrite app_nil_r. cbn. rewrite app_nil_r. auto. }
    rewrite Ha. cbn [tmp_name Model_Figures.save_show String.eqb]. unfold draw. rewrite Ho. cbn [open files pages shown].
    destruct (IH l (done ++ [a]) (St ((done ++ [a]) :: S0) (files s) (pages s) (shown s ++ [(done ++ [a]) :: S0])) S0 eq_refl HF') as (s' & E & H1 & H2 & H3).
    exists s'. split; [exact E|].
    rewrite H1, H2, H3. cbn [files shown]. rewrite <- !app_assoc. cbn [app]. split; [reflexivity|]. split; [reflexivity|].
    f_equal. cbn [length seq map]. f_equal.
    rewrite <- seq_shift, map_map. apply map_ext. intros k. cbn [firstn]. now rewrite <- app_assoc. }
  edestruct (L ids curves [] (figure s) (open s)) as (s' & E & H1 & H2 & H3); [reflexivity|eassumption|]. exists s'. auto.
Qed.
Print Assumptions C142_curves_on_screen.

(* ---------- pages of a document ---------- *)
(* the pages are right, and every figure stays open *)
Theorem C142_pages : forall A here blocking vars modes n pic filename p (s s' : st A),
  plot_2d_modes here blocking vars modes n pic filename p true s = (s', Ok tt) ->
  exists pics, Forall2 (fun vm a => pic vm = Ok a) (filter (fun vm => (snd vm <? n)%Z) (list_prod vars modes)) pics /\
    pages s' = pages s ++ map (fun a => [a]) pics /\ open s' = rev (map (fun a => [a]) pics) ++ open s /\ files s' = files s.
Proof.
  intros A here blocking vars modes n pic filename p s s' H. unfold plot_2d_modes in H. revert s s' H.
  generalize (filter (fun vm : Z * Z => (snd vm <? n)%Z) (list_prod vars modes)). induction l as [|x l IH]; intros s s' H; cbn [each] in H.
  { injection H as <-. exists []. cbn. rewrite app_nil_r. auto. }
  unfold picture in H at 1. destruct (pic x) as [a|e] eqn:Ha; [|discriminate]. cbn [Model_Figures.save_show] in H.
  apply IH in H as (pics & H1 & H2 & H3 & H4). exists (a :: pics). cbn [open files pages shown draw figure hd app map rev] in *.
  split; [now constructor|]. rewrite H2, H3, <- !app_assoc. auto.
Qed.
Print Assumptions C142_pages.

(* ---------- histories ---------- *)
(* calls that store their figures: a proper file name, no document, and exactly one coefficient at a time *)
Definition storing {A} (c : call A) : Prop :=
  match c with
  | Modes2D _ _ _ _ f _ pdf => pdf = false /\ exists dir base ext, good_name dir base ext /\ f = name_of dir base ext
  | Slices3D _ _ _ f _ | Data2D _ _ _ f _ | Tracers _ _ _ f _ | One _ f _ => exists dir base ext, good_name dir base ext /\ f = name_of dir base ext
  | Coeffs ids _ f _ => length ids = 1 /\ exists dir base ext, good_name dir base ext /\ f = name_of dir base ext
  end.
Definition raised (x : res unit) : bool := match x with Ok _ => false | Err _ => true end.
Lemma each_open A here blocking J (suffix : J -> string) (draws : J -> res A) dir base ext p : good_name dir base ext -> forall jobs (s : st A),
  open (fst (each (picture here blocking suffix draws (name_of dir base ext) p false) jobs s)) =
  repeat [] (if raised (snd (each (picture here blocking suffix draws (name_of dir base ext) p false) jobs s)) then 1 else 0) ++ open s.
Proof.
  intros G. induction jobs as [|j jobs IH]; intros s; cbn [each]; [reflexivity|].
  destruct (picture here blocking suffix draws (name_of dir base ext) p false j s) as [s1 r] eqn:E. destruct r as [[]|e].
  - rewrite IH. apply picture_saved in E as (a & _ & ->); [reflexivity|assumption].
  - unfold picture in E. destruct (draws j); [discriminate|]. injection E as <- <-. reflexivity.
Qed.
Lemma perform_open A here blocking (c : call A) (s : st A) : storing c ->
  open (fst (perform here blocking c s)) = repeat [] (if raised (snd (perform here blocking c s)) then 1 else 0) ++ open s.
Proof.
  destruct c as [vars modes n draws f p pdf|vars modes draws f p|vars times draws f p|places vars draws f p|ids draws f p|draws f p]; cbn [storing perform].
  - intros (-> & dir & base & ext & G & ->). now apply each_open.
  - intros (dir & base & ext & G & ->). now apply each_open.
  - intros (dir & base & ext & G & ->). now apply each_open.
  - intros (dir & base & ext & G & ->). now apply each_open.
  - intros (L & dir & base & ext & G & ->). destruct ids as [|i [|]]; try discriminate. unfold plot_coeffs. cbn [each].
    destruct (draws i) as [a|e]; [|reflexivity]. rewrite tmp_name_eq by assumption. unfold Model_Figures.save_show.
    destruct (String.eqb_spec (with_text dir base ext (suffix_coeff i)) "") as [E|_]; [now apply with_text_nonempty in E|]. reflexivity.
  - intros (dir & base & ext & G & ->). unfold plot_one. destruct draws as [a|e]; [|reflexivity]. unfold Model_Figures.save_show.
    destruct (String.eqb_spec (name_of dir base ext) "") as [E|_]; [now apply name_nonempty in E|]. reflexivity.
Qed.
(* over any history of such calls the open figures of the user stay as they are; every call that raises leaves one empty figure behind *)
Theorem C142_open_figures_over_a_session : forall A here blocking (cs : list (call A)) (s : st A), Forall storing cs ->
  open (fst (run here blocking cs s)) = repeat [] (length (filter raised (snd (run here blocking cs s)))) ++ open s.
Proof.
  intros A here blocking. induction cs as [|c cs IH]; intros s H; [reflexivity|]. inversion H as [|x y Hc Hcs]; subst. cbn [run].
  assert (P := @perform_open A here blocking c s Hc). destruct (perform here blocking c s) as [s1 x]. cbn [fst snd] in P.
  specialize (IH s1 Hcs). destruct (run here blocking cs s1) as [s2 xs]. cbn [fst snd] in *. rewrite IH, P. cbn [filter].
  destruct (raised x); cbn [length]; [|reflexivity]. generalize (length (filter raised xs)). intros n. cbn [repeat app].
  induction n as [|n IHn]; [reflexivity|]. cbn [repeat app]. now rewrite IHn.
Qed.
Print Assumptions C142_open_figures_over_a_session.
Example C142_session_case : Forall storing [One (Ok 1) (name_of "out/" "mode" "png") CWD; Coeffs [3%Z] (fun _ => Err IndexError) (name_of "out/" "mode" "png") CWD].
Proof. repeat (apply Forall_cons; [cbn; repeat split; exists "out/"%string, "mode"%string, "png"%string; split; [apply good_png|reflexivity]|]). constructor. Qed.
