(* C133: the precision asked for and the precision obtained. *)
From Coq Require Import String List Bool.
From Verif Require Import Base_List Model_Dtype.
Import ListNotations.
Set Implicit Arguments.
Local Open Scope string_scope.

(* ---- specification ---- *)
Definition is_double (d : dtype) : Prop := d = F64 \/ d = C128.
Definition is_single (d : dtype) : Prop := d = F32 \/ d = C64.
Definition all_files (P : dtype -> Prop) (fo : folder) : Prop :=
  forall d, In (Some d) [f_modes fo; f_eigs fo; f_mean fo; f_weights fo; c_modes fo; c_mean fo; c_coeffs fo; c_rec fo] -> P d.
(* the user says "double" (or np.dtype('float64')) and passes float64 arrays *)
Definition double_call (c : call) : Prop :=
  match c with
  | Fit _ _ dt wt => (dt = Str "double" \/ dt = DtF64) /\ wt = F64
  | MCoeffs _ dx => dx = F64
  | MRec => True
  | UCoeffs _ dt dx | UConv dt dx => (dt = Str "double" \/ dt = DtF64 \/ dt = NpF64) /\ dx = F64
  | URec dt => dt = Str "double" \/ dt = DtF64 \/ dt = NpF64
  end.
Definition single_arg (dt : darg) : Prop := dt = Str "single" \/ dt = DtF32 \/ dt = NpF32.
Definition a_float (d : dtype) : Prop := d = F32 \/ d = F64.
(* the user says "single" everywhere, numpy 1, float data and weights, no convolution, no method that forgets the setting *)
Definition single_call (c : call) : Prop :=
  match c with
  | Fit nep50 _ dt wt => nep50 = false /\ single_arg dt /\ a_float wt
  | UCoeffs _ dt dx => single_arg dt /\ a_float dx
  | URec dt => single_arg dt
  | MCoeffs _ _ | MRec | UConv _ _ => False
  end.
(* a session that computes coefficients and reconstructions only by the methods of an object *)
Definition method_call (c : call) : Prop := match c with UCoeffs _ _ _ | UConv _ _ | URec _ => False | _ => True end.

Lemma all_filesE P fo : all_files P fo <-> let '(Folder a b c d e f g h) := fo in
  let ok o := match o with Some x => P x | None => True end in
  ok a /\ ok b /\ ok c /\ ok d /\ ok e /\ ok f /\ ok g /\ ok h.
Proof.
  destruct fo as [a b c d e f g h]. unfold all_files. cbn. split.
  - intros H. repeat split; match goal with |- match ?o with _ => _ end => destruct o; [|exact I] end; apply H; auto 10.
  - intros (Ha & Hb & Hc & Hd & He & Hf & Hg & Hh) x Hx.
    repeat (destruct Hx as [Hx|Hx]; [subst; assumption|]). destruct Hx.
Qed.
Lemma run_inv (P : folder -> Prop) (Q : call -> Prop) : (forall fo c, P fo -> Q c -> P (fst (step fo c))) -> forall h fo, P fo -> Forall Q h -> P (run fo h).
Proof. intros Hs h. induction h as [|c h IH]; intros fo Hp Hh; cbn; auto. inversion Hh; subst. auto. Qed.

(* ---- C133 ---- *)
(* double precision throughout a session, for either generation of numpy *)
Theorem C133_double_stays_double : forall h, Forall double_call h -> all_files is_double (run empty h).
Proof.
  intros h Hh. eapply run_inv with (Q := double_call); [|apply all_filesE; cbn; auto 10|exact Hh]. clear h Hh.
  intros fo c Hp Hc. rewrite all_filesE in *. destruct fo as [a b e d f g k l].
  assert (HD : forall dt, dt = Str "double" \/ dt = DtF64 \/ dt = NpF64 -> utils_prec dt = Ok Double) by (intros dt [-> | [-> | -> ]]; reflexivity).
  destruct c as [n cl dt wt|s dx| |s dt dx|dt dx|dt]; cbn in Hc.
  - destruct Hc as [Hd -> ]. assert (E : class_prec dt = Double) by (destruct Hd as [-> | -> ]; reflexivity).
    cbn [step fst]. rewrite E. destruct Hp as (_ & _ & _ & _ & Hp). cbn. destruct n, cl; cbn; repeat split; try tauto; unfold is_double; auto.
  - subst dx. cbn. destruct a, d; cbn; try exact Hp. destruct Hp as (H1 & H2 & H3 & [-> | -> ] & Hp); destruct s; cbn; repeat split; try tauto; unfold is_double; auto.
  - cbn. destruct f, g, k; cbn; try exact Hp. destruct Hp as (H1 & H2 & H3 & H4 & [-> | -> ] & [-> | -> ] & [-> | -> ] & H8); cbn; repeat split; try tauto; unfold is_double; auto.
  - destruct Hc as [Hd -> ]. cbn [step]. rewrite (HD _ Hd). cbn. destruct a, d; cbn; try exact Hp.
    destruct Hp as (H1 & H2 & H3 & [-> | -> ] & Hp); destruct s; cbn; repeat split; try tauto; unfold is_double; auto.
  - destruct Hc as [Hd -> ]. cbn [step]. rewrite (HD _ Hd). cbn. destruct a, d; cbn; try exact Hp. cbn in Hp. repeat split; try tauto; unfold is_double; auto.
  - cbn [step]. rewrite (HD _ Hc). cbn. destruct f, g, k; cbn; try exact Hp.
    destruct Hp as (H1 & H2 & H3 & H4 & [-> | -> ] & [-> | -> ] & [-> | -> ] & H8); cbn; repeat split; try tauto; unfold is_double; auto.
Qed.
Print Assumptions C133_double_stays_double.

(* single precision throughout a session, under the stated conditions *)
Theorem C133_single_stays_single : forall h, Forall single_call h -> all_files is_single (run empty h).
Proof.
  intros h Hh. eapply run_inv with (Q := single_call); [|apply all_filesE; cbn; auto 10|exact Hh]. clear h Hh.
  intros fo c Hp Hc. rewrite all_filesE in *. destruct fo as [a b e d f g k l].
  assert (HD : forall dt, single_arg dt -> utils_prec dt = Ok Single) by (intros dt [-> | [-> | -> ]]; reflexivity).
  destruct c as [n cl dt wt|s dx| |s dt dx|dt dx|dt]; cbn in Hc; try contradiction.
  - destruct Hc as (-> & Hd & Hw). assert (E : class_prec dt = Single) by (destruct Hd as [-> | [-> | -> ]]; reflexivity).
    cbn [step fst]. rewrite E. destruct Hp as (_ & _ & _ & _ & Hp). cbn. destruct Hw as [-> | -> ], cl; cbn; repeat split; try tauto; unfold is_single; auto.
  - destruct Hc as [Hd Hx]. cbn [step]. rewrite (HD _ Hd). cbn. destruct a, d; cbn; try exact Hp.
    destruct Hp as (H1 & H2 & H3 & [-> | -> ] & Hp); destruct Hx as [-> | -> ], s; cbn; repeat split; try tauto; unfold is_single; auto.
  - cbn [step]. rewrite (HD _ Hc). cbn. destruct f, g, k; cbn; try exact Hp.
    destruct Hp as (H1 & H2 & H3 & H4 & [-> | -> ] & [-> | -> ] & [-> | -> ] & H8); cbn; repeat split; try tauto; unfold is_single; auto.
Qed.
Print Assumptions C133_single_stays_single.

(* expectation: an object fitted in single precision computes its coefficients in single precision. Whatever the fits of a session asked for,
   coefficients and reconstructions of the methods are stored in double precision. *)
Theorem C133_methods_forget_the_precision_refuted : forall h, Forall method_call h ->
  (forall d, c_coeffs (run empty h) = Some d -> d = C128) /\ (forall d, c_modes (run empty h) = Some d -> d = C128) /\ (forall d, c_rec (run empty h) = Some d -> d = C128).
Proof.
  intros h Hh.
  assert (H : (fun fo => (forall d, c_coeffs fo = Some d -> d = C128) /\ (forall d, c_modes fo = Some d -> d = C128) /\ (forall d, c_rec fo = Some d -> d = C128)) (run empty h)); [|exact H].
  apply run_inv with (Q := method_call); [|cbn; repeat split; discriminate|exact Hh]. clear h Hh.
  intros fo c Hp Hc. destruct fo as [a b e d f g k l], c as [n cl dt wt|s dx| |s dt dx|dt dx|dt]; cbn in Hc, Hp; try contradiction.
  - exact Hp.
  - cbn. destruct a, d; cbn; try exact Hp. destruct Hp as (_ & _ & H3). repeat split; auto; intros x Hx; inversion Hx; subst; destruct s, dx, d; reflexivity.
  - cbn. destruct f, g, k; cbn; try exact Hp. destruct Hp as (H1 & H2 & H3). repeat split; auto. intros x Hx. inversion Hx. rewrite (H1 _ eq_refl), (H2 _ eq_refl). now destruct d1.
Qed.
Print Assumptions C133_methods_forget_the_precision_refuted.

(* which argument means double precision to the classes, and to the functions of the spod module *)
Theorem C133_meaning_of_the_argument : forall a,
  (class_prec a = Double <-> a = Str "double" \/ a = DtF64) /\
  (utils_prec a = Ok Double <-> a = Str "double" \/ a = DtF64 \/ a = NpF64) /\
  (utils_prec a = Ok Single <-> single_arg a) /\
  ((exists e, utils_prec a = Err e) <-> exists s, a = Str s /\ s <> "double" /\ s <> "single").
Proof.
  intros a. unfold class_prec, utils_prec, single_arg.
  assert (T : forall P Q : Prop, (P -> Q) -> (Q -> P) -> (P <-> Q)) by (intros; split; auto).
  destruct a as [s| | | | ]; cbn; [destruct (String.eqb_spec s "double") as [->|Hd]; cbn; [|destruct (String.eqb_spec s "single") as [->|Hs]; cbn]|..];
    (split; [|split; [|split]]; apply T; intros H;
     try discriminate; auto;
     try (destruct H as [x H]; try (destruct H as (H & Hx & Hy); inversion H; subst); try discriminate; try contradiction; congruence);
     try (destruct H as [H|[H|H]]; try discriminate; inversion H; subst; try contradiction; congruence);
     try (destruct H as [H|H]; try discriminate; inversion H; subst; try contradiction; congruence);
     eauto).
Qed.
Print Assumptions C133_meaning_of_the_argument.
(* expectation: np.float64 means double precision. The classes take it, and any other name such as 'float64', for single precision. *)
Theorem C133_np_float64_refuted : forall n k wt h, a_float wt -> n = false ->
  Forall (fun c => match c with Fit _ _ _ _ => False | _ => True end) h ->
  let fo := run empty (Fit n k NpF64 wt :: h) in f_modes fo = Some C64 /\ f_mean fo = Some F32.
Proof.
  intros n k wt h Hw -> Hh. cbn [run fst step]. cbn -[run].
  match goal with |- context [run ?g h] => assert (H : (fun fo => f_modes fo = Some C64 /\ f_mean fo = Some F32) (run g h)); [|exact H] end.
  apply run_inv with (Q := fun c => match c with Fit _ _ _ _ => False | _ => True end); auto.
  - intros fo c [Ha He] Hc. destruct fo as [a b e d f g kk l]; cbn in Ha, He; subst a e.
    destruct c as [n' cl dt wt'|s dx| |s dt dx|dt dx|dt]; try contradiction; cbn.
    1: destruct d; cbn; auto. 1: destruct f, g, kk; cbn; auto.
    all: destruct (utils_prec dt); cbn; auto; try (destruct d; cbn; auto); destruct f, g, kk; cbn; auto.
  - destruct Hw as [-> | -> ], k; cbn; auto.
Qed.
Print Assumptions C133_np_float64_refuted.

(* expectation: dtype='single' decides the type of what is stored. Each condition of C133_single_stays_single is needed. *)
Theorem C133_single_is_not_enough_refuted :
  (* the current numpy: the modes are double *)
  (forall k wt fo, a_float wt -> f_modes (fst (step fo (Fit true k (Str "single") wt))) = Some C128) /\
  (* integer weights: the modes and eigenvalues are double *)
  (forall n k fo, f_modes (fst (step fo (Fit n k (Str "single") Int))) = Some C128 /\ f_eigs (fst (step fo (Fit n k (Str "single") Int))) = Some F64) /\
  (* integer data: the mean and the coefficients are double *)
  (forall s fo m w, f_modes fo = Some m -> f_weights fo = Some w -> let fo' := fst (step fo (UCoeffs s (Str "single") Int)) in c_mean fo' = Some F64 /\ c_coeffs fo' = Some C128) /\
  (* convolution: the mean and with it any reconstruction is double *)
  (forall fo m w dx, f_modes fo = Some m -> f_weights fo = Some w ->
     let fo' := run fo [UConv (Str "single") dx; URec (Str "single")] in c_coeffs fo' = Some C64 /\ c_mean fo' = Some F64 /\ c_rec fo' = Some C128).
Proof.
  repeat split.
  - intros k wt fo [-> | -> ]; destruct k; reflexivity.
  - now destruct n, k.
  - intros. destruct fo as [a b e d f g kk l]; cbn in *; subst. reflexivity.
  - intros. destruct fo as [a b e d f g kk l]; cbn in *; subst. cbn. destruct s, w; reflexivity.
  - intros. destruct fo as [a b e d f g kk l]; cbn in *; subst. reflexivity.
  - intros. destruct fo as [a b e d f g kk l]; cbn in *; subst. reflexivity.
  - intros. destruct fo as [a b e d f g kk l]; cbn in *; subst. reflexivity.
Qed.
Print Assumptions C133_single_is_not_enough_refuted.
(* expectation: dtype='double' raises the data to double precision. float32 data are averaged in float32 and the mean is stored so. *)
Theorem C133_double_does_not_raise_refuted : forall s fo m w, f_modes fo = Some m -> f_weights fo = Some w ->
  let fo' := fst (step fo (MCoeffs s F32)) in c_mean fo' = Some F32 /\ c_coeffs fo' = Some C128.
Proof. intros s fo m w H1 H2. destruct fo as [a b e d f g kk l]; cbn in *; subst. split; [reflexivity|]. destruct s, w; reflexivity. Qed.
Print Assumptions C133_double_does_not_raise_refuted.

(* what a reconstruction is stored as, in any session: single exactly when the mean on disk is single and either single precision
   was asked for or modes and coefficients on disk are single already *)
Theorem C133_reconstruction_precision : forall h dt p m a mu, let fo := run empty h in
  utils_prec dt = Ok p -> c_modes fo = Some m -> c_coeffs fo = Some a -> c_mean fo = Some mu ->
  let fo' := fst (step fo (URec dt)) in
  (c_rec fo' = Some C64 /\ (is_single mu /\ (p = Single \/ (m = C64 /\ a = C64))) \/
   c_rec fo' = Some C128 /\ ~ (is_single mu /\ (p = Single \/ (m = C64 /\ a = C64)))) /\
  c_modes fo' = Some m /\ c_coeffs fo' = Some a /\ c_mean fo' = Some mu.
Proof.
  intros h dt p m a mu fo Hp Hm Ha Hmu.
  assert (I : (fun fo => (forall d, c_mean fo = Some d -> d <> Int) /\ (forall d, c_modes fo = Some d -> d = C64 \/ d = C128) /\ (forall d, c_coeffs fo = Some d -> d = C64 \/ d = C128)) fo).
  { unfold fo. apply run_inv with (Q := fun _ => True); [|cbn; repeat split; discriminate|apply Forall_forall; auto]. clear. unfold a_float.
    intros fo c (I1 & I2 & I3) _. destruct fo as [x1 x2 x3 x4 x5 x6 x7 x8], c as [n cl d wt|s dx| |s d dx|d dx|d]; cbn in I1, I2, I3 |- *.
    - repeat split; auto.
    - destruct x1, x4; cbn; repeat split; auto; intros y Hy; inversion Hy; auto; destruct s, dx, d0; cbn; auto; discriminate.
    - destruct x5, x6, x7; cbn; auto.
    - destruct (utils_prec d) as [q|]; cbn; auto. destruct x1, x4; cbn; repeat split; auto; intros y Hy; inversion Hy; auto; destruct s, dx, d1, q; cbn; auto; discriminate.
    - destruct (utils_prec d) as [q|]; cbn; auto. destruct x1, x4; cbn; repeat split; auto; intros y Hy; inversion Hy; auto; destruct q; cbn; auto; discriminate.
    - destruct (utils_prec d) as [q|]; cbn; auto. destruct x5, x6, x7; cbn; auto. }
  destruct I as (I1 & I2 & I3). generalize (I1 _ Hmu), (I2 _ Hm), (I3 _ Ha). intros Hu Hm' Ha'.
  cbn [step]. rewrite Hp. cbn [bind]. unfold reconstruct. rewrite Hm, Ha, Hmu. cbn [fst c_rec c_modes c_coeffs c_mean].
  split; [|auto].
  unfold is_single. destruct Hm' as [-> | -> ], Ha' as [-> | -> ], p, mu; cbn; try contradiction; try (now elim Hu); try (left; split; [reflexivity|split; [tauto|tauto]]);
    try (right; split; [reflexivity|]; intros [X Y]; try (destruct X; discriminate); destruct Y as [Y|[Y Y']]; discriminate).
Qed.
Print Assumptions C133_reconstruction_precision.
Example C133_nonvacuous_reconstruction : let h := [Fit true true (Str "double") F64; UCoeffs true (Str "double") F32] in
  c_modes (run empty h) = Some C128 /\ c_coeffs (run empty h) = Some C128 /\ c_mean (run empty h) = Some F32 /\
  c_rec (fst (step (run empty h) (URec (Str "single")))) = Some C64 /\ c_rec (fst (step (run empty h) (URec (Str "double")))) = Some C128.
Proof. repeat split. Qed.

Definition ex_double := [Fit true true (Str "double") F64; MCoeffs true F64; MRec; UConv NpF64 F64; URec DtF64].
Example C133_nonvacuous_double : Forall double_call ex_double /\ run empty ex_double = Folder (Some C128) (Some F64) (Some F64) (Some F64) (Some C128) (Some F64) (Some C128) (Some C128).
Proof. split; [|reflexivity]. unfold ex_double. repeat (apply Forall_cons; [cbn; auto 6|]). constructor. Qed.
Definition ex_single := [Fit false true (Str "single") F64; UCoeffs true NpF32 F64; URec DtF32].
Example C133_nonvacuous_single : Forall single_call ex_single /\ run empty ex_single = Folder (Some C64) (Some F32) (Some F32) (Some F32) (Some C64) (Some F32) (Some C64) (Some C64).
Proof. split; [|reflexivity]. unfold ex_single. repeat (apply Forall_cons; [cbn; unfold single_arg, a_float; auto 8|]). constructor. Qed.
Example C133_nonvacuous_methods : let h := [Fit false true (Str "single") F64; MCoeffs true F64; MRec] in
  Forall method_call h /\ run empty h = Folder (Some C64) (Some F32) (Some F32) (Some F32) (Some C128) (Some F64) (Some C128) (Some C128).
Proof. split; [|reflexivity]. repeat constructor. Qed.
