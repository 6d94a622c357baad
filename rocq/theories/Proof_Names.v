From Coq Require Import DecimalString Decimal DecimalNat DecimalZ DecimalFacts String Ascii.
From Verif Require Import Base_List Model_Base.
Local Open Scope string_scope.
Local Open Scope Z_scope.
Set Implicit Arguments.

(* value of a digit string *)
Definition digit (c : ascii) : Z := Z.of_N (N_of_ascii c) - 48.
Fixpoint val (s : string) (acc : Z) : Z :=
  match s with EmptyString => acc | String c s' => val s' (10 * acc + digit c) end.
Fixpoint digits (s : string) : Prop :=
  match s with EmptyString => True | String c s' => 0 <= digit c <= 9 /\ digits s' end.

Ltac norm_digit :=
  change (digit "0") with 0; change (digit "1") with 1; change (digit "2") with 2; change (digit "3") with 3;
  change (digit "4") with 4; change (digit "5") with 5; change (digit "6") with 6; change (digit "7") with 7;
  change (digit "8") with 8; change (digit "9") with 9.

Lemma string_of_uint_digits u : digits (NilEmpty.string_of_uint u).
Proof. induction u; cbn -[digit]; try (split; [unfold digit; cbn; lia|assumption]). exact I. Qed.

Lemma val_string_of_uint u a : val (NilEmpty.string_of_uint u) (Z.of_nat a) = Z.of_nat (Nat.of_uint_acc u a).
Proof.
  revert a; induction u; intros a; cbn [NilEmpty.string_of_uint val Nat.of_uint_acc]; [reflexivity|..];
    rewrite Nat.tail_mul_spec, <- IHu; f_equal; norm_digit; lia.
Qed.

Lemma to_uint_nonnil n : Nat.to_uint n <> Nil.
Proof. rewrite <- (Unsigned.of_to n) at 1. rewrite Unsigned.to_of. apply unorm_nonnil. Qed.

Definition dec (n : nat) : string := NilZero.string_of_uint (Nat.to_uint n).
Lemma dec_eq n : dec n = NilEmpty.string_of_uint (Nat.to_uint n).
Proof. unfold dec. pose proof (to_uint_nonnil n). destruct (Nat.to_uint n); [congruence|reflexivity..]. Qed.

Lemma dec_digits n : digits (dec n).
Proof. rewrite dec_eq. apply string_of_uint_digits. Qed.
Lemma dec_val n : val (dec n) 0 = Z.of_nat n.
Proof.
  rewrite dec_eq. change 0 with (Z.of_nat 0). rewrite val_string_of_uint. f_equal.
  exact (Unsigned.of_to n).
Qed.

Definition zeros (k : nat) : string := string_of_list_ascii (repeat "0"%char k).
Lemma val_zeros k s : val (zeros k ++ s) 0 = val s 0.
Proof. induction k as [|k IH]; [reflexivity|]. cbn [zeros repeat string_of_list_ascii append val]. exact IH. Qed.
Lemma digits_zeros k s : digits s -> digits (zeros k ++ s).
Proof. intros H. induction k as [|k IH]; [exact H|]. split; [unfold digit; cbn; lia|exact IH]. Qed.

Lemma pad8_eq n : pad8 n = zeros (8 - String.length (dec n)) ++ dec n.
Proof. reflexivity. Qed.
Lemma pad8_val n : val (pad8 n) 0 = Z.of_nat n.
Proof. rewrite pad8_eq, val_zeros. apply dec_val. Qed.
Lemma pad8_digits n : digits (pad8 n).
Proof. rewrite pad8_eq. apply digits_zeros, dec_digits. Qed.
Lemma pad8_inj m n : pad8 m = pad8 n -> m = n.
Proof. intros H. apply Nat2Z.inj. now rewrite <- !pad8_val, H. Qed.

Lemma string_length_app s t : String.length (s ++ t) = (String.length s + String.length t)%nat.
Proof. induction s; cbn; [reflexivity|]. now rewrite IHs. Qed.
Lemma zeros_length k : String.length (zeros k) = k.
Proof. induction k as [|k IH]; [reflexivity|]. cbn. f_equal. exact IH. Qed.

Lemma val_bounds s a : digits s -> 
  a * 10 ^ Z.of_nat (String.length s) <= val s a < (a + 1) * 10 ^ Z.of_nat (String.length s).
Proof.
  revert a; induction s as [|c s IH]; intros a H; cbn [val String.length].
  - cbn. lia.
  - destruct H as [Hc H]. specialize (IH (10 * a + digit c) H). rewrite Nat2Z.inj_succ, Z.pow_succ_r by lia.
    set (p := 10 ^ Z.of_nat (String.length s)) in *. assert (0 < p) by (apply Z.pow_pos_nonneg; lia). nia.
Qed.

Lemma dec_length_bound n k : (1 <= k)%nat -> Z.of_nat n < 10 ^ Z.of_nat k -> (String.length (dec n) <= k)%nat.
Proof.
  intros Hk Hn. destruct (Nat.le_gt_cases (String.length (dec n)) k) as [H|H]; [assumption|exfalso].
  assert (Hu : unorm (Nat.to_uint n) = Nat.to_uint n).
  { rewrite <- (Unsigned.of_to n) at 1. rewrite <- (Unsigned.of_to n) at 2. now rewrite Unsigned.to_of, unorm_involutive. }
  pose proof (dec_val n) as Hv. pose proof (dec_digits n) as Hd. rewrite dec_eq in *.
  destruct (Nat.to_uint n) as [|u|u|u|u|u|u|u|u|u|u] eqn:E; cbn [NilEmpty.string_of_uint String.length] in *; [lia|..];
  try (destruct Hd as [_ Hd]; cbn [val] in Hv; match type of Hv with val ?s ?a = _ => pose proof (@val_bounds s a Hd) as B end; rewrite Hv in B;
       revert B; norm_digit; intros B;
       assert (10 ^ Z.of_nat k <= 10 ^ Z.of_nat (String.length (NilEmpty.string_of_uint u))) by (apply Z.pow_le_mono_r; lia);
       lia).
  all: idtac. (* leading zero: only "0" itself *)
  rewrite unorm_D0 in Hu. destruct (uint_eq_dec u Nil) as [->|Hne]; [cbn in H; lia|].
  pose proof (nb_digits_unorm u Hne) as Hnd. rewrite Hu in Hnd. cbn in Hnd. lia.
Qed.

Lemma pad8_length n : Z.of_nat n < 100000000 -> String.length (pad8 n) = 8%nat.
Proof.
  intros H. rewrite pad8_eq, string_length_app, zeros_length.
  pose proof (@dec_length_bound n 8 ltac:(lia)) as B. change (10 ^ Z.of_nat 8) with 100000000 in B. specialize (B H). lia.
Qed.

Lemma lex_val s t a : digits s -> digits t -> String.length s = String.length t ->
  (val s a ?= val t a) = String.compare s t.
Proof.
  revert t a; induction s as [|c s IH]; intros [|d t] a Hs Ht Hl; try discriminate; cbn [val String.compare].
  - apply Z.compare_refl.
  - destruct Hs as [Hc Hs], Ht as [Hd Ht]. cbn in Hl. injection Hl as Hl. unfold Ascii.compare.
    destruct (N.compare_spec (N_of_ascii c) (N_of_ascii d)) as [E|E|E].
    + assert (Ed : digit c = digit d) by (unfold digit; now rewrite E). rewrite Ed. now apply IH.
    + pose proof (val_bounds s (10 * a + digit c) Hs) as B1. pose proof (val_bounds t (10 * a + digit d) Ht) as B2.
      rewrite <- Hl in B2. assert (digit c < digit d) by (unfold digit; lia).
      apply Z.compare_lt_iff. set (p := 10 ^ _) in *. assert (0 < p) by (apply Z.pow_pos_nonneg; lia). nia.
    + pose proof (val_bounds s (10 * a + digit c) Hs) as B1. pose proof (val_bounds t (10 * a + digit d) Ht) as B2.
      rewrite <- Hl in B2. assert (digit d < digit c) by (unfold digit; lia).
      apply Z.compare_gt_iff. set (p := 10 ^ _) in *. assert (0 < p) by (apply Z.pow_pos_nonneg; lia). nia.
Qed.

Lemma pad8_compare m n : Z.of_nat m < 100000000 -> Z.of_nat n < 100000000 ->
  String.compare (pad8 m) (pad8 n) = Nat.compare m n.
Proof.
  intros Hm Hn. rewrite <- (@lex_val (pad8 m) (pad8 n) 0) by (try apply pad8_digits; now rewrite !pad8_length).
  rewrite !pad8_val. now rewrite Nat2Z.inj_compare.
Qed.

(* comparison with a common prefix / equal-length components *)
Lemma compare_app_same p s t : String.compare (p ++ s) (p ++ t) = String.compare s t.
Proof.
  induction p as [|c p IH]; [reflexivity|]. cbn. unfold Ascii.compare. now rewrite N.compare_refl.
Qed.
Lemma compare_refl s : String.compare s s = Eq.
Proof. induction s as [|c s IH]; [reflexivity|]. cbn. unfold Ascii.compare. now rewrite N.compare_refl. Qed.
Lemma compare_app_len s t u v : String.length s = String.length t ->
  String.compare (s ++ u) (t ++ v) = match String.compare s t with Eq => String.compare u v | c => c end.
Proof.
  revert t; induction s as [|c s IH]; intros [|d t] H; try discriminate; [reflexivity|].
  cbn in H. injection H as H. cbn. destruct (Ascii.compare c d); [now apply IH|reflexivity..].
Qed.

Lemma freq_file_compare f g : Z.of_nat f < 100000000 -> Z.of_nat g < 100000000 ->
  String.compare (freq_file f) (freq_file g) = Nat.compare f g.
Proof.
  intros Hf Hg. unfold freq_file. rewrite compare_app_same, compare_app_len by (now rewrite !pad8_length).
  rewrite pad8_compare by assumption. rewrite compare_refl. now destruct (Nat.compare f g).
Qed.

Lemma mode_file_compare f m g n : Z.of_nat f < 100000000 -> Z.of_nat g < 100000000 ->
  Z.of_nat m < 100000000 -> Z.of_nat n < 100000000 ->
  String.compare (mode_file f m) (mode_file g n) =
  match Nat.compare f g with Eq => Nat.compare m n | c => c end.
Proof.
  intros Hf Hg Hm Hn. unfold mode_file. rewrite compare_app_same, compare_app_len by (now rewrite !pad8_length).
  rewrite pad8_compare by assumption. destruct (Nat.compare f g); [|reflexivity..].
  rewrite compare_app_same, compare_app_len by (now rewrite !pad8_length).
  rewrite pad8_compare by assumption. rewrite compare_refl. now destruct (Nat.compare m n).
Qed.

(* ---------- injectivity ---------- *)
Fixpoint lacks (c : ascii) (s : string) : Prop :=
  match s with EmptyString => True | String d s' => d <> c /\ lacks c s' end.

Lemma split_unique c s t u v : lacks c s -> lacks c t ->
  s ++ String c u = t ++ String c v -> s = t /\ u = v.
Proof.
  revert t; induction s as [|d s IH]; intros [|e t] Hs Ht H; cbn in *.
  - injection H as ->. auto.
  - injection H as <- _. destruct Ht as [Ht _]. congruence.
  - injection H as -> _. destruct Hs as [Hs _]. congruence.
  - injection H as -> H. destruct Hs as [_ Hs], Ht as [_ Ht]. destruct (IH t Hs Ht H) as [-> ->]. auto.
Qed.

Lemma app_inj_l p s t : p ++ s = p ++ t -> s = t.
Proof. induction p; cbn; [auto|]. intros H. injection H as H. auto. Qed.

Lemma digits_lacks s c : digits s -> ~ 0 <= digit c <= 9 -> lacks c s.
Proof.
  induction s as [|d s IH]; intros H Hc; cbn; [exact I|]. destruct H as [Hd H]. split; [congruence|auto].
Qed.

Lemma block_file_inj i f j g : block_file i f = block_file j g -> i = j /\ f = g.
Proof.
  unfold block_file. intros H. apply app_inj_l in H.
  assert (Hu : ~ 0 <= digit "_" <= 9) by (unfold digit; cbn; lia).
  assert (Hd : ~ 0 <= digit "." <= 9) by (unfold digit; cbn; lia).
  cbn [append] in H. apply split_unique in H as [H1 H2]; [|apply digits_lacks; [apply pad8_digits|assumption]..].
  apply pad8_inj in H1. change ("freq" ++ pad8 f ++ ".npy" = "freq" ++ pad8 g ++ ".npy") in H2.
  apply app_inj_l in H2. cbn [append] in H2.
  apply split_unique in H2 as [H2 _]; [|apply digits_lacks; [apply pad8_digits|assumption]..].
  now apply pad8_inj in H2.
Qed.

Lemma freq_file_inj f g : freq_file f = freq_file g -> f = g.
Proof.
  unfold freq_file. intros H. apply app_inj_l in H.
  assert (Hd : ~ 0 <= digit "." <= 9) by (unfold digit; cbn; lia). cbn [append] in H.
  apply split_unique in H as [H _]; [|apply digits_lacks; [apply pad8_digits|assumption]..]. now apply pad8_inj in H.
Qed.

Lemma mode_file_inj f m g n : mode_file f m = mode_file g n -> f = g /\ m = n.
Proof.
  unfold mode_file. intros H. apply app_inj_l in H.
  assert (Hu : ~ 0 <= digit "_" <= 9) by (unfold digit; cbn; lia).
  assert (Hd : ~ 0 <= digit "." <= 9) by (unfold digit; cbn; lia).
  cbn [append] in H. apply split_unique in H as [H1 H2]; [|apply digits_lacks; [apply pad8_digits|assumption]..].
  apply pad8_inj in H1. change ("m" ++ pad8 m ++ ".npy" = "m" ++ pad8 n ++ ".npy") in H2.
  apply app_inj_l in H2. cbn [append] in H2.
  apply split_unique in H2 as [H2 _]; [|apply digits_lacks; [apply pad8_digits|assumption]..].
  now apply pad8_inj in H2.
Qed.

Lemma freq_mode_file_disjoint f g m : freq_file f <> mode_file g m.
Proof.
  unfold freq_file, mode_file. change "freq_idx_f" with ("freq_idx_" ++ "f"). intros H.
  assert (E : forall s, ("freq_idx_" ++ "f") ++ s = "freq_idx_" ++ String "f" s) by reflexivity.
  rewrite E in H. apply app_inj_l in H.
  pose proof (pad8_digits f) as D. destruct (pad8 f) as [|c s] eqn:Ep; cbn [append] in H; [discriminate|].
  injection H as -> _. destruct D as [D _]. unfold digit in D. cbn in D. lia.
Qed.

(* ---------- str of an integer ---------- *)
Lemma to_int_nonnil z : Z.to_int z <> Pos Nil /\ Z.to_int z <> Neg Nil.
Proof.
  rewrite <- (DecimalZ.of_to z). rewrite DecimalZ.to_of. unfold norm.
  destruct (Z.to_int z) as [u|u].
  - split; [|discriminate]. intros H. injection H as H. now apply unorm_nonnil in H.
  - destruct (nzhead u) eqn:E; (split; [discriminate|]); try discriminate.
Qed.
Lemma py_str_inj a b : py_str a = py_str b -> a = b.
Proof.
  unfold py_str. intros H. apply (f_equal NilZero.int_of_string) in H.
  destruct (to_int_nonnil a) as [A1 A2], (to_int_nonnil b) as [B1 B2].
  rewrite !NilZero.isi in H by assumption. injection H as H.
  rewrite <- (DecimalZ.of_to a), <- (DecimalZ.of_to b). now rewrite H.
Qed.
Lemma zero_uint_lacks c u : ~ 0 <= digit c <= 9 -> lacks c (NilZero.string_of_uint u).
Proof.
  intros H. destruct u; try (apply digits_lacks; [|assumption]; apply string_of_uint_digits).
  cbn. split; [|exact I]. intros E. apply H. rewrite <- E. unfold digit. cbn. lia.
Qed.
Lemma py_str_lacks z : lacks "_" (py_str z).
Proof.
  assert (Hu : ~ 0 <= digit "_" <= 9) by (unfold digit; cbn; lia).
  unfold py_str, NilZero.string_of_int. destruct (Z.to_int z).
  - now apply zero_uint_lacks.
  - split; [discriminate|]. now apply zero_uint_lacks.
Qed.
Lemma result_folder_inj a b c a' b' c' : result_folder a b c = result_folder a' b' c' -> a = a' /\ b = b' /\ c = c'.
Proof.
  unfold result_folder. intros H. apply app_inj_l in H. cbn [append] in H.
  apply split_unique in H as [H1 H]; [|apply py_str_lacks..].
  change ("novlp" ++ py_str b ++ "_nblks" ++ py_str c = "novlp" ++ py_str b' ++ "_nblks" ++ py_str c') in H.
  apply app_inj_l in H. cbn [append] in H. apply split_unique in H as [H2 H]; [|apply py_str_lacks..].
  change ("nblks" ++ py_str c = "nblks" ++ py_str c') in H. apply app_inj_l in H.
  apply py_str_inj in H1, H2, H. auto.
Qed.
