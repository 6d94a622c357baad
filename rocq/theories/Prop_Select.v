(* Property theorems C53-C58, C63: selection of frequencies, modes and times; see Spec_Select.v. *)
From Coq Require Import QArith Qabs Qfield String Ascii Sorted Lqa.
From Verif Require Import Base_List Model_Select Spec_Select Proof_Select Spec_Case Proof_Case.
Local Open Scope nat_scope.

(* ---- C63 ---- *)
Theorem C63_nearest_frequency : forall freq req, freq <> [] ->
  exists v i, find_nearest_freq req freq = Ok (v, i) /\ nearest freq req v i.
Proof. exact (fun freq req H => @nearest_spec req freq H). Qed.
Print Assumptions C63_nearest_frequency.
(* the specification leaves no freedom *)
Theorem C63_unique : forall freq req v i v' i', nearest freq req v i -> nearest freq req v' i' -> i = i' /\ v = v'.
Proof. exact nearest_unique. Qed.
Print Assumptions C63_unique.
Theorem C63_empty_axis : forall req, find_nearest_freq req [] = Err ValueError.
Proof. reflexivity. Qed.
Print Assumptions C63_empty_axis.
(* equal distances: the first *)
Example C63_nonvacuous : find_nearest_freq (3 # 2) [0%Q; 1%Q; 2%Q; 3%Q] = Ok (1%Q, 1).
Proof. reflexivity. Qed.

(* ---- C53 ---- *)
(* M f x m: mode m of frequency f at point x. What the file holds at [x, f, m]: *)
Theorem C53_file_entry : forall A (M : nat -> nat -> nat -> A) nf xs nm x f m, x < xs -> f < nf -> m < nm ->
  conv_file_entry M nf xs nm x f m = Some (M ((x * nf + f) / xs) ((x * nf + f) mod xs) m).
Proof. exact conv_entry. Qed.
Print Assumptions C53_file_entry.
Theorem C53_scrambled_refuted : forall nf xs nm, 1 <= nf -> 1 <= xs -> 1 <= nm ->
  ((forall A (M : nat -> nat -> nat -> A) x f m, x < xs -> f < nf -> m < nm -> conv_file_entry M nf xs nm x f m = Some (M f x m))
   <-> nf = 1 \/ xs = 1).
Proof.
intros nf xs nm H1 H2 H3. split.
- intros H. destruct (Nat.eq_dec nf 1) as [|Hf]; [auto|]. destruct (Nat.eq_dec xs 1) as [|Hx]; [auto|exfalso].
  specialize (H (nat * nat)%type (fun f x _ => (f, x)) 0 1 0). rewrite conv_entry in H by lia.
  specialize (H ltac:(lia) ltac:(lia) ltac:(lia)). injection H as Ha Hb. change (0 * nf + 1) with 1 in *. rewrite Nat.div_small in Ha by lia. discriminate.
- intros Hor A M x f m Hx Hf Hm. rewrite conv_entry by assumption. f_equal. destruct Hor as [->| ->].
  + replace f with 0 by lia. replace (x * 1 + 0) with x by lia. rewrite Nat.div_small, Nat.mod_small by lia. reflexivity.
  + replace x with 0 by lia. rewrite Nat.div_1_r, Nat.mod_1_r. reflexivity.
Qed.
Print Assumptions C53_scrambled_refuted.
(* 2 frequencies, 3 points: point 0 of frequency 1 holds point 1 of frequency 0 *)
Example C53_nonvacuous : conv_file_entry (fun f x m => (f, x, m)) 2 3 2 0 1 1 = Some (0, 1, 1).
Proof. reflexivity. Qed.

(* ---- C54 ---- *)
(* meaning of `overlaps`: the sample of the padded record at window position k of step i is a snapshot *)
Theorem C54_overlaps : forall A n_dft (data : list A) i k,
  (exists a, nth_error (padded n_dft data) (i + k) = Some (Some a)) <-> overlaps (length data) n_dft i k.
Proof.
intros A n_dft data i k. unfold padded, overlaps, half_up.
assert (E : Z.to_nat ((Z.of_nat n_dft + 1) / 2) = (n_dft + 1) / 2) by (rewrite <- (Nat2Z.id ((n_dft + 1) / 2)), Nat2Z.inj_div, Nat2Z.inj_add; reflexivity).
rewrite E. generalize ((n_dft + 1) / 2). clear E. intros h.
destruct (Nat.lt_ge_cases (i + k) h) as [H|H].
- rewrite nth_error_app1 by (rewrite repeat_length; exact H). rewrite nth_error_repeat.
  destruct (Nat.ltb_spec (i + k) h); [|lia]. split; [intros [a Ha]; discriminate|lia].
- rewrite nth_error_app2 by (rewrite repeat_length; exact H). rewrite repeat_length.
  destruct (Nat.lt_ge_cases (i + k - h) (length data)) as [H'|H'].
  + rewrite nth_error_app1 by (rewrite map_length; exact H'). rewrite nth_error_map.
    destruct (nth_error data (i + k - h)) as [a|] eqn:Ea; [|apply nth_error_None in Ea; lia].
    split; [lia|]. intros _. exists a. reflexivity.
  + rewrite nth_error_app2 by (rewrite map_length; exact H'). rewrite nth_error_repeat.
    split; [|lia]. intros [a Ha]. destruct (_ <? h); discriminate.
Qed.
Print Assumptions C54_overlaps.
(* beginning: the sum contains exactly the samples after the first, which lies in the padding *)
Theorem C54_beginning_refuted : forall nt n_dft i k, n_dft <= nt -> i + 2 < (n_dft + 1) / 2 -> k < n_dft ->
  (in_sum nt n_dft i k = true <-> overlaps nt n_dft i k \/ i + k + 1 = (n_dft + 1) / 2).
Proof.
intros nt n_dft i k Hn Hi Hk. unfold in_sum, corr_range, overlaps, half_up.
assert (E : ((Z.of_nat n_dft + 1) / 2)%Z = Z.of_nat ((n_dft + 1) / 2)) by (rewrite Nat2Z.inj_div, Nat2Z.inj_add; reflexivity).
rewrite E. assert (Hh : (n_dft + 1) / 2 * 2 <= n_dft + 1 < (n_dft + 1) / 2 * 2 + 2) by lia.
revert Hi Hh. generalize ((n_dft + 1) / 2). clear E. intros h Hi Hh. destruct (Z.ltb_spec (Z.of_nat i) (Z.of_nat h - 2)); [|lia]. lia.
Qed.
Print Assumptions C54_beginning_refuted.
(* end: the sum misses exactly the sample on the last snapshot *)
Theorem C54_end_refuted : forall nt n_dft i k, n_dft <= nt -> nt <= i + (n_dft + 1) / 2 -> i < nt -> (n_dft + 1) / 2 <= i + 2 -> k < n_dft ->
  (n_dft + 1) / 2 <= i + k ->
  (in_sum nt n_dft i k = true <-> overlaps nt n_dft i k /\ i + k + 1 <> (n_dft + 1) / 2 + nt).
Proof.
intros nt n_dft i k Hn Hi Hint Hi2 Hk Hik. unfold in_sum, corr_range, overlaps, half_up.
assert (E : ((Z.of_nat n_dft + 1) / 2)%Z = Z.of_nat ((n_dft + 1) / 2)) by (rewrite Nat2Z.inj_div, Nat2Z.inj_add; reflexivity).
rewrite E. assert (Hh : (n_dft + 1) / 2 * 2 <= n_dft + 1 < (n_dft + 1) / 2 * 2 + 2) by lia.
revert Hi Hi2 Hik Hh. generalize ((n_dft + 1) / 2). clear E. intros h Hi Hi2 Hik Hh. destruct (Z.ltb_spec (Z.of_nat i) (Z.of_nat h - 2)); [lia|]. destruct (Z.geb_spec (Z.of_nat i) (Z.of_nat nt - Z.of_nat h)); lia.
Qed.
Print Assumptions C54_end_refuted.
(* two positions at the beginning are not corrected although one or two samples lie in the padding *)
Theorem C54_skipped_refuted : forall nt n_dft i, 3 <= n_dft -> 2 * n_dft <= nt ->
  i + 2 = (n_dft + 1) / 2 \/ i + 1 = (n_dft + 1) / 2 ->
  (forall k, in_sum nt n_dft i k = true) /\ ~ overlaps nt n_dft i 0.
Proof.
intros nt n_dft i Hn Hnt Hi. unfold in_sum, corr_range, overlaps, half_up.
assert (E : ((Z.of_nat n_dft + 1) / 2)%Z = Z.of_nat ((n_dft + 1) / 2)) by (rewrite Nat2Z.inj_div, Nat2Z.inj_add; reflexivity).
rewrite E. assert (Hh : (n_dft + 1) / 2 * 2 <= n_dft + 1 < (n_dft + 1) / 2 * 2 + 2) by lia.
revert Hi Hh. generalize ((n_dft + 1) / 2). clear E. intros h Hi Hh. destruct (Z.ltb_spec (Z.of_nat i) (Z.of_nat h - 2)); [lia|]. destruct (Z.geb_spec (Z.of_nat i) (Z.of_nat nt - Z.of_nat h)); [lia|]. split; [reflexivity|lia].
Qed.
Print Assumptions C54_skipped_refuted.
(* n_dft = 8, 20 snapshots. Step 1: data from position 3 on, the sum starts at 2. Step 19: data up to
   position 4, the sum stops at 3 *)
Example C54_nonvacuous :
  map (in_sum 20 8 1) (seq 0 8) = [false; false; true; true; true; true; true; true] /\
  map (in_sum 20 8 19) (seq 0 8) = [true; true; true; true; false; false; false; false] /\
  overlaps 20 8 19 4 /\ ~ overlaps 20 8 1 2.
Proof. unfold overlaps. cbn. repeat split; try reflexivity; lia. Qed.

(* ---- C55 ---- *)
Theorem C55_gathering_order : forall A (zero : A) modes_at nf nm freqs phir, 1 <= nm ->
  get_modes zero modes_at (Z.of_nat nf) freqs nm = Ok phir ->
  length phir = nf * nm /\ length freqs <= nf /\
  (forall k f m, nth_error freqs k = Some f -> m < nm ->
     exists cols a, modes_at f = Some cols /\ nth_error cols m = Some a /\ nth_error phir (nm * k + m) = Some a) /\
  (forall j, nm * length freqs <= j < nf * nm -> nth_error phir j = Some zero).
Proof.
intros A zero modes_at nf nm freqs phir Hn H. unfold get_modes in H.
destruct (Z.ltb_spec (Z.of_nat nf * Z.of_nat nm) 0) as [|_]; [nia|]. rewrite Nat2Z.id in H.
destruct (gather modes_at nm 0 freqs (repeat zero (nf * nm))) as [p|] eqn:E; [|discriminate]. cbn [bind] in H.
assert (p = phir) by (destruct freqs; congruence). subst p. clear H.
pose proof (gather_good _ _ _ _ _ E) as Hg.
assert (Hl : nm * (0 + length freqs) <= length (repeat zero (nf * nm))).
{ refine (gather_fit modes_at freqs 0 _ Hn _ _ E); rewrite repeat_length; [apply Nat.mod_mul; lia|lia]. }
destruct (gather_ok (modes_at := modes_at) freqs 0 (repeat zero (nf * nm)) Hg Hl) as [p' [E' [L [N O]]]].
rewrite E in E'. injection E' as <-. rewrite repeat_length in L, Hl. cbn [Nat.add] in *. split; [exact L|]. split; [nia|]. split.
- intros k f m Hk Hm. destruct (Hg f (nth_error_In _ _ Hk)) as [cols [Ec Lc]].
  destruct (nth_error cols m) as [a|] eqn:Ea; [|apply nth_error_None in Ea; lia].
  exists cols, a. split; [exact Ec|]. split; [exact Ea|]. rewrite (N k f cols m Hk Ec Hm). exact Ea.
- intros j Hj. rewrite O by lia. rewrite nth_error_repeat. destruct (Nat.ltb_spec j (nf * nm)); [reflexivity|lia].
Qed.
Print Assumptions C55_gathering_order.
(* it succeeds exactly for a non-empty list, not longer than the number of slots, of stored frequencies *)
Theorem C55_success : forall A (zero : A) modes_at nf nm freqs, 1 <= nm ->
  ((exists phir, get_modes zero modes_at (Z.of_nat nf) freqs nm = Ok phir) <->
   freqs <> [] /\ length freqs <= nf /\ forall f, In f freqs -> exists cols, modes_at f = Some cols /\ length cols = nm).
Proof.
intros A zero modes_at nf nm freqs Hn. split.
- intros [phir H]. destruct (C55_gathering_order _ _ _ _ _ _ _ Hn H) as [_ [Hl _]]. split; [|split].
  + intros ->. unfold get_modes in H. destruct (_ <? 0)%Z; discriminate.
  + exact Hl.
  + unfold get_modes in H. destruct (_ <? 0)%Z; [discriminate|].
    destruct (gather modes_at nm 0 freqs _) as [p|] eqn:E; [|discriminate]. exact (gather_good _ _ _ _ _ E).
- intros [Hne [Hl Hg]]. unfold get_modes. destruct (Z.ltb_spec (Z.of_nat nf * Z.of_nat nm) 0) as [|_]; [nia|]. rewrite Nat2Z.id.
  destruct (gather_ok (modes_at := modes_at) freqs 0 (repeat zero (nf * nm)) Hg) as [p [E _]]; [rewrite repeat_length; nia|].
  rewrite E. cbn [bind]. destruct freqs; [congruence|]. eauto.
Qed.
Print Assumptions C55_success.
Example C55_nonvacuous :
  get_modes (0, 0) (fun f => Some [(f, 0); (f, 1)]) 3 [7; 5] 2 = Ok [(7, 0); (7, 1); (5, 0); (5, 1); (0, 0); (0, 0)].
Proof. reflexivity. Qed.

(* ---- C56 ---- *)
Theorem C56_both_bounds : forall freq n_freq T_lb T_ub, freq <> [] -> ~ (T_lb == 0)%Q -> ~ (T_ub == 0)%Q ->
  exists s, select_freqs freq n_freq (Some T_lb) (Some T_ub) None = Ok s /\
  nearest freq (/ T_ub) (f_lb s) (f_idx_lb s) /\ nearest freq (/ T_lb) (f_ub s) (f_idx_ub s) /\
  (forall k, In k (freq_list s) <-> f_idx_lb s <= k <= f_idx_ub s) /\ Sorted lt (freq_list s) /\
  n_freq_r s = (Z.of_nat (f_idx_ub s) - Z.of_nat (f_idx_lb s) + 1)%Z.
Proof.
intros freq n_freq Tl Tu Hf Hl Hu. unfold select_freqs. cbn [is_none orb andb inv_period].
assert (El : Qeq_bool Tl 0 = false) by (destruct (Qeq_bool Tl 0) eqn:E; [apply Qeq_bool_iff in E; contradiction|reflexivity]).
assert (Eu : Qeq_bool Tu 0 = false) by (destruct (Qeq_bool Tu 0) eqn:E; [apply Qeq_bool_iff in E; contradiction|reflexivity]).
rewrite El, Eu. cbn [bind].
destruct (@nearest_spec (/ Tu) freq Hf) as [v [i [E1 N1]]]. rewrite E1. cbn [bind].
destruct (@nearest_spec (/ Tl) freq Hf) as [w [j [E2 N2]]]. rewrite E2. cbn [bind].
eexists. split; [reflexivity|]. cbn [f_lb f_idx_lb f_ub f_idx_ub n_freq_r freq_list].
split; [exact N1|]. split; [exact N2|]. split; [intros k; rewrite in_seq; lia|]. split; [|reflexivity].
generalize (j + 1 - i) as q. intros q. revert i E1 N1. intros i _ _. revert i. induction q as [|q IH]; intros i; cbn [seq]; constructor; [apply IH|].
destruct q; cbn [seq]; constructor. lia.
Qed.
Print Assumptions C56_both_bounds.
(* bounds in the right order on an ascending axis give a non-empty range *)
Theorem C56_ordered_bounds : forall freq Tl Tu s n_freq, Sorted Qlt freq -> (0 < Tl)%Q -> (Tl <= Tu)%Q -> freq <> [] ->
  select_freqs freq n_freq (Some Tl) (Some Tu) None = Ok s -> f_idx_lb s <= f_idx_ub s.
Proof.
intros freq Tl Tu s n_freq Hs H0 Hle Hf H.
destruct (C56_both_bounds freq n_freq Tl Tu Hf) as [s' [E [N1 [N2 _]]]]; [lra|lra|].
rewrite E in H. injection H as <-.
destruct (Nat.le_gt_cases (f_idx_lb s') (f_idx_ub s')) as [Q|Q]; [exact Q|exfalso].
destruct N1 as [A1 [B1 C1]], N2 as [A2 [B2 C2]].
pose proof (C1 _ _ Q A2) as D1. pose proof (B2 _ _ A1) as D2.
assert (Hinv : (/ Tu <= / Tl)%Q).
{ apply Qle_shift_inv_l; [exact H0|]. apply (Qmult_le_r _ _ Tu); [lra|].
  setoid_replace (/ Tu * Tl * Tu)%Q with Tl by (field; lra). lra. }
assert (Hlt : (f_ub s' < f_lb s')%Q).
{ revert A1 A2 Q. generalize (f_idx_ub s') (f_idx_lb s') (f_ub s') (f_lb s'). clear - Hs.
  apply Sorted_StronglySorted in Hs; [|intros a b c; apply Qlt_trans].
  induction Hs as [|a l Hs IH Ha]; intros j i v w Hi Hj Hij; [destruct i; discriminate|].
  destruct i as [|i]; [lia|]. cbn in Hi. destruct j as [|j].
  - cbn in Hj. injection Hj as <-. rewrite Forall_forall in Ha. apply Ha. exact (nth_error_In _ _ Hi).
  - cbn in Hj. apply (IH j i v w Hi Hj). lia. }
revert D1 D2 Hinv Hlt. generalize (f_ub s') (f_lb s') (/ Tu)%Q (/ Tl)%Q. clear. intros v w a b D1 D2 Hab Hvw.
revert D1 D2. apply (Qabs_case (w - a)); apply (Qabs_case (v - a)); apply (Qabs_case (w - b)); apply (Qabs_case (v - b)); intros; lra.
Qed.
Print Assumptions C56_ordered_bounds.
(* without both bounds and without a list: everything; a single bound is silently ignored *)
Theorem C56_missing_bound : forall freq T_lb T_ub, freq <> [] -> T_lb = None \/ T_ub = None ->
  exists s, select_freqs freq (length freq) T_lb T_ub None = Ok s /\ freq_list s = seq 0 (length freq) /\
  n_freq_r s = Z.of_nat (length freq).
Proof.
intros freq Tl Tu Hf Ho. unfold select_freqs.
assert (E : (is_none Tl || is_none Tu) && @is_none (list nat) None = true) by (destruct Ho as [-> | ->]; cbn; [reflexivity|rewrite orb_true_r; reflexivity]).
rewrite E. destruct freq as [|a r]; [congruence|]. cbn [nth_error].
destruct (nth_error (a :: r) (length (a :: r) - 1)) as [z|] eqn:Ez; [|apply nth_error_None in Ez; cbn [length] in Ez; lia].
cbn [bind]. eexists. split; [reflexivity|]. cbn [freq_list n_freq_r length]. split; [f_equal; lia|lia].
Qed.
Print Assumptions C56_missing_bound.
(* an explicit list of frequencies without both bounds raises *)
Theorem C56_list_needs_bounds_refuted : forall freq n_freq T_lb T_ub l, freq <> [] -> T_lb = None \/ T_ub = None ->
  (forall t, T_ub = Some t -> ~ (t == 0)%Q) -> select_freqs freq n_freq T_lb T_ub (Some l) = Err TypeError.
Proof.
intros freq n_freq Tl Tu l Hf Ho H0. unfold select_freqs. cbn [is_none]. rewrite andb_false_r.
destruct Tu as [t|]; [|reflexivity]. destruct Ho as [-> |]; [|discriminate]. cbn [inv_period].
destruct (Qeq_bool t 0) eqn:E; [apply Qeq_bool_iff in E; destruct (H0 t eq_refl E)|]. cbn [bind].
destruct (@nearest_spec (/ t) freq Hf) as [v [i [E1 N1]]]. rewrite E1. reflexivity.
Qed.
Print Assumptions C56_list_needs_bounds_refuted.
(* bounds given in the wrong order never yield coefficients *)
Theorem C56_swapped_bounds : forall A (zero : A) modes_at freq n_freq Tl Tu n_modes nt s, 1 <= n_modes ->
  select_freqs freq n_freq (Some Tl) (Some Tu) None = Ok s -> f_idx_ub s < f_idx_lb s ->
  coeffs_modes zero modes_at freq n_freq (Some Tl) (Some Tu) None n_modes nt
  = Err (if f_idx_ub s + 1 =? f_idx_lb s then UnboundLocalError else ValueError).
Proof.
intros A zero modes_at freq n_freq Tl Tu nm nt s Hn E Hs. unfold coeffs_modes. rewrite E. cbn [bind].
assert (Hr : n_freq_r s = (Z.of_nat (f_idx_ub s) - Z.of_nat (f_idx_lb s) + 1)%Z /\ freq_list s = seq (f_idx_lb s) (f_idx_ub s + 1 - f_idx_lb s)).
{ unfold select_freqs in E. cbn [is_none orb andb] in E. destruct (inv_period (Some Tu)) as [ru|]; [|discriminate]. cbn [bind] in E.
  destruct (find_nearest_freq ru freq) as [[v i]|]; [|discriminate]. cbn [bind] in E.
  destruct (inv_period (Some Tl)) as [rl|]; [|discriminate]. cbn [bind] in E.
  destruct (find_nearest_freq rl freq) as [[w j]|]; [|discriminate]. cbn [bind] in E. injection E as <-. split; reflexivity. }
destruct Hr as [Hr Hl]. unfold alloc_coeffs. rewrite Hr.
destruct (Nat.eqb_spec (f_idx_ub s + 1) (f_idx_lb s)) as [He|He].
- destruct (Z.ltb_spec ((Z.of_nat (f_idx_ub s) - Z.of_nat (f_idx_lb s) + 1) * Z.of_nat nm) 0) as [Q|Q]; [nia|]. cbn [bind].
  unfold get_modes. destruct (Z.ltb_spec ((Z.of_nat (f_idx_ub s) - Z.of_nat (f_idx_lb s) + 1) * Z.of_nat nm) 0) as [Q'|_]; [nia|].
  rewrite Hl. replace (f_idx_ub s + 1 - f_idx_lb s) with 0 by lia. reflexivity.
- destruct (Z.ltb_spec ((Z.of_nat (f_idx_ub s) - Z.of_nat (f_idx_lb s) + 1) * Z.of_nat nm) 0) as [Q|Q]; [reflexivity|nia].
Qed.
Print Assumptions C56_swapped_bounds.
Example C56_nonvacuous :
  select_freqs [0; 1 # 4; 1 # 2; 3 # 4]%Q 4 (Some 2%Q) (Some 4%Q) None = Ok (Fsel (1 # 4) 1 (1 # 2) 2 2 [1; 2]) /\
  select_freqs [0; 1 # 4; 1 # 2; 3 # 4]%Q 4 (Some 2%Q) None None = Ok (Fsel 0 0 (3 # 4) 3 4 [0; 1; 2; 3]) /\
  coeffs_modes 0 (fun f => Some [f]) [0; 1 # 4; 1 # 2; 3 # 4]%Q 4 (Some 4%Q) (Some 2%Q) None 1 9 = Err UnboundLocalError.
Proof. repeat split. Qed.

(* ---- C57 ---- *)
Lemma stride_lower k d : stride_of k = Some d -> lower k = k.
Proof. unfold stride_of. repeat (match goal with |- context [string_dec k ?w] => destruct (string_dec k w) as [->|_] end; [reflexivity|]). discriminate. Qed.
(* the five keywords, in any case *)
Theorem C57_keywords : forall nt s k d, same_word s k -> stride_of k = Some d ->
  exists l, selected_times nt (TStr s) = Ok l /\ Sorted lt l /\ forall i, In i l <-> i < nt /\ Nat.divide d i.
Proof.
intros nt s k d Hk H. rewrite (same_wordE' s (stride_lower k d H)) in Hk. rewrite <- Hk in H. unfold stride_of in H. unfold selected_times, resolve_time.
assert (E : forall k, String.eqb (lower s) k = if string_dec (lower s) k then true else false).
{ intros k'. destruct (String.eqb_spec (lower s) k'); destruct (string_dec (lower s) k'); congruence. }
rewrite !E.
destruct (string_dec (lower s) "all"); [injection H as <-; cbn [bind]; apply arange_times; lia|].
destruct (string_dec (lower s) "half"); [injection H as <-; cbn [bind]; apply arange_times; lia|].
destruct (string_dec (lower s) "quarter"); [injection H as <-; cbn [bind]; apply arange_times; lia|].
destruct (string_dec (lower s) "tenth"); [injection H as <-; cbn [bind]; apply arange_times; lia|].
destruct (string_dec (lower s) "hundredth"); [injection H as <-; cbn [bind]; apply arange_times; lia|discriminate].
Qed.
Print Assumptions C57_keywords.
Theorem C57_unknown_rejected : forall nt s, (forall k d, stride_of k = Some d -> ~ same_word s k) -> selected_times nt (TStr s) = Err IndexError.
Proof.
intros nt s H0. assert (H : stride_of (lower s) = None).
{ destruct (stride_of (lower s)) as [d|] eqn:E; [|reflexivity]. destruct (H0 _ _ E). apply same_wordE'; [exact (stride_lower _ _ E)|reflexivity]. }
clear H0. unfold stride_of in H. unfold selected_times, resolve_time.
assert (E : forall k, String.eqb (lower s) k = if string_dec (lower s) k then true else false).
{ intros k. destruct (String.eqb_spec (lower s) k); destruct (string_dec (lower s) k); congruence. }
rewrite !E.
destruct (string_dec (lower s) "all"); [discriminate|]. destruct (string_dec (lower s) "half"); [discriminate|].
destruct (string_dec (lower s) "quarter"); [discriminate|]. destruct (string_dec (lower s) "tenth"); [discriminate|].
destruct (string_dec (lower s) "hundredth"); [discriminate|]. reflexivity.
Qed.
Print Assumptions C57_unknown_rejected.
Theorem C57_other_type_rejected : forall nt, selected_times nt TOther = Err TypeError.
Proof. reflexivity. Qed.
Print Assumptions C57_other_type_rejected.
(* explicit lists: accepted iff every index is in [-nt, nt); negative ones count from the end *)
Theorem C57_lists : forall nt l,
  ((exists r, selected_times nt (TList l) = Ok r) <-> (forall i, In i l -> (- Z.of_nat nt <= i < Z.of_nat nt)%Z)) /\
  ((forall i, In i l -> (- Z.of_nat nt <= i < Z.of_nat nt)%Z) ->
   selected_times nt (TList l) = Ok (map (fun i => Z.to_nat (if (i <? 0)%Z then i + Z.of_nat nt else i)) l)).
Proof.
intros nt l. split; [split|].
- intros [r H]. exact (@norm_all_inv nt l r H).
- intros H. eexists. exact (@norm_all_total nt l H).
- exact (@norm_all_total nt l).
Qed.
Print Assumptions C57_lists.
(* the default: first, second (or first again) and last snapshot; it raises for a record of one snapshot *)
Theorem C57_default : forall nt, selected_times nt TNone =
  if 2 <=? nt then Ok [0; nt mod 2; nt - 1] else Err IndexError.
Proof.
intros nt. unfold selected_times, resolve_time. cbn [bind].
destruct (Nat.leb_spec 2 nt) as [H|H].
- rewrite norm_all_ok.
  + cbn [map]. rewrite Nat2Z.id. do 3 f_equal. f_equal. lia.
  + intros i Hi. assert (nt mod 2 < 2) by (apply Nat.mod_upper_bound; lia). cbn [In] in Hi.
    destruct Hi as [<-|[<-|[<-|[]]]]; lia.
- destruct nt as [|[|nt]]; [reflexivity|reflexivity|lia].
Qed.
Print Assumptions C57_default.
Example C57_nonvacuous_case : same_word "QuArteR" "quarter" /\ stride_of "quarter" = Some 4 /\ ~ same_word "every" "all".
Proof. split; [apply same_wordE; reflexivity|]. split; [reflexivity|]. intros H. apply same_wordE in H. discriminate. Qed.
Example C57_nonvacuous : selected_times 11 (TStr "Quarter") = Ok [0; 4; 8] /\ selected_times 11 (TStr "every") = Err IndexError /\
  selected_times 11 (TList [3%Z; (-1)%Z]) = Ok [3; 10] /\ selected_times 11 TNone = Ok [0; 1; 10].
Proof. repeat split. Qed.

(* ---- C58 (decision part; the inner product is in Prop_Coeffs.v) ---- *)
(* value re + i im, expected value 1 for equal modes and 0 otherwise: accepted whatever im is *)
Theorem C58_imaginary_part_ignored_refuted : forall (same : bool) (re im : Q),
  (Qabs (re - (if same then 1 else 0)) < 2 # 1000000)%Q -> ortho_check same (re, im) = true.
Proof.
intros same re im H. unfold ortho_check, clt, tol_ortho. cbn [fst snd].
apply Qabs_Qlt_condition in H. destruct H as [H1 H2].
assert (L : forall a b, (a < b)%Q -> Qle_bool b a = false).
{ intros a b Hab. destruct (Qle_bool b a) eqn:E; [|reflexivity]. apply Qle_bool_iff in E. lra. }
set (c := (if same then 1 else 0)%Q) in *. assert (Hc : (c == 0 \/ c == 1)%Q) by (unfold c; destruct same; [right|left]; reflexivity).
rewrite (L re (c + (2 # 1000000))%Q), (L (c - (2 # 1000000))%Q re) by lra. reflexivity.
Qed.
Print Assumptions C58_imaginary_part_ignored_refuted.
(* complete description *)
Theorem C58_decision : forall (same : bool) (re im : Q), let c := (if same then 1 else 0)%Q in let tol := (2 # 1000000)%Q in
  ortho_check same (re, im) = true <->
  ((re < c + tol)%Q \/ (re == c + tol)%Q /\ (im < 0)%Q) /\ ((c - tol < re)%Q \/ (re == c - tol)%Q /\ (0 < im)%Q).
Proof.
intros same re im c tol. unfold ortho_check, clt, tol_ortho. cbn [fst snd]. fold tol. fold c.
assert (L : forall a b, negb (Qle_bool b a) = true <-> (a < b)%Q).
{ intros a b. rewrite negb_true_iff. split; intros H.
  - apply Qnot_le_lt. intros Q. apply Qle_bool_iff in Q. congruence.
  - destruct (Qle_bool b a) eqn:E; [|reflexivity]. apply Qle_bool_iff in E. lra. }
rewrite andb_true_iff, !orb_true_iff, !andb_true_iff, !L, !Qeq_bool_iff.
split; intros [A B]; (split; [exact A|]); (destruct B as [B|[B B']]; [left; exact B|right; split; [symmetry; exact B|exact B']]).
Qed.
Print Assumptions C58_decision.
Example C58_nonvacuous : ortho_check false (0, 1000)%Q = true /\ ortho_check true (1, -1000)%Q = true /\ ortho_check false (1 # 10, 0)%Q = false.
Proof. repeat split. Qed.
