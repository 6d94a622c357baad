(* Property theorem C156: missing values (NaN) in compute_coeffs, compute_reconstruction and POD. *)
From Verif Require Import Base_List Model_Select.
From mathcomp Require Import all_ssreflect all_algebra.
From Verif Require Import Model_Spod Spec_Spod Proof_Spod Model_Coeffs Model_Pod Model_Nan Proof_Nan Proof_StreamNum3 Model_NanCoef Proof_NanCoef.
Set Implicit Arguments.
Unset Strict Implicit.
Unset Printing Implicit Defensive.
Import GRing.Theory Num.Theory Order.TTheory.
Local Open Scope ring_scope.

(* a filled-in array agrees with the array with holes where the latter has a value *)
Definition fills (C : numClosedFieldType) m n (X : 'I_m -> 'I_n -> option C) (Xc : 'M[C]_(m, n)) : Prop := forall t i v, X t i = Some v -> Xc t i = v.
Definition complete (C : numClosedFieldType) m n (X : 'I_m -> 'I_n -> option C) : Prop := forall t i, X t i <> None.
Definition has_hole (C : numClosedFieldType) m n (X : 'I_m -> 'I_n -> option C) : Prop := exists t i, X t i = None.
Lemma hole_dec (C : numClosedFieldType) m n (X : 'I_m -> 'I_n -> option C) : has_hole X \/ complete X.
Proof.
case: (boolP [exists t, [exists i, ~~ isSome (X t i)]]) => [/existsP [t /existsP [i]]|H].
  by case E: (X t i) => // _; left; exists t, i.
right=> t i E; case/negP: H; apply/existsP; exists t; apply/existsP; exists i; by rewrite E.
Qed.
Definition filled (C : numClosedFieldType) m n (X : 'I_m -> 'I_n -> option C) : 'M[C]_(m, n) := \matrix_(t, i) odflt 0 (X t i).
Lemma filled_ok (C : numClosedFieldType) m n (X : 'I_m -> 'I_n -> option C) : fills X (filled X).
Proof. by move=> t i v E; rewrite mxE E. Qed.

(* ---- compute_coeffs by projection ---- *)
(* it raises iff a mode has a NaN (streaming modes at entries of weight zero, for instance: C155) *)
Theorem C156_coefficients_raise_iff : forall (C : numClosedFieldType) size n nt p (nloc : 'I_size -> nat)
    (own : forall r : 'I_size, 'I_(nloc r) -> 'I_n) w (Phi : 'I_n -> 'I_p -> option C) (data : 'I_nt -> 'I_n -> option C) svd tol,
  partition_of own ->
  c_coeffs own w Phi data svd tol = LinAlgError <-> has_hole Phi.
Proof.
move=> C size n nt p nloc own w Phi data svd tol Hown; rewrite /c_coeffs; split=> [E|[i [j E]]]; last by rewrite (c_inv_none Hown w svd tol E).
case: (hole_dec Phi) => // H; by rewrite (c_inv_some own w (@filled_ok _ _ _ Phi) svd tol H) in E.
Qed.
Print Assumptions C156_coefficients_raise_iff.
(* a single missing value of the data, anywhere, does not raise: every coefficient at every time is NaN, and so is the
   reconstruction at every point and time *)
Theorem C156_one_missing_value_everything_nan : forall (C : numClosedFieldType) size n nt p (nloc : 'I_size -> nat)
    (own : forall r : 'I_size, 'I_(nloc r) -> 'I_n) w (Phi : 'I_n -> 'I_p -> option C) (data : 'I_nt -> 'I_n -> option C) svd tol,
  partition_of own -> complete Phi -> (0 < p)%N -> has_hole data ->
  exists a, [/\ c_coeffs own w Phi data svd tol = Returned a, forall j t, a j t = None & forall i t, c_rec Phi data a i t = None].
Proof.
move=> C size n nt p nloc own w Phi data svd tol Hown HP Hp [s [i E]].
rewrite /c_coeffs (c_inv_some own w (@filled_ok _ _ _ Phi) svd tol HP).
eexists; split; first reflexivity.
  move=> j t; apply: (nsum_none (i := j)); rewrite ?mem_enum //.
  by rewrite (c_Q_none Hown w Phi j t E) nmul_None.
move=> i' t; rewrite /c_rec (nsum_none (i := Ordinal Hp)) ?mem_enum // (nsum_none (i := Ordinal Hp)) ?mem_enum ?nmul_None //.
by rewrite (c_Q_none Hown w Phi _ t E) nmul_None.
Qed.
Print Assumptions C156_one_missing_value_everything_nan.
(* with complete modes and data the coefficients and the reconstruction are those of C50 *)
Theorem C156_complete : forall (C : numClosedFieldType) size n nt p (nloc : 'I_size -> nat)
    (own : forall r : 'I_size, 'I_(nloc r) -> 'I_n) w (Phi : 'I_n -> 'I_p -> option C) (data : 'I_nt -> 'I_n -> option C) svd tol Pc dc,
  (0 < nt)%N -> complete Phi -> complete data -> fills Phi Pc -> fills data dc ->
  exists a, [/\ c_coeffs own w Phi data svd tol = Returned a, forall j t, a j t = Some (coeffs own w Pc dc svd tol j t) &
    forall r (i : 'I_(nloc r)) t, c_rec Phi data a (own r i) t = Some (rec_op own w Pc dc svd tol r i t)].
Proof.
move=> C size n nt p nloc own w Phi data svd tol Pc dc Hnt HP HD EP ED.
rewrite /c_coeffs (c_inv_some own w EP svd tol HP).
have Ha j t : nsum (enum 'I_p) (fun k => nmul (Some (m_inv svd tol (M_red own w Pc) j k)) (c_Q own w Phi data k t)) = Some (coeffs own w Pc dc svd tol j t).
  rewrite (nsum_enum_some (G := fun k => m_inv svd tol (M_red own w Pc) j k * Q_red own w Pc dc k t)); first by rewrite /coeffs [in RHS]mxE.
  by move=> k; rewrite (c_Q_some own Hnt w ED EP t (fun i => HP i k) HD).
eexists; split; first reflexivity; first exact: Ha.
move=> r i t; rewrite /c_rec (c_mean_some Hnt ED) //.
rewrite (nsum_enum_some (G := fun j => Pc (own r i) j * coeffs own w Pc dc svd tol j t)); last by move=> j; rewrite Ha (P_some EP) //; exact: HP.
congr Some; rewrite [RHS]mxE [lt_mean _ _ _ _ _]mxE; congr (_ + _ / _); last by apply: eq_bigr => s _; rewrite mxE.
by rewrite [RHS]mxE; apply: eq_bigr => j _; rewrite [phir _ _ _ _ _]mxE.
Qed.
Print Assumptions C156_complete.

(* ---- compute_coeffs by convolution, one process ---- *)
Lemma h_pad_lt n_dft : (1 < n_dft)%N -> (h_pad n_dft < n_dft)%N.
Proof.
move=> /ssrnat.ltP H; apply/ssrnat.ltP; rewrite /h_pad /half_up.
have H1 : Z.le Z0 (Z.div (Z.add (Z.of_nat n_dft) 1) 2) by apply: Z.div_pos; lia.
have H2 := Z.mul_div_le (Z.add (Z.of_nat n_dft) 1) 2 ltac:(lia); lia.
Qed.
(* no exception either, and every coefficient at every frequency and time is NaN as soon as one value of the data is missing *)
Theorem C156_convolution : forall (C : numClosedFieldType) n nt nm w (phi : nat -> 'I_n -> 'I_nm -> C) (data : 'I_nt -> 'I_n -> option C) n_dft win omega,
  (1 < n_dft)%N -> has_hole data -> forall f (t : 'I_nt) m, c_conv w phi data n_dft win omega f t m = None.
Proof.
move=> C n nt nm w phi data n_dft win omega Hd [s [i E]] f t m.
rewrite /c_conv (nsum_none (i := i)) ?mem_enum //.
rewrite /c_blk (nsum_iota_none (h_pad_lt Hd)) // /c_pad addnK valK leq_addl.
by rewrite (c_cent_none _ E).
Qed.
Print Assumptions C156_convolution.
Theorem C156_convolution_complete : forall (C : numClosedFieldType) n nt nm w (phi : nat -> 'I_n -> 'I_nm -> C) (data : 'I_nt -> 'I_n -> option C) n_dft win omega dc,
  complete data -> fills data dc -> forall f (t : 'I_nt) m,
  c_conv w phi data n_dft win omega f t m = Some (conv_serial w phi dc n_dft win omega f t m).
Proof.
move=> C n nt nm w phi data n_dft win omega dc HD ED f t m.
have Hnt : (0 < nt)%N by case: t => [t Ht]; apply: leq_ltn_trans Ht.
rewrite /c_conv /conv_serial /conv_local.
rewrite (nsum_enum_some (G := fun i => q_blk (fun (_ : 'I_1) (i : 'I_n) => i) dc n_dft win omega (r := ord0) f t i * w i 0 * (phi f i m)^* )) // => i.
rewrite /c_blk (nsum_iota_some (G := fun k => pad (fun (_ : 'I_1) (i : 'I_n) => i) dc n_dft (r := ord0) (t + k) i * win k * omega ^+ (f * k))) // => k Hk.
rewrite /c_pad /pad; case: insubP => [s _ Es|//]; case: ifP => // _.
rewrite (c_cent_some Hnt ED) // !mxE [X in _ = Some ((_ - X / _) * _ * _)](_ : _ = \sum_u dc u i) //; by apply: eq_bigr => u _; rewrite mxE.
Qed.
Print Assumptions C156_convolution_complete.

(* ---- POD ---- *)
(* POD.fit raises iff some value is missing, whether or not the mean is subtracted; no weight masks it *)
Theorem C156_pod_fit_raises_iff : forall (C : numClosedFieldType) size n nt (nloc : 'I_size -> nat)
    (own : forall r : 'I_size, 'I_(nloc r) -> 'I_n) w (data : 'I_nt -> 'I_n -> option C) longtime eig,
  partition_of own ->
  pod_fit own w data longtime eig = ValueError <-> has_hole data.
Proof.
move=> C size n nt nloc own w data longtime eig Hown; rewrite /pod_fit; split=> [E|[t [i E]]].
  case: (hole_dec data) => // H; case: ifP E => // /negP []; apply/forallP => t; apply/forallP => s.
  by rewrite (p_Q_some own w (@filled_ok _ _ _ data)).
rewrite ifN //; apply/negP => /forallP /(_ t) /forallP /(_ t); rewrite (p_Q_none Hown w longtime (i := i)) //; by left.
Qed.
Print Assumptions C156_pod_fit_raises_iff.
(* otherwise its results are those of C27, C89: NaN only in modes of zero eigenvalue *)
Theorem C156_pod_fit_complete : forall (C : numClosedFieldType) size n nt (nloc : 'I_size -> nat)
    (own : forall r : 'I_size, 'I_(nloc r) -> 'I_n) w (data : 'I_nt -> 'I_n -> option C) longtime eig dc,
  complete data -> fills data dc ->
  exists e phi, [/\ pod_fit own w data longtime eig = Done (e, phi), e = pod_w own w dc longtime eig &
    forall r (i : 'I_(nloc r)) j, phi (own r i) j = pod_phi own w dc longtime eig (r := r) i j].
Proof.
move=> C size n nt nloc own w data longtime eig dc HD ED; rewrite /pod_fit.
rewrite (_ : [forall t, _]); last by apply/forallP => t; apply/forallP => s; rewrite (p_Q_some own w ED).
rewrite (_ : (\matrix_(t, s) _) = pod_Q own w dc longtime); last by apply/matrixP => t s; rewrite mxE (p_Q_some own w ED).
eexists; eexists; split; first reflexivity; first by [].
move=> r i j; cbv beta zeta; rewrite (nsum_enum_some (G := fun t => d_mat own dc longtime r i t * pod_v own w dc longtime eig t j)) => [|t]; last by rewrite (p_d_some own ED longtime HD).
rewrite /pod_phi /pod_w /=; rewrite sqrtC_eq0; case: ifP => // _; congr (Some ('Re _ / _)); by rewrite mxE.
Qed.
Print Assumptions C156_pod_fit_complete.
(* the coefficients of POD never raise: one is NaN exactly when its mode has a NaN anywhere or the data have a missing value anywhere *)
Theorem C156_pod_coefficients_nan_iff : forall (C : numClosedFieldType) size n nt k (nloc : 'I_size -> nat)
    (own : forall r : 'I_size, 'I_(nloc r) -> 'I_n) (Phi : 'I_n -> 'I_k -> option C) (data : 'I_nt -> 'I_n -> option C) j t,
  partition_of own ->
  p_coeffs own data Phi j t = None <-> (exists i, Phi i j = None) \/ has_hole data.
Proof.
move=> C size n nt k nloc own Phi data j t Hown.
have Hnt : (0 < nt)%N by case: t => [t Ht]; apply: leq_ltn_trans Ht.
split=> [E|[[i E]|[s [i E]]]]; last first.
- have [r [q Eq]] := own_onto Hown i; subst i.
  by apply: (@nsum_none2 _ size nloc _ r q); rewrite (c_cent_none t E) nmul_None.
- have [r [q Eq]] := own_onto Hown i; subst i.
  by apply: (@nsum_none2 _ size nloc _ r q); rewrite E.
case: (hole_dec data) => H; first by right.
case: (hole_dec (fun i (_ : 'I_1) => Phi i j)) => [[i [_ Ei]]|HP]; first by left; exists i.
move: E; rewrite /p_coeffs (@nsum_some2 _ size nloc _ (fun r i => odflt 0 (Phi (own r i) j) * (filled data t (own r i) - (\sum_t filled data t (own r i)) / nt%:R))) // => r i.
by rewrite (c_cent_some Hnt (@filled_ok _ _ _ data)) //; case E: (Phi _ _) => // ; case: (HP (own r i) ord0).
Qed.
Print Assumptions C156_pod_coefficients_nan_iff.
(* one NaN in one kept mode, or one missing value, makes the reconstruction NaN at every point and time; otherwise it is that of C29 *)
Theorem C156_pod_reconstruction : forall (C : numClosedFieldType) size n nt k (nloc : 'I_size -> nat)
    (own : forall r : 'I_size, 'I_(nloc r) -> 'I_n) (Phi : 'I_n -> 'I_k -> option C) (data : 'I_nt -> 'I_n -> option C),
  partition_of own -> (0 < k)%N ->
  (has_hole Phi \/ has_hole data -> forall i t, p_rec own data Phi i t = None) /\
  (complete Phi -> complete data -> forall Pc dc, fills Phi Pc -> fills data dc ->
     forall r (i : 'I_(nloc r)) t, p_rec own data Phi (own r i) t = Some (pod_rec own Pc dc i t)).
Proof.
move=> C size n nt k nloc own Phi data Hown Hk; split=> [H i t|HP HD Pc dc EP ED r i t].
  rewrite /p_rec; case: H => [[i' [j E]]|H]; rewrite (nsum_none (i := if [pick j | ~~ isSome (p_coeffs own data Phi j t)] is Some j then j else Ordinal Hk)) ?mem_enum //; case: pickP => [j'|Hno].
  - by case: (p_coeffs _ _ _ _ _) => // _; rewrite nmul_None.
  - move: (Hno j); suff -> : p_coeffs own data Phi j t = None by [].
    by apply/C156_pod_coefficients_nan_iff => //; left; exists i'.
  - by case: (p_coeffs _ _ _ _ _) => // _; rewrite nmul_None.
  - move: (Hno (Ordinal Hk)); suff -> : p_coeffs own data Phi (Ordinal Hk) t = None by [].
    by apply/C156_pod_coefficients_nan_iff => //; right.
have Hnt : (0 < nt)%N by case: t => [t Ht]; apply: leq_ltn_trans Ht.
rewrite /p_rec (c_mean_some Hnt ED) // (nsum_enum_some (G := fun j => Pc (own r i) j * pod_coeffs own Pc dc j t)) // => j.
rewrite (P_some EP (HP (own r i) j)).
suff -> : p_coeffs own data Phi j t = Some (pod_coeffs own Pc dc j t) by [].
rewrite /p_coeffs (@nsum_some2 _ size nloc _ (fun r i => Pc (own r i) j * (dc t (own r i) - (\sum_t dc t (own r i)) / nt%:R))).
  congr Some; rewrite /pod_coeffs summxE; apply: eq_bigr => q _; rewrite [RHS]mxE; apply: eq_bigr => x _; by rewrite !mxE.
by move=> q x; rewrite (P_some EP (HP (own q x) j)) (c_cent_some Hnt ED).
Qed.
Print Assumptions C156_pod_reconstruction.

(* ---- the hypotheses are met: two entries on two processes, two snapshots, the value of entry 1 at time 0 missing ---- *)
Definition holed (C : numClosedFieldType) (t i : 'I_2) : option C := if (t == 0) && (i == 1) then None else Some (t + i)%:R.
Example C156_nonvacuous : forall (C : numClosedFieldType), let own := fun (r : 'I_2) (_ : 'I_1) => r in
  [/\ partition_of own, has_hole (@holed C), fills (@holed C) (filled (@holed C)), complete (fun (_ : 'I_2) (_ : 'I_1) => Some (1 : C)) &
    ~ complete (@holed C)].
Proof.
move=> C own; split.
- exists (fun y : 'I_2 => Tagged (fun _ : 'I_2 => 'I_1) (i := y) ord0).
    by move=> [r i]; rewrite [i]ord1.
  by [].
- by exists 0, 1.
- exact: filled_ok.
- by [].
- by move/(_ 0 1).
Qed.
