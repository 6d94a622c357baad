(* C127: convolution coefficients at the blocks of the fit (serial runs). *)
From Verif Require Import Base_List Model_Select Proof_Select.
From mathcomp Require Import all_ssreflect all_algebra.
From Verif Require Import Base_CRing Model_Spod Spec_Spod Spec_Coeffs Model_Coeffs Proof_Spod Proof_Spectral Proof_StreamAlg Proof_Coeffs.
Set Implicit Arguments.
Unset Strict Implicit.
Unset Printing Implicit Defensive.
Import GRing.Theory Num.Theory Order.TTheory.
Local Open Scope ring_scope.

Section Conv.
Variable C : numClosedFieldType.
Add Ring Cring : (cr_th C).
Ltac cring := cr_norm C; ring.

(* projection of a block on a mode *)
Lemma proj_block m nb (Q : 'M[C]_(m, nb)) (w : 'cV[C]_m) (L : 'rV[C]_nb) (V : 'M[C]_nb) b k : (0 < nb)%N ->
  (forall i, 0 <= w i 0) -> eigenpairs (gram Q w) L V -> 0 < L 0 k ->
  \sum_i Q i b * w i 0 * (all_modes Q L V i k)^* = sqrtC nb%:R * sqrtC (L 0 k) * (V b k)^*.
Proof.
move=> Hnb Hw [He _] HL.
set d := (sqrtC nb%:R * sqrtC (L 0 k))^-1.
have Hnb0 : 0 < nb%:R :> C by rewrite ltr0n.
have Hs : 0 < sqrtC nb%:R * sqrtC (L 0 k) by rewrite mulr_gt0 ?sqrtC_gt0.
have Hd : d^* = d by apply: CrealP; rewrite realV; apply: gtr0_real.
have Hm i : all_modes Q L V i k = \sum_a Q i a * V a k * d.
  by rewrite /all_modes mxE; apply: eq_bigr => a _; rewrite mxE mulrA.
transitivity (d * nb%:R * (\sum_a gram Q w b a * V a k)^*).
  under eq_bigr do rewrite Hm rmorph_sum /= mulr_sumr.
  rewrite exchange_big /= rmorph_sum /= mulr_sumr; apply: eq_bigr => a _.
  rewrite rmorphM -[(gram Q w b a)^*](gram_herm Q Hw) gramE.
  transitivity (d * (\sum_i ((Q i a)^* * Q i b * w i 0)) * (V a k)^*).
    rewrite mulr_sumr mulr_suml; apply: eq_bigr => i _; rewrite !rmorphM Hd; cring.
  move: (\sum_i _) => S; rewrite -[d * nb%:R * _]mulrA [nb%:R * _]mulrA mulVKf ?lt0r_neq0 // !mulrA //.
have -> : \sum_a gram Q w b a * V a k = L 0 k * V b k.
  have E : (gram Q w *m col k V) b 0 = (L 0 k *: col k V) b 0 by rewrite He.
  move: E; rewrite mxE [RHS]mxE [col k V b 0]mxE => <-.
  by apply: eq_bigr => a _; rewrite [col k V a 0]mxE.
rewrite rmorphM (CrealP (gtr0_real HL)) mulrA; congr (_ * _).
rewrite /d; set x := sqrtC nb%:R in Hs *; set y := sqrtC (L 0 k) in Hs *.
have -> : nb%:R = x * x by rewrite -expr2 sqrtCK.
have -> : L 0 k = y * y by rewrite -expr2 sqrtCK.
have -> : (x * y)^-1 * (x * x) * (y * y) = (x * y)^-1 * (x * y) * (x * y) by cring.
by rewrite mulVf ?mul1r // lt0r_neq0.
Qed.

Lemma norm_factor (x g p q u v : C) : x != 0 ->
  (x ^+ 2)^-1 * (g * (x * p * u) * (g * (x * q * v))) = g ^+ 2 * (p * q) * (u * v).
Proof.
move=> Hx; have Hx2 : x ^+ 2 != 0 by rewrite expf_neq0.
have -> : g * (x * p * u) * (g * (x * q * v)) = x ^+ 2 * (g ^+ 2 * (p * q) * (u * v)) by rewrite !expr2; cring.
by rewrite mulKf.
Qed.
Lemma vec_orth nb m (Q : 'M[C]_(m, nb)) (w : 'cV[C]_m) (L : 'rV[C]_nb) (V : 'M[C]_nb) j k :
  (forall i, 0 <= w i 0) -> eigenpairs (gram Q w) L V -> 0 < L 0 j -> (j = k \/ L 0 j != L 0 k) ->
  \sum_a (V a j)^* * V a k = (j == k)%:R.
Proof.
move=> Hw He Hj Hjk; case: (eqVneq j k) Hjk => [<-|Hne] Hjk; first by rewrite normsq (proj2 He j).
case: Hjk => [/eqP|Hl]; first by rewrite (negbTE Hne).
have := herm_orth (gram_herm Q Hw) (proj1 He j) (proj1 He k) (gtr0_real Hj).
by rewrite eq_sym => /(_ Hl); under eq_bigr do rewrite !mxE.
Qed.

Variables (c : config C) (eig : 'M[C]_(n_blocks c) -> 'rV[C]_(n_blocks c) * 'M[C]_(n_blocks c)) (argsort : 'rV[C]_(n_blocks c) -> 'I_(n_blocks c) -> 'I_(n_blocks c)).
Variables (n : nat) (X : nat -> 'I_n -> C) (w : 'cV[C]_n).
Hypothesis Hmean : mean_type c = Longtime.
Hypothesis Hnorm : normalize_data c = false.
Hypothesis Hnt : (0 < n_dft c <= nt c)%N.
Let data : 'M[C]_(nt c, n) := \matrix_(t, i) X t i.

Lemma block_in b k : (k < n_dft c)%N -> (block_offset c b + k < nt c)%N.
Proof.
move=> Hk; have /andP [_ Hle] := Hnt; rewrite /block_offset.
set z := minn _ _; have Hz : (z <= nt c)%N by rewrite geq_minr.
have Hz2 : (n_dft c <= z)%N by rewrite /z leq_min Hle andbT leq_addl.
by apply: leq_trans Hz; rewrite -{2}(subnK Hz2) ltn_add2l.
Qed.
(* the moving segment that coincides with block b *)
Lemma segment b f i : win_weight c != 0 ->
  q_blk (fun (_ : 'I_1) (i : 'I_n) => i) data (n_dft c) (window c) (omega c) (r := ord0) f (block_offset c b + h_pad (n_dft c)) i
  = (n_dft c)%:R / win_weight c * block_hat c (fun t => X t i) b f.
Proof.
move=> Hww; have /andP [Hd _] := Hnt.
have Hn0 : (n_dft c)%:R != 0 :> C by rewrite pnatr_eq0 -lt0n.
rewrite /block_hat; move: (win_weight c) Hww => ww Hww.
have E D : (n_dft c)%:R / ww * (ww / (n_dft c)%:R * D) = D by rewrite !mulrA divfK // divff // mul1r.
rewrite E /q_blk /dft {E}.
apply: eq_bigr => k _; congr (_ * _); rewrite /block_windowed /block_normalized Hnorm; congr (_ * _).
rewrite /block_centred Hmean /pad.
have -> : (block_offset c b + h_pad (n_dft c) + k - h_pad (n_dft c) = block_offset c b + k)%N by rewrite addnAC addnK.
rewrite insubT ?block_in // => H; rewrite addnAC leq_addl dcentE /fluctuation /time_mean mxE /= /t_mean Hmean.
by congr (_ - _ / _); apply: eq_bigr => t _; rewrite mxE.
Qed.
End Conv.

(* h_pad n_dft = ceil(n_dft/2): padding in front of the record, so the segment of n_dft samples that starts at sample o of the record
   belongs to time index o + h_pad. *)
Theorem C127_coefficient_of_a_block : forall (C : numClosedFieldType) (c : config C) eig argsort n (X : nat -> 'I_n -> C) (w : 'cV[C]_n)
    f b H (m : 'I_(n_modes_save c)),
  mean_type c = Longtime -> normalize_data c = false -> (0 < n_dft c <= nt c)%N -> (0 < n_blocks c)%N -> win_weight c != 0 ->
  (forall i, 0 <= w i 0) -> eig_ok eig ->
  let lam := run_L eig argsort (size := 1) (fun _ i => i) X w f 0 (widen_ord H m) in
  let theta := run_V eig argsort (size := 1) (fun _ i => i) X w f b (widen_ord H m) in
  0 < lam ->
  conv_serial w (fun f i m => serial_modes eig argsort X w ord0 f H i m) (\matrix_(t, i) X t i : 'M[C]_(nt c, n)) (n_dft c) (window c) (omega c)
    f (block_offset c b + h_pad (n_dft c)) m
  = corr (nt c) (n_dft c) (window c) (block_offset c b + h_pad (n_dft c)) * ((n_dft c)%:R / win_weight c)
    * (sqrtC (n_blocks c)%:R * sqrtC lam * theta^* ).
Proof.
move=> C c eig argsort n X w f b H m Hmean Hnorm Hnt Hnb Hww Hw Heig lam theta Hlam.
have Hp := @serial_partition n.
have He := run_eigenpairs argsort Hp X Hw Heig f; rewrite (serial_gram c X w f) in He.
rewrite /conv_serial /conv_local -mulrA; congr (_ * _).
rewrite -(proj_block b Hnb Hw He Hlam) mulr_sumr; apply: eq_bigr => i _.
rewrite (segment X Hmean Hnorm Hnt b f i Hww) !mulrA; congr (_ * _ * _^* ).
  by rewrite [q_hat c X f i b]mxE /block_hat !mulrA.
by rewrite /serial_modes /run_modes /kept_modes mxE.
Qed.
Print Assumptions C127_coefficient_of_a_block.

(* away from the end of the record there is no correction factor *)
Theorem C127_no_correction_inside : forall (C : numClosedFieldType) (c : config C) b,
  (0 < n_dft c)%N -> (block_offset c b + 2 * h_pad (n_dft c) < nt c)%N ->
  corr (nt c) (n_dft c) (window c) (block_offset c b + h_pad (n_dft c)) = 1.
Proof.
move=> C c b Hd Hin; rewrite /corr.
suff -> : corr_range (nt c) (n_dft c) (block_offset c b + h_pad (n_dft c)) = None by [].
by apply: no_corr; apply/ssrnat.ltP; move: Hin; rewrite mulnE plusE.
Qed.
Print Assumptions C127_no_correction_inside.

(* near the ends the squared factor restores the sum of the window, and it never reduces a coefficient *)
Theorem C54_correction_restores_the_window_sum : forall (C : numClosedFieldType) nt n_dft (win : nat -> C) i0,
  (forall k, 0 < win k) -> corr_range nt n_dft i0 <> None -> (exists2 k : 'I_n_dft, in_sum nt n_dft i0 k & true) ->
  (corr nt n_dft win i0 ^+ 2 * (\sum_(k < n_dft | in_sum nt n_dft i0 k) win k) = \sum_(k < n_dft) win k) /\ 1 <= corr nt n_dft win i0.
Proof.
move=> C nt n_dft win i0 Hw Hc [k0 Hk0 _]; rewrite /corr; case E: (corr_range nt n_dft i0) Hc => [lu|] // _.
set p := \sum_(k < n_dft | in_sum nt n_dft i0 k) win k; set t := \sum_(k < n_dft) win k.
have Hp : 0 < p.
  rewrite /p (bigD1 k0) //=; apply: ltr_paddr; last exact: Hw.
  by apply: sumr_ge0 => k _; apply: ltW.
have Hpt : p <= t.
  rewrite /t (bigID (fun k : 'I_n_dft => in_sum nt n_dft i0 k)) /= -/p; rewrite -[X in X <= _]addr0 ler_add2l.
  by apply: sumr_ge0 => k _; apply: ltW.
split; first by rewrite sqrtCK -mulrA mulVf ?mulr1 // gt_eqF.
have H1 : 1 <= t / p by rewrite ler_pdivl_mulr // mul1r.
have H0 : 0 <= t / p by apply: le_trans H1; exact: ler01.
by rewrite -[1](@sqrtC1 C) ler_sqrtC // ?qualifE ?ler01.
Qed.
Print Assumptions C54_correction_restores_the_window_sum.

(* over the blocks of the fit the coefficients of different modes are uncorrelated and the mean squared modulus of each is its
   eigenvalue, in units of (n_dft / win_weight)^2 *)
Theorem C127_coefficients_uncorrelated : forall (C : numClosedFieldType) (c : config C) eig argsort n (X : nat -> 'I_n -> C) (w : 'cV[C]_n)
    f H (j k : 'I_(n_modes_save c)),
  mean_type c = Longtime -> normalize_data c = false -> (0 < n_dft c <= nt c)%N -> (0 < n_blocks c)%N ->
  win_weight c \is Num.real -> win_weight c != 0 ->
  (forall i, 0 <= w i 0) -> eig_ok eig ->
  (forall b : 'I_(n_blocks c), (block_offset c b + 2 * h_pad (n_dft c) < nt c)%N) ->
  let lam m := run_L eig argsort (size := 1) (fun _ i => i) X w f 0 (widen_ord H m) in
  0 < lam j -> 0 < lam k -> j = k \/ lam j != lam k ->
  let a (b : 'I_(n_blocks c)) m := conv_serial w (fun f i m => serial_modes eig argsort X w ord0 f H i m)
    (\matrix_(t, i) X t i : 'M[C]_(nt c, n)) (n_dft c) (window c) (omega c) f (block_offset c b + h_pad (n_dft c)) m in
  (\sum_b a b j * (a b k)^* ) / (n_blocks c)%:R = ((n_dft c)%:R / win_weight c) ^+ 2 * lam j * (j == k)%:R.
Proof.
move=> C c eig argsort n X w f H j k Hmean Hnorm Hnt Hnb Hwr Hww Hw Heig Hin lam Hj Hk Hjk a.
have Hp := @serial_partition n.
have He := run_eigenpairs argsort Hp X Hw Heig f; rewrite (serial_gram c X w f) in He.
have /andP [Hd _] := Hnt.
set g := (n_dft c)%:R / win_weight c.
have Hg : g^* = g by apply: CrealP; apply: realM; [exact: realn|rewrite realV].
have Hnb0 : 0 < (n_blocks c)%:R :> C by rewrite ltr0n.
pose th m b := run_V eig argsort (size := 1) (fun _ i => i) X w f b (widen_ord H m).
have Ha b m : 0 < lam m -> a b m = g * (sqrtC (n_blocks c)%:R * sqrtC (lam m) * (th m b)^* ).
  move=> Hm; rewrite /a C127_coefficient_of_a_block // C127_no_correction_inside // mul1r //.
have Hr (x : C) : 0 < x -> (sqrtC x)^* = sqrtC x by move=> Hx; apply: CrealP; apply: gtr0_real; rewrite sqrtC_gt0.
clearbody g; rewrite [LHS]mulrC.
transitivity (g ^+ 2 * (sqrtC (lam j) * sqrtC (lam k)) * \sum_b (th j b)^* * th k b).
  rewrite !mulr_sumr; apply: eq_bigr => b _; rewrite !Ha // !rmorphM Hg conjCK !Hr //.
  set x := sqrtC (n_blocks c)%:R.
  have -> : ((n_blocks c)%:R)^-1 = (x ^+ 2)^-1 by rewrite sqrtCK.
  have Hx : x != 0 by rewrite lt0r_neq0 // sqrtC_gt0.
  exact: (@norm_factor C x g _ _ _ _ Hx).
have Horth : \sum_b (th j b)^* * th k b = (j == k)%:R.
  rewrite (vec_orth (k := widen_ord H k) Hw He Hj); first by congr (_%:R); congr nat_of_bool; apply/eqP/eqP => [E|->//]; apply: val_inj; have := congr1 val E.
  by case: Hjk => [->|Hl]; [left|right].
rewrite Horth; case: eqVneq => [->|Hne]; last by rewrite !mulr0.
by rewrite !mulr1 -expr2 sqrtCK.
Qed.
Print Assumptions C127_coefficients_uncorrelated.

(* one point, three samples 1, -1, 0 and one block of two: the hypotheses of C127 hold, with eigenvalue 1 *)
Definition conv_case (C : numClosedFieldType) : config C :=
  Config 3 2 0 1 2 1 Longtime false 0 (fun _ => 1) true (-1) 0 (fun _ _ => 1).
Definition conv_data (C : numClosedFieldType) (t : nat) (_ : 'I_1) : C := if t == 0%N then 1 else if t == 1%N then -1 else 0.
Example C127_nonvacuous (C : numClosedFieldType) : let c := conv_case C in
  (forall b : 'I_(n_blocks c), (block_offset c b + 2 * h_pad (n_dft c) < nt c)%N) /\ win_weight c = 1 /\
  forall eig argsort, eig_ok eig -> run_L (c := c) eig argsort (size := 1) (fun _ (i : 'I_1) => i) (@conv_data C) (const_mx 1) 1 0 ord0 = 1.
Proof.
move=> c; split; first by move=> [[|b] Hb].
have Hww : win_weight c = 1.
  rewrite /win_weight /= 2!big_ord_recl big_ord0 addr0 -[1 + 1]/(2%:R) divff ?invr1 // pnatr_eq0 //.
split=> // eig argsort Heig.
have Hw : forall i, 0 <= (const_mx 1 : 'cV[C]_1) i 0 by move=> i; rewrite mxE ler01.
have [He Hn] := run_eigenpairs (c := c) argsort (@serial_partition 1) (@conv_data C) Hw Heig 1.
have Hg : gram (q_hat c (@conv_data C) 1) (const_mx 1) ord0 ord0 = 1.
  have Hq : block_hat c (fun t => @conv_data C t ord0) 0 1 = 1.
    rewrite /block_hat Hww /dft /= 2!big_ord_recl big_ord0 /block_windowed /block_normalized /block_centred /t_mean /block_offset /=.
    rewrite !big_ord_recl big_ord0 /conv_data /= !addr0 subrr mul0r !subr0 !mulr1 expr1 mulrN1 opprK mul1r -[1 + 1]/(2%:R) mulVf ?pnatr_eq0 //.
  rewrite gramE big_ord1 !mxE Hq conjC1 !mulr1 invr1 //.
move: {He Hn} (He ord0) (Hn ord0); rewrite (serial_gram c (@conv_data C) _ 1).
move: (gram _ _) Hg => G Hg.
move: (run_L _ _ _ _ _ _) (run_V _ _ _ _ _ _) => L V /(congr1 (fun M : 'cV_1 => M 0 0)).
rewrite !mxE !big_ord1 !mxE Hg mul1r => E Hn.
have HV : V ord0 ord0 != 0 by apply/eqP => E0; move: Hn; rewrite E0 normr0 expr0n => /eqP; rewrite eq_sym oner_eq0.
by apply: (mulIf HV); rewrite mul1r; apply: esym; exact: E.
Qed.
Example C54_correction_nonvacuous : corr_range 20 8 18 <> None /\ (exists2 k : 'I_8, in_sum 20 8 18 k & true) /\ corr_range 20 8 1 <> None /\ (exists2 k : 'I_8, in_sum 20 8 1 k & true).
Proof. by repeat split => //; [exists (@Ordinal 8 1 isT) | exists (@Ordinal 8 6 isT)]. Qed.
