(* Functions of a diagonalisable matrix, uniqueness of sorted eigenvalues, and the maximum of the energy that
   m orthonormal vectors can capture (Ky Fan). *)
From mathcomp Require Import all_ssreflect all_algebra.
From Verif Require Import Base_CRing Model_Spod Spec_Spod Spec_Stream Proof_Spod Proof_Spectral Proof_StreamAlg Proof_Svd.
Set Implicit Arguments.
Unset Strict Implicit.
Unset Printing Implicit Defensive.
Import GRing.Theory Num.Theory Order.TTheory.
Local Open Scope ring_scope.

Section Eigs.
Variable C : numClosedFieldType.

Lemma eigen_diag n (M : 'M[C]_n) L V : eigenpairs M L V -> M *m V = V *m diag_mx L.
Proof.
move=> [He _]; apply/matrixP => i k; have := congr1 (fun A : 'cV[C]_n => A i 0) (He k).
rewrite !mxE; under eq_bigr do rewrite mxE.
move=> ->; rewrite (bigD1 k) //= big1 => [|j Hj].
  by rewrite !mxE eqxx mulr1n addr0 mulrC.
by rewrite !mxE (negbTE Hj) mulr0n mulr0.
Qed.

(* two diagonalisations of the same matrix have the same eigenvalues with the same multiplicities *)
Lemma eig_sum_fun n (M V U : 'M[C]_n) (L d : 'rV[C]_n) (g : C -> C) :
  V \in unitmx -> M *m V = V *m diag_mx L -> U \in unitmx -> M *m U = U *m diag_mx d ->
  \sum_k g (L 0 k) = \sum_k g (d 0 k).
Proof.
move=> HV EV HU EU; pose T := invmx U *m V.
have ET : diag_mx d *m T = T *m diag_mx L.
  have E1 : diag_mx d = invmx U *m M *m U by rewrite -mulmxA EU mulmxA mulVmx // mul1mx.
  by rewrite E1 /T -!mulmxA (mulmxA U) mulmxV // mul1mx EV.
have HT : T \in unitmx by rewrite unitmx_mul unitmx_inv HU HV.
clearbody T.
pose G (x : 'rV[C]_n) : 'rV[C]_n := \row_k g (x 0 k).
have EG : diag_mx (G d) *m T = T *m diag_mx (G L).
  apply/matrixP => i j; have := congr1 (fun A : 'M[C]_n => A i j) ET.
  rewrite !mul_diag_mx !mul_mx_diag !mxE => E.
  case: (eqVneq (T i j) 0) => [->|Hn]; first by rewrite mulr0 mul0r.
  have -> : d 0 i = L 0 j by apply: (mulIf Hn); rewrite E mulrC.
  by rewrite mulrC.
have Etr (x : 'rV[C]_n) : \sum_k g (x 0 k) = \tr (diag_mx (G x)).
  by rewrite mxtrace_diag; apply: eq_bigr => k _; rewrite mxE.
rewrite !Etr -[diag_mx (G d)]mulmx1 -(mulmxV HT) mulmxA EG -mulmxA mxtrace_mulC -mulmxA mulVmx // mulmx1 //.
Qed.
Lemma eig_perm n (M V U : 'M[C]_n) (L d : 'rV[C]_n) :
  V \in unitmx -> M *m V = V *m diag_mx L -> U \in unitmx -> M *m U = U *m diag_mx d ->
  perm_eq [seq L 0 k | k <- enum 'I_n] [seq d 0 k | k <- enum 'I_n].
Proof.
move=> HV EV HU EU; apply/allP => x _ /=; apply/eqP.
have E : (count_mem x [seq L 0 k | k <- enum 'I_n])%:R = (count_mem x [seq d 0 k | k <- enum 'I_n])%:R :> C.
  have H (y : 'rV[C]_n) : (count_mem x [seq y 0 k | k <- enum 'I_n])%:R = \sum_k (y 0 k == x)%:R :> C.
    rewrite count_map -sum1_count natr_sum big_enum_cond /= big_mkcond.
    by apply: eq_bigr => i _ /=; case: eqP.
  rewrite !H; exact: (eig_sum_fun (fun y => (y == x)%:R) HV EV HU EU).
by move/eqP: E; rewrite eqr_nat => /eqP.
Qed.

Definition desc n (L : 'rV[C]_n) := forall i j : 'I_n, (i <= j)%N -> L 0 j <= L 0 i.
Lemma desc_sorted n (L : 'rV[C]_n) : desc L -> sorted (fun x y : C => y <= x) [seq L 0 k | k <- enum 'I_n].
Proof.
move=> HL; case: n L HL => [|n] L HL.
  by have -> : [seq L 0 k | k <- enum 'I_0] = [::] by apply/eqP; rewrite -size_eq0 size_map size_enum_ord.
apply/(sortedP (L 0 0)) => i; rewrite size_map size_enum_ord => Hi.
have Hi' := ltn_trans (ltnSn i) Hi.
rewrite (nth_map ord0) ?size_enum_ord // (nth_map ord0) ?size_enum_ord //.
by apply: HL; rewrite (nth_enum_ord _ Hi) (nth_enum_ord _ Hi').
Qed.
Lemma desc_unique n (L d : 'rV[C]_n) : desc L -> desc d ->
  perm_eq [seq L 0 k | k <- enum 'I_n] [seq d 0 k | k <- enum 'I_n] -> L = d.
Proof.
move=> HL Hd Hp; apply/rowP => k.
have E : [seq L 0 k | k <- enum 'I_n] = [seq d 0 k | k <- enum 'I_n].
  apply: (sorted_eq (leT := fun x y : C => y <= x)) (desc_sorted HL) (desc_sorted Hd) Hp.
  - by move=> x y z H1 H2; apply: le_trans H2 H1.
  - by move=> x y /andP [H1 H2]; apply: le_anti; rewrite H1 H2.
have := congr1 (fun s => nth 0 s k) E.
have Hk : (k < size (enum (ordinal_finType n)))%N by rewrite size_enum_ord.
by rewrite (nth_map k _ _ Hk) (nth_map k _ _ Hk) nth_ord_enum.
Qed.

(* orthonormal (or zero) columns: sum of squared components is at most the squared norm *)
Lemma bessel n m (A : 'M[C]_(n, m)) (u : 'cV[C]_n) : A *m (adj A *m A) = A ->
  \sum_j `|(adj A *m u) j 0| ^+ 2 <= \sum_i `|u i 0| ^+ 2.
Proof.
move=> HA; pose c := adj A *m u; pose r := u - A *m c.
have HA' : adj A *m A *m adj A = adj A by rewrite -{4}HA !adjM adjK.
have Hc' : adj A *m A *m c = c by rewrite /c mulmxA HA'.
have Hr : adj A *m r = 0 by rewrite mulmxBr mulmxA Hc' subrr.
have E : adj u *m u = adj r *m r + adj c *m c.
  have Hu : u = r + A *m c by rewrite subrK.
  have Hr' : adj r *m A = 0 by rewrite -[LHS]adjK adjM adjK Hr adj0.
  rewrite {1 2}Hu; have -> : adj (r + A *m c) = adj r + adj c *m adj A.
    by rewrite -adjM; apply/matrixP => i j; rewrite !mxE -rmorphD.
  have E1 : adj r *m (A *m c) = 0 by rewrite mulmxA Hr' mul0mx.
  have E2 : adj c *m adj A *m r = 0 by rewrite -mulmxA Hr mulmx0.
  have E3 : adj c *m adj A *m (A *m c) = adj c *m c by rewrite -mulmxA (mulmxA (adj A)) Hc'.
  by rewrite mulmxDl (mulmxDr _ r) (mulmxDr _ r) E1 E2 E3 addr0 add0r.
have Hn : \sum_i `|u i 0| ^+ 2 = (adj u *m u) 0 0 by rewrite adj_normsq.
have Hc : \sum_j `|(adj A *m u) j 0| ^+ 2 = (adj c *m c) 0 0 by rewrite adj_normsq.
have Hs : (adj u *m u) 0 0 = (adj r *m r) 0 0 + (adj c *m c) 0 0 by rewrite E mxE.
rewrite Hc Hn Hs ler_addr adj_normsq; apply: sumr_ge0 => i _; exact: exprn_ge0.
Qed.

(* the scalar core: weights c_i in [0,1] of total at most m pick at most the m largest values *)
Definition pos_part (t x : C) : C := if t <= x then x - t else 0.
Lemma pos_part_ge0 t x : 0 <= pos_part t x.
Proof. by rewrite /pos_part; case: ifP => H //; rewrite subr_ge0. Qed.
Lemma pick_le n (d c : 'I_n -> C) (t : C) m : 0 <= t -> (forall i, d i \is Num.real) ->
  (forall i, 0 <= c i <= 1) -> \sum_i c i <= m%:R ->
  \sum_i d i * c i <= \sum_i pos_part t (d i) + t * m%:R.
Proof.
move=> Ht Hd Hc Hm; apply: (@le_trans _ _ (\sum_i (pos_part t (d i) + t * c i))).
  apply: ler_sum => i _; have /andP [H0 H1] := Hc i; rewrite /pos_part.
  have /orP [H|H] : (t <= d i) || (d i <= t) by apply: real_leVge => //; exact: ger0_real.
    rewrite H -ler_subl_addr -mulrBl; apply: ler_pimulr => //; by rewrite subr_ge0.
  case: ifP => H'; last by rewrite add0r ler_wpmul2r.
  rewrite -ler_subl_addr -mulrBl; apply: ler_pimulr => //; by rewrite subr_ge0.
by rewrite big_split /= ler_add2l -mulr_sumr ler_wpmul2l.
Qed.
Lemma top_sum n (L : 'rV[C]_n) m : desc L -> (forall k, 0 <= L 0 k) ->
  exists t, 0 <= t /\ (m%:R * t + \sum_k pos_part t (L 0 k) <= \sum_(k < n | (k < m)%N) L 0 k).
Proof.
move=> HL H0; case: m => [|m].
  case: n L HL H0 => [|n] L HL H0; first by exists 0; rewrite mulr0 !big_ord0 addr0.
  exists (L 0 0); split=> //; rewrite mul0r add0r [X in _ <= X]big_pred0 // big1 // => k _.
  rewrite /pos_part; case: ifP => // Hk; apply/eqP; rewrite subr_eq0; apply/eqP; apply: le_anti.
  by rewrite Hk HL.
case: (leqP n m) => Hm.
  exists 0; split=> //; rewrite mulr0 add0r [X in _ <= X](eq_bigl (fun=> true)) => [|k]; last first.
    by rewrite (leq_trans (ltn_ord k)) // ltnW.
  by apply: ler_sum => k _; rewrite /pos_part H0 subr0.
pose p := Ordinal Hm; exists (L 0 p); split=> //.
have E : \sum_k pos_part (L 0 p) (L 0 k) = \sum_(k < n | (k < m.+1)%N) (L 0 k - L 0 p).
  rewrite [RHS]big_mkcond /=; apply: eq_bigr => k _; rewrite /pos_part.
  case: ifP => Hk; case: ifP => Hk' //.
    apply/eqP; rewrite subr_eq0; apply/eqP; apply: le_anti; rewrite Hk andbT.
    by apply: HL => /=; rewrite ltnW // ltnNge -ltnS Hk'.
  by move: Hk; rewrite HL.
rewrite E sumrB addrC -addrA -[X in _ <= X]addr0 ler_add2l.
rewrite sumr_const -[(_ *+ _)]mulr_natl.
have -> : #|[pred k : 'I_n | (k < m.+1)%N]| = m.+1.
  rewrite -sum1_card (eq_bigl (fun k : 'I_n => (k < m.+1)%N)) //.
  by rewrite -(big_ord_widen _ (fun=> 1%N) Hm) sum1_card card_ord.
by rewrite addNr.
Qed.

Lemma frob_unitary m n (A : 'M[C]_(m, n)) (U : 'M[C]_n) : adj U *m U = 1%:M ->
  \sum_j \sum_b `|A j b| ^+ 2 = \sum_j \sum_b `|(A *m U) j b| ^+ 2.
Proof.
move=> HU; have HU' : U *m adj U = 1%:M by apply: mulmx1C.
have E p q (B : 'M[C]_(p, q)) j : \sum_b `|B j b| ^+ 2 = (B *m adj B) j j.
  by rewrite mxE; apply: eq_bigr => b _; rewrite mxE normCK.
by apply: eq_bigr => j _; rewrite !E adjM mulmxA -(mulmxA A) HU' mulmx1.
Qed.

(* Ky Fan: m orthonormal vectors z_j capture at most the m largest eigenvalues of a^2 Y^* Y *)
Lemma ky_fan n nb m (Y : 'M[C]_(n, nb)) (Z : 'M[C]_(n, m)) (a : C) (L : 'rV[C]_nb) (V : 'M[C]_nb) :
  0 < a -> adj Z *m Z = 1%:M -> V \in unitmx -> (a *: (adj Y *m Y)) *m V = V *m diag_mx L -> desc L ->
  a * (\sum_j \sum_b `|(adj Z *m Y) j b| ^+ 2) <= \sum_(k < nb | (k < m)%N) L 0 k.
Proof.
move=> Ha HZ HV EV HL.
have HZ3 : Z *m (adj Z *m Z) = Z by rewrite HZ mulmx1.
have Hherm : hermitian (a *: (adj Y *m Y)).
  apply/hermP; apply/matrixP => i j; rewrite !mxE rmorphM conj_Creal ?gtr0_real //; congr (_ * _).
  by rewrite rmorph_sum; apply: eq_bigr => k _; rewrite !mxE rmorphM conjCK mulrC.
have [U [d [HU EU]]] := spectral Hherm.
have HU' : U *m adj U = 1%:M by apply: mulmx1C.
have HUu : U \in unitmx by case/mulmx1_unit: HU'.
pose W := Y *m U.
have EW : adj W *m W = a^-1 *: diag_mx d.
  have -> : adj W *m W = adj U *m (adj Y *m Y *m U) by rewrite /W adjM -!mulmxA.
  have -> : adj Y *m Y *m U = a^-1 *: (U *m diag_mx d).
    by rewrite -EU -scalemxAl scalerA mulVf ?scale1r ?gt_eqF.
  by rewrite -scalemxAr mulmxA HU mul1mx.
have EWij i j : \sum_k (W k i)^* * W k j = a^-1 * (d 0 i *+ (i == j)).
  by have := congr1 (fun A : 'M[C]_nb => A i j) EW; rewrite !mxE => <-; apply: eq_bigr => k _; rewrite !mxE.
have Hnorm i : \sum_k `|W k i| ^+ 2 = a^-1 * d 0 i.
  by have := EWij i i; rewrite eqxx mulr1n => <-; apply: eq_bigr => k _; rewrite normCKC.
have Hd i : 0 <= d 0 i.
  rewrite -(pmulr_rge0 _ (_ : 0 < a^-1)) ?invr_gt0 // -Hnorm; apply: sumr_ge0 => k _; exact: exprn_ge0.
have Hz i k : d 0 i = 0 -> W k i = 0.
  move=> E; have := Hnorm i; rewrite E mulr0 => /eqP; rewrite psumr_eq0 => [|j _]; last exact: exprn_ge0.
  by move/allP/(_ k); rewrite mem_index_enum /= sqrf_eq0 normr_eq0 => H; apply/eqP/H.
pose sc i := if d 0 i == 0 then 0 else (sqrtC (a^-1 * d 0 i))^-1.
pose P : 'M[C]_(n, nb) := \matrix_(k, i) (W k i * sc i).
have Hsc i : d 0 i != 0 -> sc i * sc i * (a^-1 * d 0 i) = 1.
  move=> H; rewrite /sc (negbTE H) -expr2 exprVn sqrtCK mulVf // mulf_neq0 ?invr_neq0 // gt_eqF //.
have Hscr i : (sc i)^* = sc i.
  rewrite /sc; case: ifP => _; rewrite ?rmorph0 //; apply/CrealP; rewrite rpredV; apply: ger0_real.
  by rewrite sqrtC_ge0 mulr_ge0 // invr_ge0 ltW.
have EP i j : (adj P *m P) i j = (d 0 i != 0)%:R *+ (i == j).
  have -> : (adj P *m P) i j = sc i * sc j * \sum_k (W k i)^* * W k j.
    rewrite mxE mulr_sumr; apply: eq_bigr => k _; rewrite !mxE rmorphM Hscr.
    by rewrite mulrACA mulrC.
  rewrite EWij; case: (eqVneq i j) => [<-|_]; last by rewrite !mulr0n !mulr0.
  rewrite !mulr1n; case: (eqVneq (d 0 i) 0) => [E|H] /=; first by rewrite E !mulr0.
  exact: Hsc.
have HP3 : P *m (adj P *m P) = P.
  apply/matrixP => k j; rewrite mxE (bigD1 j) //= big1 => [|i Hi]; last by rewrite EP (negbTE Hi) mulr0n mulr0.
  rewrite addr0 EP eqxx mulr1n; case: (eqVneq (d 0 j) 0) => [E|H] /=; last by rewrite mulr1.
  by rewrite mulr0 mxE (Hz _ _ E) mul0r.
pose cc i := \sum_j `|(adj Z *m P) j i| ^+ 2.
have Hcc i : 0 <= cc i <= 1.
  apply/andP; split; first by apply: sumr_ge0 => j _; exact: exprn_ge0.
  have := bessel (col i P) HZ3.
  have -> : \sum_j `|(adj Z *m col i P) j 0| ^+ 2 = cc i.
    apply: eq_bigr => j _; congr (`|_| ^+ 2); rewrite !mxE; apply: eq_bigr => k _; by rewrite !mxE.
  move/le_trans; apply; have -> : \sum_k `|(col i P) k 0| ^+ 2 = (adj P *m P) i i.
    by rewrite mxE; apply: eq_bigr => k _; rewrite !mxE normCKC.
  by rewrite EP eqxx; case: (d 0 i != 0); rewrite ?lexx ?ler01.
have Hsum : \sum_i cc i <= m%:R.
  rewrite exchange_big /=; apply: (@le_trans _ _ (\sum_(j < m) 1)); last by rewrite sumr_const card_ord.
  apply: ler_sum => j _; have := bessel (col j Z) HP3.
  have -> : \sum_i `|(adj P *m col j Z) i 0| ^+ 2 = \sum_i `|(adj Z *m P) j i| ^+ 2.
    apply: eq_bigr => i _; congr (_ ^+ 2); rewrite -norm_conjC; congr `|_|; rewrite !mxE rmorph_sum.
    by apply: eq_bigr => k _; rewrite !mxE rmorphM conjCK mulrC.
  move/le_trans; apply; rewrite -(adj_normsq (col j Z)).
  have -> : (adj (col j Z) *m col j Z) 0 0 = (adj Z *m Z) j j.
    by rewrite !mxE; apply: eq_bigr => k _; rewrite !mxE.
  by rewrite HZ mxE eqxx.
have EE : a * (\sum_j \sum_b `|(adj Z *m Y) j b| ^+ 2) = \sum_i d 0 i * cc i.
  rewrite (frob_unitary _ HU) -mulmxA -/W exchange_big /= mulr_sumr; apply: eq_bigr => i _.
  rewrite /cc !mulr_sumr; apply: eq_bigr => j _.
  have -> : (adj Z *m P) j i = (adj Z *m W) j i * sc i.
    by rewrite !mxE mulr_suml; apply: eq_bigr => k _; rewrite !mxE mulrA.
  rewrite normrM exprMn; case: (eqVneq (d 0 i) 0) => [E|H].
    have -> : (adj Z *m W) j i = 0 by rewrite mxE big1 // => k _; rewrite (Hz _ _ E) mulr0.
    by rewrite normr0 expr0n /= !mul0r !mulr0.
  have -> : `|sc i| ^+ 2 = a / d 0 i.
    have Ha0 : a != 0 by rewrite gt_eqF.
    have Hne : a^-1 * d 0 i != 0 by rewrite mulf_neq0 ?invr_neq0.
    rewrite normCK Hscr; apply: (mulIf Hne).
    by rewrite (Hsc _ H) mulrACA mulfV ?gt_eqF // mul1r mulVf.
  by rewrite [RHS]mulrCA [d 0 i * (a / _)]mulrCA mulfV // mulr1 mulrC.
have Hperm g := eig_sum_fun g HV EV HUu EU.
have HL0 k : 0 <= L 0 k.
  have Hp := eig_perm HV EV HUu EU.
  have : L 0 k \in [seq L 0 k | k <- enum 'I_nb] by apply/mapP; exists k => //; rewrite mem_enum.
  by rewrite (perm_mem Hp) => /mapP [i _ ->].
have [t [Ht Htop]] := top_sum m HL HL0.
rewrite EE; apply: le_trans Htop; rewrite (Hperm (pos_part t)) mulrC [X in _ <= X]addrC.
by apply: pick_le => // i; exact: ger0_real.
Qed.
End Eigs.
