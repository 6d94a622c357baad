(* C68: error norms. *)
From Coq Require Import String.
From Verif Require Import Base_List.
From mathcomp Require Import all_ssreflect all_algebra.
From Verif Require Import Base_CRing Model_Errors.
Set Implicit Arguments.
Unset Strict Implicit.
Unset Printing Implicit Defensive.
Import Order.TTheory GRing.Theory Num.Theory.
Local Open Scope ring_scope.

(* ---------- specification ---------- *)
(* a distance between arrays *)
Definition distance (C : numClosedFieldType) n (d : 'rV[C]_n -> 'rV[C]_n -> C) : Prop :=
  [/\ forall a b, 0 <= d a b, forall a b, d a b = 0 <-> a = b, forall a b, d a b = d b a
    & forall a b c, d a c <= d a b + d b c].

(* ---------- proofs ---------- *)
Section P.
Variable C : numClosedFieldType.
Add Ring Cring : (cr_th C).
Ltac cring := rewrite ?mulrS ?mulr0n; cr_norm C; ring.
Implicit Types (n : nat).

Lemma amax_foldP (l : seq C) m : m \is Num.real -> all (fun x => x \is Num.real) l ->
  let r := foldl (fun m x => if m < x then x else m) m l in
  [/\ r \is Num.real, (r == m) || (r \in l), m <= r & forall x, x \in l -> x <= r].
Proof.
elim: l m => [|x l IH] m Hm /=; first by move=> _; split=> //; rewrite eqxx.
case/andP=> Hx Hl.
have [E|E] := boolP (m < x).
  have [r1 r2 r3 r4] := IH x Hx Hl; split=> //.
  - by rewrite inE; case/orP: r2 => ->; rewrite ?orbT.
  - by apply: le_trans r3; apply: ltW.
  - by move=> y; rewrite inE => /orP [/eqP ->|/r4].
have [r1 r2 r3 r4] := IH m Hm Hl; split=> //.
- by rewrite inE; case/orP: r2 => ->; rewrite ?orbT.
- move=> y; rewrite inE => /orP [/eqP ->|/r4] //; apply: le_trans r3.
  by move: (real_leVge Hx Hm) => /orP [//|]; rewrite le_eqVlt (negbTE E) orbF => /eqP ->.
Qed.
Lemma amaxP n (v : 'rV[C]_n.+1) : (forall i, v 0 i \is Num.real) ->
  (exists i, amax (entries v) = v 0 i) /\ forall i, v 0 i <= amax (entries v).
Proof.
move=> Hv.
have Hall : all (fun x => x \is Num.real) (entries v) by apply/allP=> x /mapP [i _ ->].
have Hin i : v 0 i \in entries v by apply: map_f; rewrite mem_enum.
move: Hall Hin; rewrite /amax.
case E: (entries v) => [|x l]; first by move=> _ /(_ ord0).
move=> /= /andP [Hx Hl] Hin; have [r1 r2 r3 r4] := amax_foldP Hx Hl; split.
  have : foldl (fun m x => if m < x then x else m) x l \in entries v by rewrite E inE.
  by case/mapP => i _ ->; exists i.
by move=> i; move: (Hin i); rewrite inE => /orP [/eqP ->|/r4].
Qed.

(* Cauchy-Schwarz and Minkowski for non-negative sequences *)
Lemma cs_step (s A B a b : C) : 0 <= s -> 0 <= A -> 0 <= B -> 0 <= a -> 0 <= b -> s ^+ 2 <= A * B ->
  (s + a * b) ^+ 2 <= (A + a ^+ 2) * (B + b ^+ 2).
Proof.
move=> hs hA hB ha hb h.
have e : (A + a ^+ 2) * (B + b ^+ 2) - (s + a * b) ^+ 2 = (A * B - s ^+ 2) + (A * b ^+ 2 + B * a ^+ 2 - (s * a * b) *+ 2) by cring.
rewrite -subr_ge0 e; apply: addr_ge0; first by rewrite subr_ge0.
rewrite subr_ge0 -(@ler_pexpn2r _ 2%N) ?nnegrE //; first last.
- by apply: addr_ge0; apply: mulr_ge0 => //; apply: exprn_ge0.
- by rewrite mulrn_wge0 // !mulr_ge0.
apply: (@le_trans _ _ ((A * B) * (a * b) ^+ 2 *+ 4)).
  have -> : (s * a * b *+ 2) ^+ 2 = s ^+ 2 * (a * b) ^+ 2 *+ 4 by cring.
  by apply: ler_wmuln2r; apply: ler_wpmul2r => //; apply: exprn_ge0; apply: mulr_ge0.
have e2 : (A * b ^+ 2 + B * a ^+ 2) ^+ 2 - A * B * (a * b) ^+ 2 *+ 4 = (A * b ^+ 2 - B * a ^+ 2) ^+ 2 by cring.
by rewrite -subr_ge0 e2; apply: real_exprn_even_ge0 => //; apply: rpredB; apply: rpredM; rewrite ?rpredX // ger0_real.
Qed.
Lemma cs (I : Type) (r : seq I) (f g : I -> C) : (forall i, 0 <= f i) -> (forall i, 0 <= g i) ->
  (\sum_(i <- r) f i * g i) ^+ 2 <= (\sum_(i <- r) f i ^+ 2) * (\sum_(i <- r) g i ^+ 2).
Proof.
move=> hf hg; elim: r => [|x r IH]; first by rewrite !big_nil mul0r expr0n.
rewrite !big_cons [f x * g x + _]addrC [f x ^+ 2 + _]addrC [g x ^+ 2 + _]addrC; apply: cs_step => //.
- by apply: sumr_ge0 => i _; apply: mulr_ge0.
- by apply: sumr_ge0 => i _; apply: exprn_ge0.
- by apply: sumr_ge0 => i _; apply: exprn_ge0.
Qed.
Lemma sqrt_ge0 (x : C) : 0 <= x -> 0 <= sqrtC x. Proof. by rewrite sqrtC_ge0. Qed.
Lemma sumsq_ge0 n (v : 'rV[C]_n) : 0 <= \sum_i `|v 0 i| ^+ 2.
Proof. by apply: sumr_ge0 => i _; apply: exprn_ge0. Qed.
Lemma norm2_ge0 n (v : 'rV[C]_n) : 0 <= norm2 v. Proof. by rewrite sqrtC_ge0 sumsq_ge0. Qed.
Lemma norm2_sq n (v : 'rV[C]_n) : norm2 v ^+ 2 = \sum_i `|v 0 i| ^+ 2. Proof. exact: sqrtCK. Qed.
Lemma minkowski n (u v w : 'rV[C]_n) : (forall i, `|w 0 i| <= `|u 0 i| + `|v 0 i|) -> norm2 w <= norm2 u + norm2 v.
Proof.
move=> h; rewrite -(@ler_pexpn2r _ 2%N) ?nnegrE ?norm2_ge0 ?addr_ge0 ?norm2_ge0 //.
have -> : (norm2 u + norm2 v) ^+ 2 = norm2 u ^+ 2 + norm2 v ^+ 2 + norm2 u * norm2 v *+ 2 by cring.
rewrite !norm2_sq.
apply: (@le_trans _ _ (\sum_i (`|u 0 i| ^+ 2 + `|v 0 i| ^+ 2 + `|u 0 i| * `|v 0 i| *+ 2))).
  apply: ler_sum => i _.
  have -> : `|u 0 i| ^+ 2 + `|v 0 i| ^+ 2 + `|u 0 i| * `|v 0 i| *+ 2 = (`|u 0 i| + `|v 0 i|) ^+ 2 by cring.
  by rewrite ler_pexpn2r // nnegrE ?addr_ge0.
rewrite big_split /= [X in X + _]big_split /= sumrMnl ler_add2l; apply: ler_wmuln2r.
rewrite -(@ler_pexpn2r _ 2%N) ?nnegrE ?mulr_ge0 ?norm2_ge0 //; last by apply: sumr_ge0 => i _; apply: mulr_ge0.
by rewrite exprMn !norm2_sq; apply: cs => i.
Qed.

(* the three errors as functions *)
Definition err1 n (a b : 'rV[C]_n) : C := norm1 (\row_i `|a 0 i - b 0 i|) / n%:R.
Definition err2 n (a b : 'rV[C]_n) : C := norm2 (\row_i `|a 0 i - b 0 i|) / n%:R.
Definition errinf n (a b : 'rV[C]_n) : C := amax (entries (\row_i `|a 0 i - b 0 i|)).
Lemma nR_gt0 n : 0 < n.+1%:R :> C. Proof. by rewrite ltr0n. Qed.
Lemma absrow_eq n (a b : 'rV[C]_n) : (\row_i `|a 0 i - b 0 i|) = (\row_i `|b 0 i - a 0 i|) :> 'rV[C]_n.
Proof. by apply/rowP=> i; rewrite !mxE distrC. Qed.
Lemma absrow_real n (a b : 'rV[C]_n) i : (\row_i `|a 0 i - b 0 i|) 0 i \is Num.real.
Proof. by rewrite mxE normr_real. Qed.

Lemma err1_distance n : distance (@err1 n.+1).
Proof.
split=> [a b|a b|a b|a b c].
- by rewrite divr_ge0 ?ler0n // sumr_ge0.
- split=> [/eqP|->]; last first.
    by rewrite /err1 /norm1 big1 ?mul0r // => i _; rewrite mxE subrr !normr0.
  rewrite mulf_eq0 invr_eq0 (gt_eqF (nR_gt0 n)) orbF psumr_eq0 // => /allP h; apply/rowP=> i.
  by move: (h i (mem_index_enum i)); rewrite mxE normr_id normr_eq0 subr_eq0 => /eqP.
- by rewrite /err1 absrow_eq.
- rewrite -mulrDl ler_pmul2r ?invr_gt0 ?nR_gt0 // -big_split /=; apply: ler_sum => i _.
  by rewrite !mxE !normr_id; apply: ler_dist_add.
Qed.
Lemma err2_distance n : distance (@err2 n.+1).
Proof.
split=> [a b|a b|a b|a b c].
- by rewrite divr_ge0 ?ler0n // norm2_ge0.
- split=> [/eqP|->]; last first.
    by rewrite /err2 /norm2 big1 ?sqrtC0 ?mul0r // => i _; rewrite mxE subrr !normr0 expr0n.
  rewrite mulf_eq0 invr_eq0 (gt_eqF (nR_gt0 n)) orbF sqrtC_eq0 psumr_eq0 => [/allP h|i _]; last exact: exprn_ge0.
  apply/rowP=> i.
  by move: (h i (mem_index_enum i)); rewrite mxE normr_id expf_eq0 /= normr_eq0 subr_eq0 => /eqP.
- by rewrite /err2 absrow_eq.
- rewrite -mulrDl ler_pmul2r ?invr_gt0 ?nR_gt0 //; apply: minkowski => i.
  by rewrite !mxE !normr_id; apply: ler_dist_add.
Qed.
Lemma errinf_distance n : distance (@errinf n.+1).
Proof.
split=> [a b|a b|a b|a b c].
- rewrite /errinf; have [[i ->] _] := amaxP (absrow_real a b); by rewrite mxE.
- split=> [h|->].
    have [_ H] := amaxP (absrow_real a b); apply/rowP=> i.
    by move: (H i); rewrite -/(errinf a b) h mxE normr_le0 subr_eq0 => /eqP.
  rewrite /errinf; have [[i ->] _] := amaxP (absrow_real b b); by rewrite mxE subrr normr0.
- by rewrite /errinf absrow_eq.
- rewrite /errinf; have [[i ->] _] := amaxP (absrow_real a c).
  have [_ H1] := amaxP (absrow_real a b); have [_ H2] := amaxP (absrow_real b c).
  apply: (@le_trans _ _ (`|a 0 i - b 0 i| + `|b 0 i - c 0 i|)); first by rewrite mxE; apply: ler_dist_add.
  by apply: ler_add; [move: (H1 i)|move: (H2 i)]; rewrite mxE.
Qed.

(* h1 *)
Definition gap nx (d r : 'rV[C]_nx) : C := \sum_x (d 0 x - r 0 x).
Lemma gap_step nx (dt : C) (d r d0 r0 : 'rV[C]_nx) :
  \sum_x ((d 0 x - d0 0 x) / dt - (r 0 x - r0 0 x) / dt) = (gap d r - gap d0 r0) / dt.
Proof.
rewrite /gap -sumrB mulr_suml; apply: eq_bigr => x _.
by rewrite -mulrBl; congr (_ / _); cring.
Qed.
Definition real_rows nx (l : seq 'rV[C]_nx) : Prop := forall v, v \in l -> forall x, v 0 x \is Num.real.
Lemma gap_real nx (d r : 'rV[C]_nx) : (forall x, d 0 x \is Num.real) -> (forall x, r 0 x \is Num.real) -> gap d r \is Num.real.
Proof. by move=> h1 h2; apply: rpred_sum => x _; apply: rpredB. Qed.
Lemma h_loopP nx (dt : C) (ds rs : seq 'rV[C]_nx) d0 r0 err :
  0 < dt -> size ds = size rs -> real_rows (d0 :: ds) -> real_rows (r0 :: rs) -> 0 <= err ->
  0 <= h_loop dt ds rs (Some (d0, r0)) err /\
  (h_loop dt ds rs (Some (d0, r0)) err = 0 <-> err = 0 /\ forall p, p \in zip ds rs -> gap p.1 p.2 = gap d0 r0).
Proof.
move=> hdt; elim: ds rs d0 r0 err => [|d ds IH] [|r rs] d0 r0 err //=.
  by move=> _ _ _ he; split=> //; split=> [->|[]].
case=> hs hd hr he; rewrite gap_step.
have gr1 : gap d r \is Num.real by apply: gap_real => x; [apply: hd|apply: hr]; rewrite !inE eqxx orbT.
have gr0 : gap d0 r0 \is Num.real by apply: gap_real => x; [apply: hd|apply: hr]; rewrite !inE eqxx.
set q := (_ - _) / dt.
have q0 : 0 <= q ^+ 2 by apply: real_exprn_even_ge0 => //; rewrite /q rpredM // ?rpredB // rpredV ger0_real // ltW.
have t0 : 0 <= dt * q ^+ 2 by apply: mulr_ge0 => //; apply: ltW.
have hd' : real_rows (d :: ds) by move=> v hv; apply: hd; rewrite inE hv orbT.
have hr' : real_rows (r :: rs) by move=> v hv; apply: hr; rewrite inE hv orbT.
have [IH1 IH2] := IH rs d r (err + dt * q ^+ 2) hs hd' hr' (addr_ge0 he t0).
split=> //; split.
  move/IH2 => [/eqP]; rewrite paddr_eq0 // => /andP [/eqP e0 /eqP e1] H; split=> //.
  have g : gap d r = gap d0 r0.
    move/eqP: e1; rewrite mulf_eq0 (gt_eqF hdt) /= expf_eq0 /= mulf_eq0 invr_eq0 (gt_eqF hdt) orbF subr_eq0.
    by move/eqP.
  by move=> p; rewrite inE => /orP [/eqP -> //|/H ->].
move=> [e0 H]; apply/IH2; have g : gap d r = gap d0 r0 by apply: (H (d, r)); rewrite inE eqxx.
split; first by rewrite e0 /q g subrr mul0r expr0n mulr0 addr0.
by move=> p hp; rewrite g; apply: H; rewrite inE hp orbT.
Qed.
End P.

(* ---------- C68 ---------- *)
(* The l1, l2 and linf errors are distances between arrays of any positive size (real or complex). *)
Theorem C68_distances : forall (C : numClosedFieldType) n (t : string),
  t = "l1"%string \/ t = "l2"%string \/ t = "linf"%string ->
  exists d : 'rV[C]_n.+1 -> 'rV[C]_n.+1 -> C, distance d /\ forall data data_ref, compute_l_errors data data_ref t = Ok (d data data_ref).
Proof.
move=> C n t [->|[->|->]].
- by exists (@err1 C n.+1); split=> //; apply: err1_distance.
- by exists (@err2 C n.+1); split=> //; apply: err2_distance.
- by exists (@errinf C n.+1); split=> //; apply: errinf_distance.
Qed.
Print Assumptions C68_distances.

(* An error of constant size c: l1 and linf give c whatever the size of the array, l2 gives c divided by the square root of
   that size (it is not a root mean square). *)
Theorem C68_constant_error : forall (C : numClosedFieldType) n (a b : 'rV[C]_n.+1) (c : C),
  (forall i, `|a 0 i - b 0 i| = c) ->
  [/\ compute_l_errors a b "l1" = Ok c, compute_l_errors a b "linf" = Ok c & compute_l_errors a b "l2" = Ok (c / sqrtC n.+1%:R)].
Proof.
move=> C n a b c h; have c0 : 0 <= c by rewrite -(h ord0).
have hR : (\row_i `|a 0 i - b 0 i|) = const_mx c :> 'rV[C]_n.+1 by apply/rowP=> i; rewrite !mxE h.
have nz : n.+1%:R != 0 :> C by rewrite pnatr_eq0.
rewrite /compute_l_errors /=; split; congr Ok; rewrite hR.
- rewrite /norm1; under eq_bigr do rewrite mxE ger0_norm //.
  by rewrite sumr_const card_ord -[X in X *+ _]mulr1 -mulrnAr mulfK.
- have [] := @amaxP C n (const_mx c); first by move=> i; rewrite mxE ger0_real.
  by move=> [i ->] _; rewrite mxE.
- rewrite /norm2; under eq_bigr do rewrite mxE ger0_norm //.
  rewrite sumr_const card_ord -[X in X *+ _]mulr1 -mulrnAr rootCMl; last by apply: exprn_ge0.
  rewrite sqrCK // -mulrA; congr (_ * _).
  have s0 : sqrtC n.+1%:R != 0 :> C by rewrite sqrtC_eq0.
  by apply: (mulfI s0); rewrite mulfV // mulrA -expr2 sqrtCK mulfV.
Qed.
Print Assumptions C68_constant_error.

(* The relative l1 and l2 errors are non-negative and vanish only for equal arrays, when the reference has no zero. *)
Theorem C68_relative : forall (C : numClosedFieldType) n (t : string) (data data_ref : 'rV[C]_n.+1),
  t = "l1_rel"%string \/ t = "l2_rel"%string -> (forall i, data_ref 0 i != 0) ->
  exists e, compute_l_errors data data_ref t = Ok e /\ 0 <= e /\ (e = 0 <-> data = data_ref).
Proof.
move=> C n t a b ht hb.
have nz : n.+1%:R != 0 :> C by rewrite pnatr_eq0.
set er := (\row_i ((\row_j `|a 0 j - b 0 j|) 0 i / b 0 i)) : 'rV[C]_n.+1.
have er0 : (forall i, er 0 i = 0) <-> a = b.
  split=> [h|E i]; last by rewrite /er !mxE E subrr normr0 mul0r.
  apply/rowP=> i; move/eqP: (h i); rewrite !mxE mulf_eq0 invr_eq0 (negbTE (hb i)) orbF normr_eq0 subr_eq0.
  by move/eqP.
case: ht => ->; rewrite /compute_l_errors /= -/er; eexists; (split; [reflexivity|split]).
- by rewrite divr_ge0 ?ler0n // sumr_ge0.
- rewrite -er0; split=> [/eqP|h].
    rewrite mulf_eq0 invr_eq0 (negbTE nz) orbF psumr_eq0 // => /allP h i.
    by move: (h i (mem_index_enum i)); rewrite normr_eq0 => /eqP.
  by rewrite /norm1 big1 ?mul0r // => i _; rewrite h normr0.
- by rewrite divr_ge0 ?ler0n // norm2_ge0.
- rewrite -er0; split=> [/eqP|h].
    rewrite mulf_eq0 invr_eq0 (negbTE nz) orbF sqrtC_eq0 psumr_eq0 => [/allP h i|i _]; last exact: exprn_ge0.
    by move: (h i (mem_index_enum i)); rewrite expf_eq0 /= normr_eq0 => /eqP.
  by rewrite /norm2 big1 ?sqrtC0 ?mul0r // => i _; rewrite h normr0 expr0n.
Qed.
Print Assumptions C68_relative.

(* With a positive reference the relative linf error is the largest relative error. *)
Theorem C68_relative_linf : forall (C : numClosedFieldType) n (data data_ref : 'rV[C]_n.+1),
  (forall i, 0 < data_ref 0 i) ->
  exists e, compute_l_errors data data_ref "linf_rel" = Ok e /\
    (exists i, e = `|data 0 i - data_ref 0 i| / `|data_ref 0 i|) /\ forall i, `|data 0 i - data_ref 0 i| / `|data_ref 0 i| <= e.
Proof.
move=> C n a b hb; eexists; split; first by rewrite /compute_l_errors /=.
set er := (\row_i ((\row_j `|a 0 j - b 0 j|) 0 i / b 0 i)) : 'rV[C]_n.+1.
have E i : er 0 i = `|a 0 i - b 0 i| / `|b 0 i| by rewrite !mxE (gtr0_norm (hb i)).
have [|[i h1] h2] := @amaxP C n er; first by move=> i; rewrite E rpredM // ?rpredV normr_real.
by split=> [|j]; [exists i; rewrite h1 E|rewrite -E].
Qed.
Print Assumptions C68_relative_linf.

(* expectation: the relative linf error bounds the relative errors. With a negative reference it is never positive, negative
   when every entry is wrong, and zero as soon as one entry is right, however wrong the others are. *)
Theorem C68_relative_linf_refuted : forall (C : numClosedFieldType) n (data data_ref : 'rV[C]_n.+1),
  (forall i, data_ref 0 i < 0) ->
  exists e, compute_l_errors data data_ref "linf_rel" = Ok e /\ e <= 0 /\
    ((forall i, data 0 i <> data_ref 0 i) -> e < 0) /\ ((exists i, data 0 i = data_ref 0 i) -> e = 0).
Proof.
move=> C n a b hb; eexists; split; first by rewrite /compute_l_errors /=.
set er := (\row_i ((\row_j `|a 0 j - b 0 j|) 0 i / b 0 i)) : 'rV[C]_n.+1.
have E i : er 0 i = `|a 0 i - b 0 i| / b 0 i by rewrite !mxE.
have N i : er 0 i <= 0 by rewrite E mulr_ge0_le0 // invr_le0 ltW.
have [|[i h1] h2] := @amaxP C n er; first by move=> i; rewrite ler0_real.
split; first by rewrite h1.
split=> [h|[j hj]].
  rewrite h1 E pmulr_rlt0 ?invr_lt0 //; by rewrite normr_gt0 subr_eq0; apply/eqP.
apply/eqP; rewrite eq_le h1 N /= -h1; apply: le_trans (h2 j); by rewrite E hj subrr normr0 mul0r.
Qed.
Print Assumptions C68_relative_linf_refuted.

(* h1: zero exactly when the spatial sum of the difference does not change in time *)
Theorem C68_h1 : forall (C : numClosedFieldType) nx (data data_ref : seq 'rV[C]_nx) (dt : C),
  0 < dt -> size data = size data_ref ->
  (forall v, v \in data -> forall x, v 0 x \is Num.real) -> (forall v, v \in data_ref -> forall x, v 0 x \is Num.real) ->
  exists e, compute_h_errors data data_ref dt "h1" = Ok e /\ 0 <= e /\
    (e = 0 <-> forall s t, (s < size data)%N -> (t < size data)%N ->
       \sum_x ((nth 0 data s) 0 x - (nth 0 data_ref s) 0 x) = \sum_x ((nth 0 data t) 0 x - (nth 0 data_ref t) 0 x)).
Proof.
move=> C nx [|d ds] [|r rs] dt hdt //= hs hd hr; eexists; (split; [reflexivity|]).
  by rewrite /= sqrtC0; split=> //; split.
rewrite /= expr0n mulr0 addr0; case: hs => hs.
have [h1 h2] := h_loopP hdt hs hd hr (lexx 0).
split; first by rewrite sqrtC_ge0.
have -> : sqrtC (h_loop dt ds rs (Some (d, r)) 0) = 0 <-> h_loop dt ds rs (Some (d, r)) 0 = 0.
  by split=> [/eqP|->]; [rewrite sqrtC_eq0 => /eqP|rewrite sqrtC0].
rewrite h2; split=> [[_ H] s t hs1 ht1|H].
  have G k : (k < (size ds).+1)%N -> gap (nth 0 (d :: ds) k) (nth 0 (r :: rs) k) = gap d r.
    case: k => [//|k] hk; apply: (H (nth 0 ds k, nth 0 rs k)).
    by rewrite -nth_zip //; apply: mem_nth; rewrite size_zip -hs minnn.
  by rewrite -![\sum_x _]/(gap _ _) !G.
split=> // p /(nthP (0, 0)) [k hk <-]; move: hk; rewrite size_zip -hs minnn => hk.
by rewrite nth_zip //=; apply: (H k.+1 0%N).
Qed.
Print Assumptions C68_h1.

(* expectation: the h1 error vanishes only for equal records. Adding any constant (or any pattern with the same spatial sum
   at all times) to the reference gives error zero. *)
Theorem C68_h1_refuted : forall (C : numClosedFieldType) nx (data_ref : seq 'rV[C]_nx) (dt c : C),
  0 < dt -> c \is Num.real -> (forall v, v \in data_ref -> forall x, v 0 x \is Num.real) ->
  compute_h_errors [seq v + const_mx c | v <- data_ref] data_ref dt "h1" = Ok 0.
Proof.
move=> C nx rs dt c hdt hc hr.
have [||||e [-> [_ E]]] := @C68_h1 C nx [seq v + const_mx c | v <- rs] rs dt => //; first by rewrite size_map.
  by move=> v /mapP [w hw ->] x; rewrite !mxE rpredD // hr.
congr Ok; apply/E; rewrite size_map => s t hs ht; rewrite !(nth_map 0) //.
by apply: eq_bigr => x _; rewrite !mxE [_ + c]addrC addrK [_ + c]addrC addrK.
Qed.
Print Assumptions C68_h1_refuted.

(* other names are rejected *)
Theorem C68_unknown_norm : forall (C : numClosedFieldType) n nx (a b : 'rV[C]_n) (u v : seq 'rV[C]_nx) dt (t : string),
  ~ List.In t ["l1"; "l2"; "linf"; "l1_rel"; "l2_rel"; "linf_rel"]%string ->
  compute_l_errors a b t = Err ValueError /\ (t <> "h1"%string -> compute_h_errors u v dt t = Err ValueError).
Proof.
move=> C n nx a b u v dt t H; split.
  rewrite /compute_l_errors.
  have F s : List.In s ["l1"; "l2"; "linf"; "l1_rel"; "l2_rel"; "linf_rel"]%string -> String.eqb t s = false.
    by move=> hs; apply/String.eqb_neq => e; apply: H; rewrite e.
  by rewrite !F //=; tauto.
by move=> h; rewrite /compute_h_errors; case: (String.eqb_spec t "h1").
Qed.
Print Assumptions C68_unknown_norm.
Example C68_case (C : numClosedFieldType) : exists data data_ref : 'rV[C]_2,
  (forall i, data_ref 0 i < 0) /\ (forall i, data 0 i <> data_ref 0 i) /\
  exists e, compute_l_errors data data_ref "linf_rel" = Ok e /\ e < 0.
Proof.
exists (const_mx 1), (const_mx (- 1)).
have h : forall i, (const_mx (-1) : 'rV[C]_2) 0 i < 0 by move=> i; rewrite mxE oppr_lt0 ltr01.
have d : forall i, (const_mx 1 : 'rV[C]_2) 0 i <> (const_mx (-1) : 'rV[C]_2) 0 i.
  by move=> i; rewrite !mxE => /eqP; rewrite -subr_eq0 opprK -mulr2n pnatr_eq0.
split=> //; split=> //; have [e [E [_ [H _]]]] := @C68_relative_linf_refuted C 1 (const_mx 1) _ h.
by exists e; split=> //; apply: H.
Qed.
