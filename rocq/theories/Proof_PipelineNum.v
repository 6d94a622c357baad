From Coq Require Import QArith.
From Verif Require Import Base_List Model_Parallel Model_Reader1 Model_Reader2 Model_Base Model_Standard Model_Pipeline Spec_Array Spec_Reader Spec_Reader2
  Proof_Parallel Proof_Npy2 Proof_SliceMap Proof_Reader1 Proof_Reader1b Proof_Reader2b Proof_Standard1 Proof_Pipeline.
From Coq Require Import Sorting.Permutation.
From mathcomp Require Import all_ssreflect all_algebra.
From Verif Require Import Model_Spod Spec_Spod Proof_Spod Model_SpodPar Proof_SpodPar Model_PipelineNum.
Set Implicit Arguments.
Unset Strict Implicit.
Unset Printing Implicit Defensive.
Import GRing.Theory Num.Theory.
Local Open Scope ring_scope.

Lemma nth_List T (d : T) l i : List.nth i l d = seq.nth d l i.
Proof. by elim: l i => [|y l IH] [|i] //=. Qed.

Ltac nlia := repeat match goal with
  | H : context [addn] |- _ => rewrite -?plusE in H
  | H : context [muln] |- _ => rewrite -?multE in H
  | H : context [subn] |- _ => rewrite -?minusE in H end; rewrite -?plusE -?multE -?minusE; lia.
Section Sums.
Variable V : zmodType.
Lemma sum_list_map A (g : A -> V) (l : list A) : \sum_(y <- List.map g l) y = \sum_(x <- l) g x.
Proof. by rewrite -[List.map g l]/(map g l) big_map. Qed.
Lemma sum_seq (F : nat -> V) n : \sum_(x <- List.seq 0 n) F x = \sum_(k < n) F k.
Proof. by rewrite -iota_seq -{1}[n]subn0 -[iota 0 _]/(index_iota 0 n) big_mkord. Qed.
Lemma sum_nth (F : nat -> V) (l : list nat) : \sum_(x <- l) F x = \sum_(i < length l) F (List.nth i l 0%N).
Proof.
rewrite (big_nth 0%N) big_mkord; apply: eq_bigr => i _; by rewrite nth_List.
Qed.
Lemma sum_perm (F : nat -> V) (l l' : list nat) : Permutation l l' -> \sum_(x <- l) F x = \sum_(x <- l') F x.
Proof.
elim=> {l l'} [|x l l' _ IH|x y l|l l' l'' _ IH1 _ IH2] //; rewrite ?big_cons ?IH ?IH1 //.
by rewrite addrCA.
Qed.
Lemma sum_concat_list (F : nat -> V) (ls : list (list nat)) : \sum_(l <- ls) \sum_(x <- l) F x = \sum_(x <- List.concat ls) F x.
Proof. by elim: ls => [|l ls IH] /=; rewrite ?big_nil // big_cons IH big_cat. Qed.
Lemma fold_right_sum (l : list V) : List.fold_right +%R 0 l = \sum_(x <- l) x.
Proof. by elim: l => [|x l IH] /=; rewrite ?big_nil // big_cons IH. Qed.
End Sums.
Section Common.
Variable C : numClosedFieldType.
Variables (c : config C) (rec : list (list C)) (W : list C) (nb : Z).
Hypothesis Hnt : nt c = length rec.
Hypothesis Hov : (n_overlap c < n_dft c)%coq_nat.
Hypothesis Hf : check_feasible (Z.of_nat (length rec)) (Z.of_nat (n_dft c)) (Z.of_nat (n_overlap c)) = Ok nb.
Hypothesis Hnb : n_blocks c = Z.to_nat nb.
Local Notation hop := (Nat.sub (n_dft c) (n_overlap c)).
(* the time series of entry i of the snapshots *)
Definition series (i t : nat) : C := List.nth i (List.nth t rec nil) 0.
Definition hat (f i b : nat) : C := block_hat c (series i) b f.
Definition ref_local (ids : list nat) : local C (n_blocks c) :=
  @Local C (n_blocks c) (length ids)
    (List.map (fun f => \matrix_(i, b) hat f (List.nth i ids 0%N) b) (List.seq 0 (n_freq c)))
    (\col_i List.nth (List.nth i ids 0%N) W 0).

Lemma feas : [/\ starts (nt c) (n_dft c) (n_overlap c) (n_blocks c) = List.map (fun i => (Nat.mul i hop)) (List.seq 0 (n_blocks c)),
  (2 <= n_blocks c)%coq_nat, (4 <= n_dft c)%coq_nat & forall i, (i < n_blocks c)%coq_nat -> (Nat.add (Nat.mul i hop) (n_dft c) <= length rec)%coq_nat].
Proof. by have [H1 [H2 [H3 H4]]] := @starts_eq _ _ _ _ Hov Hf; rewrite Hnt Hnb. Qed.
Lemma offsetE (b : 'I_(n_blocks c)) : Model_Spod.block_offset c b = (Nat.mul b hop).
Proof.
have [_ _ _ Hfit] := feas; rewrite /Model_Spod.block_offset Hnt.
have /leP Hb := Hfit b (elimT ltP (ltn_ord b)).
have -> : (b * (n_dft c - n_overlap c) + n_dft c)%N = ((Nat.mul b hop) + n_dft c)%N by [].
by rewrite (minn_idPl Hb) addnK.
Qed.
(* average and variance of a block *)
Section Blk.
Variable m : nat.
Lemma avgE (F : nat -> 'rV[C]_m) n i : avg (List.map F (List.seq 0 n)) 0 i = (\sum_(j < n) F j 0 i) / n%:R.
Proof. by rewrite /avg List.map_length List.seq_length mxE sum_list_map sum_seq summxE mulrC. Qed.
Lemma block_fftE (mu : 'rV[C]_m) (F : nat -> 'rV[C]_m) i (x : nat -> C) (b : nat) f :
  (forall k, (k < n_dft c)%N -> F k 0 i = x (Model_Spod.block_offset c b + k)%N) -> mu 0 i = t_mean c x ->
  block_fft c mu (List.map F (List.seq 0 (n_dft c))) f 0 i = block_hat c x b f.
Proof.
move=> HF Hmu; rewrite /block_fft.
set N := n_dft c.
(* centred *)
set q2 := match mean_type c with Blockwise => _ | _ => _ end.
have [G [Eq2 HG]] : exists G : nat -> 'rV[C]_m, q2 = List.map G (List.seq 0 N) /\ forall k, (k < N)%N -> G k 0 i = block_centred c x b k.
  rewrite /q2 /block_centred.
  have Hc k : (k < N)%N -> (F k - mu) 0 i = x (Model_Spod.block_offset c b + k)%N - t_mean c x by move=> Hk; rewrite !mxE HF ?Hmu.
  case: (mean_type c).
  - by exists (fun k => F k - mu); split=> [|k Hk]; [rewrite List.map_map|rewrite Hc].
  - eexists; split; first by rewrite /= !List.map_map.
    move=> k Hk; rewrite /= [LHS]mxE Hc // [X in _ + X]mxE avgE; congr (_ - _ / _).
    by apply: eq_bigr => j _; rewrite Hc.
  - by exists (fun k => F k - mu); split=> [|k Hk]; [rewrite List.map_map|rewrite Hc].
rewrite Eq2 {q2 Eq2}.
(* normalized *)
set q3 := if normalize_data c then _ else _.
have [G3 [Eq3 HG3]] : exists G3 : nat -> 'rV[C]_m, q3 = List.map G3 (List.seq 0 N) /\ forall k, (k < N)%N -> G3 k 0 i = block_normalized c (block_centred c x b) k.
  rewrite /q3 /block_normalized; case: (normalize_data c); last by exists G.
  eexists; split; first by rewrite List.map_map.
  move=> k Hk; rewrite /= [LHS]mxE HG //; congr (_ / _); rewrite [LHS]mxE.
  have -> : (\row_i0 ((\sum_(row <- List.map G (List.seq 0 N)) (row 0 i0 - avg (List.map G (List.seq 0 N)) 0 i0) ^+ 2) / (N%:R - 1))) 0 i = block_var c (block_centred c x b) => //.
  rewrite [LHS]mxE /block_var -/N; congr (_ / _).
  rewrite -[List.map G _]/(map G _) big_map sum_seq; apply: eq_bigr => j _; rewrite HG //; congr ((_ - _) ^+ 2).
  by rewrite -[map G _]/(List.map G _) avgE; congr (_ / _); apply: eq_bigr => j' _; rewrite HG.
rewrite Eq3 {q3 Eq3} [LHS]mxE /block_hat -/N; congr (_ * _).
rewrite summxE /dft; apply: eq_bigr => k _.
have Hs (T : Type) (d : T) (g : nat -> T) (j : nat) : (j < N)%N -> List.nth j (List.map g (List.seq 0 N)) d = g j.
  by move=> Hj; rewrite nth_List -[List.map _ _]/(map _ _) -iota_seq (nth_map 0%N) ?size_iota // nth_iota.
rewrite [LHS]mxE Hs // [X in _ * X]mxE Hs // HG3 // /block_windowed mulrC.
by congr (_ * _); rewrite mulrC.
Qed.
End Blk.

Lemma map_pick_nth m (ids : list nat) (row : list C) (i : 'I_m) : m = length ids -> to_row m (picks 0 ids row) 0 i = List.nth (List.nth i ids 0%N) row 0.
Proof.
move=> Em; rewrite mxE /picks nth_List -[List.map _ _]/(map _ _) (nth_map 0%N) -?nth_List //.
by rewrite -[seq.size ids]/(length ids) -Em.
Qed.
Lemma window_map_seq T (d : T) s n (l : list T) : (Nat.add s n <= length l)%coq_nat -> Base_List.window s n l = List.map (fun k => List.nth (Nat.add s k) l d) (List.seq 0 n).
Proof.
move=> H; apply: (@List.nth_ext _ _ _ d d); first by rewrite window_length_le // List.map_length List.seq_length.
move=> k; rewrite window_length_le // => Hk.
rewrite (nth_map_seq0 (fun k => List.nth (Nat.add s k) l d)) //.
apply: List.nth_error_nth; rewrite nth_error_window; case: (Nat.ltb_spec k n) => Hkn; last by lia.
apply: List.nth_error_nth'; refine (Nat.lt_le_trans _ _ _ _ H); clear - Hk; nlia.
Qed.
Variable ids : list nat.
Hypothesis Hids : length ids <> 1%N.
Variable d : held C.
Hypothesis Hd : represents d (List.map (picks 0 ids) rec).
Lemma rec_ne : rec <> nil.
Proof. by have [_ H2 H4 Hfit] := feas => E; have := Hfit 0%N ltac:(lia); rewrite E /=; nlia. Qed.
Lemma rank_localE : rank_local c d (picks 0 ids W) = Ok (ref_local ids).
Proof.
have [Est H2 H4 Hfit] := feas.
rewrite /rank_local (@entries_rep _ _ _ (length ids) Hd) /=; first last.
- by move=> row /List.in_map_iff [r [<- _]]; rewrite pick_length.
- by case: (rec) rec_ne.
have Hl : length (List.map (picks 0 ids) rec) = length rec by rewrite List.map_length.
have := @blocks_rep _ d _ (n_dft c) (n_overlap c) nb Hd Hov; rewrite Hl => /(_ Hf); rewrite -Hnb -Hnt => -> /=.
rewrite matrix_shape_ok //=; congr Ok.
rewrite /ref_local; congr Local.
- apply: List.map_ext => f; apply/matrixP => i b; rewrite [LHS]mxE [RHS]mxE /hat.
  have Hb := elimT ltP (ltn_ord b).
  rewrite (nth_map_seq0 (fun i => Base_List.window (Nat.mul i hop) (n_dft c) (List.map (picks 0 ids) rec))) //.
  rewrite (@window_map_seq _ nil) ?Hl; last exact: Hfit.
  rewrite List.map_map; apply: block_fftE.
  + move=> k Hk; rewrite offsetE.
    have Hlt : (Nat.add (Nat.mul b hop) k < length rec)%coq_nat by have := Hfit b Hb; move/ltP: Hk => Hk; nlia.
    rewrite /series (List.nth_indep _ _ (picks 0 ids nil)) ?Hl //.
    by rewrite List.map_nth map_pick_nth.
  + rewrite /t_mean_of /t_mean; case: (mean_type c); rewrite ?mxE //.
    rewrite Hnt -Hl mean_rep //; first last.
    * by clear - H2; lia.
    * by move=> a; rewrite addr0.
    * by move=> a; rewrite add0r.
    * by move=> a1 a2 a3; rewrite addrA.
    rewrite Hl [LHS]mxE fold_right_sum mulrC; congr (_ / _).
    rewrite List.map_map sum_list_map summxE -{1}(map_nth_seq nil rec) -[List.map _ (List.seq _ _)]/(map _ _) big_map.
    rewrite sum_seq; apply: eq_bigr => t _; exact: map_pick_nth.
- by apply/colP => i; rewrite !mxE -(map_pick_nth (m := length ids)) // mxE.
Qed.
End Common.

Lemma firstn_take T k (l : list T) : List.firstn k l = take k l.
Proof. by elim: k l => [|k IH] [|x l] //=; rewrite IH. Qed.
Lemma firstn_enum T (g : nat -> T) nb k : (k <= nb)%N ->
  List.firstn k (List.map (fun j : 'I_nb => g j) (enum 'I_nb)) = List.map (fun j : 'I_k => g j) (enum 'I_k).
Proof.
move=> H.
have E m : List.map (fun j : 'I_m => g j) (enum 'I_m) = List.map g (List.seq 0 m).
  by rewrite -iota_seq -val_enum_ord -[List.map g _]/(map g (map _ _)) -map_comp.
rewrite !E List.firstn_map; congr List.map.
by rewrite -!iota_seq firstn_take take_iota (minn_idPl H).
Qed.

Section All.
Variable C : numClosedFieldType.
Variables (c : config C) (rec : list (list C)) (W : list C).
Variable eig : forall nb, 'M[C]_nb -> 'rV[C]_nb * 'M[C]_nb.
Variable argsort : forall nb, 'rV[C]_nb -> 'I_nb -> 'I_nb.
Variable n : nat.
(* the record and the weights as seen by the mathematics *)
Definition rec_X (t : nat) (i : 'I_n) : C := List.nth i (List.nth t rec nil) 0.
Definition vec_w : 'cV[C]_n := \col_i List.nth i W 0.
Variable idss : list (list nat).
Hypothesis Hperm : Permutation (List.concat idss) (List.seq 0 n).
Let ls := List.map (ref_local c rec W) idss.
Variable f : nat.
Hypothesis Hf : (f < n_freq c)%N.

Lemma l_QE ids : l_Q (ref_local c rec W ids) f = \matrix_(i, b) hat c rec f (List.nth i ids 0%N) b.
Proof.
rewrite /l_Q /=.
exact: (nth_map_seq0 (fun f => \matrix_(i < length ids, b < n_blocks c) hat c rec f (List.nth i ids 0%N) b) 0 (elimT ltP Hf)).
Qed.
Lemma fit_ME : fit_M ls f = serial_M c rec_X vec_w f.
Proof.
rewrite /fit_M /ls -[List.map _ _]/(map _ _) big_map /serial_M /reduced_M big_ord1.
have E ids : gram (l_Q (ref_local c rec W ids) f) (l_w (ref_local c rec W ids)) =
  \sum_(x <- ids) (\matrix_(a, b) (((n_blocks c)%:R)^-1 * ((hat c rec f x a)^* * (hat c rec f x b * List.nth x W 0)))).
  rewrite l_QE; apply/matrixP => a b; rewrite sum_nth summxE [LHS]mxE [X in _ * X]mxE mulr_sumr.
  by apply: eq_bigr => i _; rewrite [RHS]mxE; congr (_ * _); congr (_ * _); rewrite !mxE.
under eq_bigr do rewrite E.
rewrite sum_concat_list (sum_perm _ Hperm) sum_seq.
apply/matrixP => a b; rewrite summxE [RHS]mxE [X in _ = _ * X]mxE mulr_sumr.
by apply: eq_bigr => i _; rewrite [LHS]mxE; congr (_ * _); congr (_ * _); rewrite !mxE.
Qed.
Lemma fit_eigsE : fit_eigs eig argsort ls f = List.map (fun k => serial_eigs (@eig _) (@argsort _) rec_X vec_w f 0 k) (enum 'I_(n_blocks c)).
Proof. by rewrite /fit_eigs /fit_L fit_ME. Qed.
Variable H : (n_modes_save c <= n_blocks c)%N.
Let Phi := serial_modes (@eig _) (@argsort _) rec_X vec_w ord0 f H.
Lemma keptE ids : (forall x, List.In x ids -> (x < n)%N) -> kept eig argsort ls f (ref_local c rec W ids) = List.map (rowlist Phi) ids.
Proof.
move=> Hin; rewrite /kept.
have Hrow (i : 'I_(length ids)) : List.firstn (n_modes_save c) (List.map (fun k => fit_phi eig argsort ls f (ref_local c rec W ids) i k) (enum 'I_(n_blocks c)))
   = rowlist Phi (List.nth i ids 0%N).
  have Hi : (List.nth i ids 0 < n)%N by apply: Hin; apply: List.nth_In; apply/ltP.
  rewrite (rowlist_val Phi (Ordinal Hi)) /Phi /serial_modes /run_modes /kept_modes.
  have E k : fit_phi eig argsort ls f (ref_local c rec W ids) i k = all_modes (q_hat c rec_X f) (fit_L eig argsort ls f) (fit_V eig argsort ls f) (Ordinal Hi) k.
    rewrite /fit_phi l_QE /all_modes [LHS]mxE [RHS]mxE; apply: eq_bigr => j _; congr (_ * _).
    by rewrite [LHS]mxE [RHS]mxE.
  rewrite (List.map_ext _ _ E).
  have EL : fit_L eig argsort ls f = @run_L C 1 c (@eig _) (@argsort _) n (fun=> n) (fun _ i => i) rec_X vec_w f by rewrite /fit_L fit_ME.
  have EV : fit_V eig argsort ls f = @run_V C 1 c (@eig _) (@argsort _) n (fun=> n) (fun _ i => i) rec_X vec_w f by rewrite /fit_V fit_ME.
  rewrite EL EV.
  set M := all_modes _ _ _.
  have Eg (k : 'I_(n_blocks c)) : M (Ordinal Hi) k = (fun j : nat => if insub j is Some k' then M (Ordinal Hi) k' else 0) k by rewrite valK.
  rewrite (List.map_ext _ _ Eg) (firstn_enum (fun j : nat => if insub j is Some k' then M (Ordinal Hi) k' else 0) H).
  apply: List.map_ext => j; rewrite [RHS]mxE -[val j]/(val (widen_ord H j)).
  by rewrite (valK (widen_ord H j)).
rewrite (List.map_ext _ _ Hrow) -[in RHS](map_nth_seq 0%N ids) List.map_map -iota_seq -val_enum_ord.
by rewrite -[RHS]/(map (fun x => rowlist Phi (List.nth x ids 0%N)) (map val (enum 'I_(length ids)))) -map_comp.
Qed.
Lemma idss_lt ids x : List.In ids idss -> List.In x ids -> (x < n)%N.
Proof.
move=> H1 H2; have : List.In x (List.seq 0 n).
  by apply: (Permutation_in _ Hperm); apply/List.in_concat; exists ids.
by move/List.in_seq => [_ /ltP].
Qed.
Lemma rowlist_len x : (x < n)%N -> length (rowlist Phi x) = n_modes_save c.
Proof. by move=> Hx; rewrite (rowlist_val Phi (Ordinal Hx)) List.map_length -[length _]/(seq.size _) size_enum_ord. Qed.
(* one file per frequency, without communicator *)
Lemma freq_file_serial sh ax : n = Base_List.prod sh -> idss = cons (List.seq 0 n) nil ->
  freq_file_of eig argsort ls None sh ax f = Nd (List.app sh (cons (n_modes_save c) nil)) (ravel Phi).
Proof.
move=> Hn Ei; rewrite /freq_file_of; congr Nd; rewrite {2}/ls Ei /= keptE; last first.
  by move=> x; apply: idss_lt; rewrite Ei; left.
by rewrite List.app_nil_r ravel_rows List.flat_map_concat_map.
Qed.
(* on size processes *)
Lemma freq_file_par size sh ax : n = Base_List.prod sh -> (ax < length sh)%N -> (0 < size)%N -> idss = List.map (owned sh ax size) (List.seq 0 size) ->
  freq_file_of eig argsort ls (Some size) sh ax f = Nd (List.app sh (cons (n_modes_save c) nil)) (ravel Phi).
Proof.
move=> Hn /ltP Hax /ltP Hs Ei; rewrite /freq_file_of.
have Els : List.combine (List.seq 0 size) ls = List.map (fun r => (r, ref_local c rec W (owned sh ax size r))) (List.seq 0 size).
  rewrite {1}/ls Ei List.map_map.
  by elim: (List.seq 0 size) => //= r l ->.
rewrite Els List.map_map /=.
have Hseq : List.seq 0 n = List.seq 0 (Base_List.prod sh) by rewrite -Hn.
have Hlen x : List.In x (List.seq 0 (Base_List.prod sh)) -> length (rowlist Phi x) = n_modes_save c.
  by move/List.in_seq => [_ /ltP Hx]; apply: rowlist_len; rewrite Hn.
rewrite (List.map_ext_in _ (piece ax size (Nd (List.app sh (cons (n_modes_save c) nil)) (ravel Phi)))); last first.
  move=> r Hr; rewrite keptE; last first.
    by move=> x; apply: idss_lt; rewrite Ei; apply: List.in_map.
  have -> : ravel Phi = List.flat_map (rowlist Phi) (List.seq 0 (Base_List.prod sh)) by rewrite ravel_rows Hseq.
  rewrite (@piece_rows _ _ (rowlist Phi) (n_modes_save c) sh _ ax size r Hlen) //.
  by rewrite -owned_piece /bd_n List.flat_map_concat_map.
apply: pieces_concat => //; last by rewrite /= List.app_length; lia.
have Er : ravel Phi = List.flat_map (rowlist Phi) (List.seq 0 (Base_List.prod sh)) by rewrite ravel_rows Hseq.
rewrite /wf /= prod_app /= Er.
have Hfl l : (forall x, List.In x l -> length (rowlist Phi x) = n_modes_save c) -> length (List.flat_map (rowlist Phi) l) = (length l * n_modes_save c)%N.
  elim: l => //= x l IH Hl; rewrite List.app_length Hl; last by left.
  by rewrite IH // => y Hy; apply: Hl; right.
by rewrite Hfl // List.seq_length -[(_ * 1)%coq_nat]/(_ * 1)%N muln1.
Qed.
(* one column of a file of the per-mode scheme *)
Lemma mode_columnE r m : (r < length idss)%N ->
  mode_column eig argsort ls r f m = List.map (fun x => List.nth m (rowlist Phi x) 0) (List.nth r idss nil).
Proof.
move=> Hr; rewrite /mode_column.
have -> : List.nth_error ls r = Some (ref_local c rec W (List.nth r idss nil)).
  by rewrite /ls List.nth_error_map (List.nth_error_nth' _ nil (elimT ltP Hr)).
rewrite keptE ?List.map_map // => x; apply: idss_lt; apply: List.nth_In; exact/ltP.
Qed.
End All.
