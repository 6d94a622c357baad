(* Proofs about whole computations of POD coefficients (Model_PodCoef). *)
From Coq Require Import QArith.
From Verif Require Import Base_List Model_Parallel Model_Reader1 Model_Reader2 Model_Select Model_Base Model_Standard Model_Pipeline Spec_Array Spec_Reader Spec_Reader2
  Proof_Parallel Proof_Npy2 Proof_Reader1 Proof_Reader1b Proof_SliceMap Proof_Pipeline.
From Coq Require Import Sorting.Permutation.
From mathcomp Require Import all_ssreflect all_algebra.
From Verif Require Import Model_Spod Spec_Spod Spec_Coeffs Proof_Spod Model_SpodPar Proof_SpodPar Model_Coeffs Proof_StreamNum3 Proof_Coeffs Prop_Coeffs Model_Pod Proof_Pod Model_PipelineNum Proof_PipelineNum Proof_PipelineFit
  Model_PipelineCoef Proof_PipelineCoef Model_PodCoef.
Set Implicit Arguments.
Unset Strict Implicit.
Unset Printing Implicit Defensive.
Import GRing.Theory Num.Theory.
Local Open Scope ring_scope.

(* only the entries a process holds matter *)
Lemma pod_coeffs_ext (C : numClosedFieldType) size n n' nt p (nloc : 'I_size -> nat) (own : forall r : 'I_size, 'I_(nloc r) -> 'I_n) (own' : forall r : 'I_size, 'I_(nloc r) -> 'I_n')
    (Phi : 'M[C]_(n, p)) (Phi' : 'M[C]_(n', p)) (data : 'M[C]_(nt, n)) (data' : 'M[C]_(nt, n')) :
  (forall r (i : 'I_(nloc r)) j, Phi (own r i) j = Phi' (own' r i) j) -> (forall t r (i : 'I_(nloc r)), data t (own r i) = data' t (own' r i)) ->
  pod_coeffs own Phi data = pod_coeffs own' Phi' data'.
Proof.
move=> Hp Hd; apply: eq_bigr => r _; congr (_ *m _); apply/matrixP => i t; rewrite !mxE ?Hp ?Hd //.
by rewrite /lt_mean_pod; congr (_ - _ / _); apply: eq_bigr => u _; rewrite Hd.
Qed.

(* the lemmas of Proof_PipelineCoef carry an SVD as a parameter; any will do *)
Definition svd0 (C : numClosedFieldType) p (M : 'M[C]_p) : 'M[C]_p * 'rV[C]_p * 'M[C]_p := (0, 0, 0).
Section Assemble.
Variables (C : numClosedFieldType) (n : nat) (rec : list (list C)) (W : list C) (pc : nat -> nat -> C) (ids : nat -> list nat) (p : nat) (ls : list (clocal C)).
Notation size := (length ls).
Hypothesis Hperm : Permutation (List.concat (List.map ids (List.seq 0 size))) (List.seq 0 n).
Hypothesis Hls : forall r, (r < size)%N ->
  let l := List.nth r ls (cl_none C) in
  [/\ cl_m l = length (ids r), cl_rows l = List.map (picks 0 (ids r)) rec, cl_w l = picks 0 (ids r) W &
      forall j, (j < p)%N -> List.nth j (cl_phi l) nil = List.map (fun i => pc i j) (ids r)].
(* entry (j, t) of coeffs.npy *)
Definition pcoef (j : 'I_p) (t : 'I_(length rec)) : C := \sum_(i < n) pc i j * (List.nth i (List.nth t rec nil) 0 - cmean rec i).
Lemma pl_coeffsE : pl_coeffs (length rec) p ls = Nd (cons p (cons (length rec) nil)) (ravel (\matrix_(j, t) pcoef j t)).
Proof.
rewrite /pl_coeffs; congr (Nd _ (ravel _)).
rewrite (pod_coeffs_ext (cl_PhiE (@svd0 C) Hperm Hls) (cl_dataE (@svd0 C) Hperm Hls)).
apply/matrixP => j t; rewrite (pod_coeffsE (cown_partition (@svd0 C) Hperm Hls)) [RHS]mxE; apply: eq_bigr => x _.
rewrite [cphi _ _ _ _ _]mxE /fluctuation /time_mean [crec _ _ t x]mxE; congr (_ * (_ - _ / _)).
by apply: eq_bigr => u _; rewrite mxE.
Qed.
End Assemble.

Section Run.
Variables (C : numClosedFieldType) (A : Type) (cast : A -> C) (fo : pod_folder C) (nt k : nat) (sp sh : list nat) (data : nd A) (ax : nat).
Hypothesis Hwf : wf data.
Hypothesis Hs : Model_Parallel.shape data = nt :: sp.
Hypothesis Hnt : (0 < nt)%N.
Hypothesis Hpos : (0 < Base_List.prod sp)%N.
Hypothesis Hax : argmax sp = Ok ax.
Hypothesis Hsh : sh = if Nat.eqb (pf_nv fo) 1 && negb (Nat.eqb (length sp).+1 (pf_xdim fo + 2)%N) then List.app sp (cons 1%N nil) else sp.
Hypothesis Hw : wf (pf_weights fo) /\ Model_Parallel.shape (pf_weights fo) = sh.
Hypothesis Hm : wf (pf_modes fo) /\ Model_Parallel.shape (pf_modes fo) = List.app sh (cons k nil).
Let rec := List.map (List.map cast) (snapshots data).
Let W := flat (pf_weights fo).
Definition ppcol (i j : nat) : C := List.nth (i * k + j)%N (flat (pf_modes fo)) 0.
Definition ppiece (cm : comm) : list nat := match cm with None => sh | Some (size, rank) => upd_nth ax (fst (blockdist (List.nth ax sh 0%N) size rank)) sh end.
Lemma psh_facts : [/\ (ax < length sp)%coq_nat, (ax < length sh)%coq_nat, Base_List.prod sh = Base_List.prod sp & forall cm, axis_ids sp ax cm = axis_ids sh ax cm].
Proof.
have [Hlt _] := argmax_spec _ Hax.
rewrite Hsh; case: ifP => _; last by split.
split=> //; first by rewrite List.app_length /=; lia.
- by rewrite prod_app /=; lia.
- move=> cm; apply: (@axis_ids_shape _ [:: data] sp sp 1 (or_intror (conj erefl erefl))) => //.
  + by move=> d [<-|//]; rewrite Hs.
  + by move=> E; rewrite E /= in Hlt; lia.
  + exact/ltP.
Qed.
Lemma pod_coef_rankE cm : comm_ok cm -> exists phi,
  pod_coef_rank cast fo data cm
  = Ok (CLocal (ppiece cm) (length (axis_ids sh ax cm)) (List.map (picks 0 (axis_ids sh ax cm)) rec) (picks 0 (axis_ids sh ax cm) W) phi, ax) /\
  forall j, (j < k)%N -> List.nth j phi nil = List.map (fun i => ppcol i j) (axis_ids sh ax cm).
Proof.
move=> Hcm; have [Hlt Hlt' Hpr Hids] := psh_facts.
set ids := axis_ids sh ax cm.
have [d' [Ed [Hwd [Hsd Hrd]]]] := @distribute_data_all _ data nt sp ax cm Hcm Hwf Hs (elimT ltP Hnt) Hax.
rewrite /pod_coef_rank Ed; cbn [bind].
have [Hww Hws] := Hw; have [Hwm Hsm] := Hm.
have Hlw : length W = Base_List.prod sh by rewrite /W Hww Hws.
have [w' [Ew [Efw _]]] := @distribute_one _ 0 sh W ax cm Hcm Hlt' Hlw.
have -> : distribute_dimension (pf_weights fo) ax cm = Ok w' by rewrite -Ew /W; congr (distribute_dimension _ _ _); move: Hws; case: (pf_weights fo) => a b /= ->.
cbn [bind].
have Hla : length (flat (pf_modes fo)) = Nat.mul (Base_List.prod sh) k by rewrite Hwm Hsm prod_app /=; lia.
have [a' [Ea Efa]] := @distribute_points _ 0 sh k (flat (pf_modes fo)) ax cm Hcm Hlt' Hla.
have -> : distribute_dimension (pf_modes fo) ax cm = Ok a' by rewrite -Ea; congr (distribute_dimension _ _ _); move: Hsm; case: (pf_modes fo) => a b /= ->.
cbn [bind].
have -> : pf_nm fo = k by rewrite /pf_nm Hsm List.last_last.
have Em : Base_List.prod (List.tl (Model_Parallel.shape d')) = length ids.
  rewrite /ids -Hids axis_ids_length // Hsd /=; by case: (cm) => // -[? ?].
have -> : Nat.eqb (List.hd 0%N (Model_Parallel.shape data)) 0 = false by rewrite Hs /=; case: (nt) Hnt.
rewrite Em Efa Efw points_length pick_length !Nat.eqb_refl; cbn [negb].
have -> : (if (Nat.eqb (pf_nv fo) 1) && negb (Nat.eqb (length (Model_Parallel.shape d')) (pf_xdim fo + 2)%N)
            then List.app (List.tl (Model_Parallel.shape d')) (cons 1%N nil) else List.tl (Model_Parallel.shape d')) = ppiece cm.
  have -> : length (Model_Parallel.shape d') = (length sp).+1.
    rewrite Hsd /=; case: (cm) => // -[? ?]; by rewrite upd_nth_length.
  rewrite /ppiece Hsh; case: ifP => _; rewrite Hsd /=; case: (cm) => // -[? ?].
  by rewrite List.app_nth1 // upd_app_l' //.
have -> : List.map (fun t => List.map cast (Base_List.window (t * length ids)%N (length ids) (flat d'))) (List.seq 0 (List.hd 0%N (Model_Parallel.shape data))) = List.map (picks 0 ids) rec.
  have W1 : Model_Parallel.shape d' <> nil by rewrite Hsd.
  have W2 : List.hd 0%N (Model_Parallel.shape d') = nt by rewrite Hsd.
  have W3 : rowlen d' = length ids by rewrite -Em.
  have -> : List.map (fun t => List.map cast (Base_List.window (t * length ids)%N (length ids) (flat d'))) (List.seq 0 (List.hd 0%N (Model_Parallel.shape data))) = List.map (List.map cast) (rows d').
    by rewrite -(@window_rows _ d' nt W1 W2 (length ids) W3) Hs List.map_map.
  rewrite Hrd rows_snapshots ?Hs // /rec !List.map_map; apply: List.map_ext_in => row Hrow.
  rewrite -local_piece_map // (@local_piece_pick _ 0) // ?Hids //.
  rewrite List.map_length; apply: (@record_row_length _ [:: data] sp).
  + by move=> d [<-|//]; split; rewrite ?Hs.
  + by move=> d [<-|//]; rewrite Hs.
  + by rewrite /record /= List.app_nil_r.
eexists; split; first by [].
move=> j /ltP Hj; rewrite /columns (@columns_points _ (0 : C) k (flat (pf_modes fo)) ids).
rewrite (List.nth_indep _ nil (List.map (fun i => List.nth (i * k + 0)%N (flat (pf_modes fo)) 0) ids)) ?List.map_length ?List.seq_length //.
by rewrite (List.map_nth (fun j => List.map (fun i => List.nth (i * k + j)%N (flat (pf_modes fo)) 0) ids)) List.seq_nth.
Qed.
Lemma plength_rec : length rec = nt.
Proof. by rewrite /rec List.map_length snapshots_length /nrows Hs. Qed.
Lemma pod_coef_gen np : match np with Some size => is_true (0 < size)%N | None => True end ->
  pod_coef_array cast fo data np
  = Ok (Nd (cons k (cons nt nil)) (ravel (\matrix_(j, t) pcoef (Base_List.prod sh) ppcol j t : 'M[C]_(k, length rec))),
        Nd (List.app sh (cons k nil)) (ravel (cphi (Base_List.prod sh) ppcol k)),
        Nd sh (List.map (cmean rec) (List.seq 0 (Base_List.prod sh))), ax).
Proof.
move=> Hnp; rewrite /pod_coef_array.
have -> : pf_nm fo = k by have [_ Hsm] := Hm; rewrite /pf_nm Hsm List.last_last.
have -> : List.hd 0%N (Model_Parallel.shape data) = length rec by rewrite plength_rec Hs.
rewrite -plength_rec.
have [Hlt Hlt' Hpr _] := psh_facts.
pose P cm (y : clocal C * nat) := exists phi, y = (CLocal (ppiece cm) (length (axis_ids sh ax cm)) (List.map (picks 0 (axis_ids sh ax cm)) rec) (picks 0 (axis_ids sh ax cm) W) phi, ax) /\
  forall j, (j < k)%N -> List.nth j phi nil = List.map (fun i => ppcol i j) (axis_ids sh ax cm).
have HP cm : comm_ok cm -> exists y, pod_coef_rank cast fo data cm = Ok y /\ P cm y.
  by move=> /pod_coef_rankE [phi [E Hp]]; eexists; split; [exact: E|exists phi].
case: np Hnp => [size Hsz|_].
- have HPc cm : List.In cm (comms (Some size)) -> exists y, pod_coef_rank cast fo data cm = Ok y /\ P cm y.
    by move=> /List.in_map_iff [r [<- /List.in_seq [_ Hr]]]; apply: HP.
  have [ys [Eys Ly Pys]] := @all_ok_choose _ _ (pod_coef_rank cast fo data) P None (cl_none C, 0%N) (comms (Some size)) HPc.
  rewrite Eys; cbn [bind].
  have Lc : length (comms (Some size)) = size by rewrite List.map_length List.seq_length.
  set ls := List.map fst ys.
  have Hlsz : length ls = size by rewrite /ls List.map_length Ly Lc.
  have Hy r : (r < size)%N -> P (Some (size, r)) (List.nth r ys (cl_none C, 0%N)).
    move=> Hr; have := Pys r; rewrite Lc => /(_ Hr); rewrite -[comms _]/(List.map (fun r => Some (size, r)) (List.seq 0 size)).
    by rewrite (nth_map_seq0 (fun r => Some (size, r)) None (elimT ltP Hr)).
  have -> : snd (List.hd (cl_none C, 0%N) ys) = ax.
    have [phi [E _]] := Hy 0%N Hsz.
    have -> : List.hd (cl_none C, 0%N) ys = List.nth 0 ys (cl_none C, 0%N) by case: (ys).
    by rewrite E.
  have Hnth r : List.nth r ls (cl_none C) = (List.nth r ys (cl_none C, 0%N)).1 by rewrite /ls; exact: (List.map_nth fst ys (cl_none C, 0%N) r).
  pose ids := owned sh ax size.
  have Hi r : axis_ids sh ax (Some (size, r)) = ids r by rewrite /ids /axis_ids /local_piece /owned; case: (blockdist _ _ _).
  have Hp : Permutation (List.concat (List.map ids (List.seq 0 (length ls)))) (List.seq 0 (Base_List.prod sh)).
    by rewrite Hlsz; apply: owned_perm => //; exact/ltP.
  have Hls r : (r < length ls)%N -> let l := List.nth r ls (cl_none C) in
    [/\ cl_m l = length (ids r), cl_rows l = List.map (picks 0 (ids r)) rec, cl_w l = picks 0 (ids r) W &
        forall j, (j < k)%N -> List.nth j (cl_phi l) nil = List.map (fun i => ppcol i j) (ids r)].
    by rewrite Hlsz => /Hy [phi [E Hphi]]; rewrite Hnth E /= -Hi; split.
  have Hs' : (0 < length ls)%N by rewrite Hlsz.
  have Hshp r : (r < length ls)%N -> cl_shape (List.nth r ls (cl_none C)) = upd_nth ax (blockdist (List.nth ax sh 0%N) (length ls) r).1 sh.
    by rewrite Hlsz => /Hy [phi [E Hphi]]; rewrite Hnth E.
  rewrite (pl_coeffsE Hp Hls).
  rewrite (@cl_modes_par _ _ rec W ppcol ids (@svd0 C) k ls Hp Hls Hs' sh ax erefl (introT ltP Hlt')) //; last by move=> r _; rewrite Hlsz.
  by rewrite (@cl_ltm_par _ _ rec W ppcol ids (@svd0 C) k ls Hp Hls Hs' sh ax erefl (introT ltP Hlt')) // => r _; rewrite Hlsz.
- cbn [comms List.map all_ok].
  have [phi [-> Hphi]] := pod_coef_rankE (cm := None) I; cbn [bind all_ok List.map List.hd fst snd].
  set ls := [:: _].
  pose ids (r : nat) := List.seq 0 (Base_List.prod sh).
  have Hp : Permutation (List.concat (List.map ids (List.seq 0 (length ls)))) (List.seq 0 (Base_List.prod sh)).
    by rewrite /= List.app_nil_r /ids.
  have Hls r : (r < length ls)%N -> let l := List.nth r ls (cl_none C) in
    [/\ cl_m l = length (ids r), cl_rows l = List.map (picks 0 (ids r)) rec, cl_w l = picks 0 (ids r) W &
        forall j, (j < k)%N -> List.nth j (cl_phi l) nil = List.map (fun i => ppcol i j) (ids r)].
    by case: r => // _; split.
  rewrite (pl_coeffsE Hp Hls).
  rewrite (@cl_modes_serial _ _ rec W ppcol ids (@svd0 C) k ls Hp Hls isT sh erefl erefl erefl).
  by rewrite (@cl_ltm_serial _ _ rec W ppcol ids (@svd0 C) k ls Hp Hls isT sh erefl erefl erefl).
Qed.
End Run.
