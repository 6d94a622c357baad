(* Property theorems C167: the shape in which the user passes weights. *)
From Coq Require Import QArith.
From Verif Require Import Base_List Model_Parallel Model_Reader1 Model_Reader2 Model_Base Model_Standard Model_Pipeline Spec_Array Spec_Reader Spec_Reader2
  Proof_Parallel Proof_Npy2 Proof_Reader1 Proof_Reader1b Proof_Reader2b Proof_Pipeline Prop_Sizes Proof_StoreFiles Prop_StoreFiles.
From Coq Require Import Lia List.
Import ListNotations.
Local Open Scope nat_scope.

Lemma flat_share A (w : list A) q size rest r : 0 < size -> r < size ->
  exists a b, distribute_dimension (Nd [q * size * Base_List.prod rest] w) 0 (Some (size, r)) = Ok a
    /\ distribute_dimension (Nd (q * size :: rest) w) 0 (Some (size, r)) = Ok b /\ flat a = flat b.
Proof.
  intros Hs Hr. unfold distribute_dimension. cbn [shape length Nat.ltb Nat.leb nth].
  rewrite (even_share (Base_List.prod rest) q size r Hs Hr). pose proof (even_share 1 q size r Hs Hr) as E. rewrite Nat.mul_1_r in E. rewrite E.
  do 2 eexists. split; [reflexivity|]. split; [reflexivity|]. unfold slice_axis, slice_flat. cbn [flat shape firstn skipn nth Base_List.prod fold_right seq map].
  change (fold_right Nat.mul 1 rest) with (Base_List.prod rest). f_equal. f_equal. f_equal; ring.
Qed.
(* weights given as one row of numbers: there is no second axis to cut *)
Lemma no_axis A (w : list A) n ax size r : 0 < ax -> distribute_dimension (Nd [n] w) ax (Some (size, r)) = Err IndexError.
Proof. intros H. unfold distribute_dimension. cbn [shape length]. destruct (Nat.ltb_spec ax 1); [lia|reflexivity]. Qed.

From mathcomp Require Import all_ssreflect all_algebra.
From Verif Require Import Model_Spod Model_SpodPar Model_PipelineNum Proof_PipelineNum Proof_PipelineFit Prop_Pipeline Model_Pod Model_PodShape Model_PipelinePod.
Set Implicit Arguments.
Unset Strict Implicit.
Unset Printing Implicit Defensive.
Import Order.TTheory GRing.Theory Num.Theory.
Local Open Scope ring_scope.

(* One process without communicator reads the weights entry by entry in C order: fits of arrays (SPOD and POD) do not notice the shape. *)
Theorem C167_one_process_ignores_the_shape : forall (C : numClosedFieldType) (A : Type) (cast : A -> C) isreal s ds xdim nv sh1 sh2 w,
  (forall eig argsort, fit_array eig argsort cast isreal s ds xdim nv (WeightsDict (Nd sh1 w)) None = fit_array eig argsort cast isreal s ds xdim nv (WeightsDict (Nd sh2 w)) None) /\
  (forall eig longtime k, pod_fit_array eig cast longtime ds xdim nv (WeightsDict (Nd sh1 w)) k None = pod_fit_array eig cast longtime ds xdim nv (WeightsDict (Nd sh2 w)) k None).
Proof.
move=> C A cast isreal s ds xdim nv sh1 sh2 w.
have E xs : define_weights 1 (WeightsDict (Nd sh1 w)) xs nv = Err ValueError /\ define_weights 1 (WeightsDict (Nd sh2 w)) xs nv = Err ValueError \/
   define_weights 1 (WeightsDict (Nd sh1 w)) xs nv = Ok (Nd sh1 w) /\ define_weights 1 (WeightsDict (Nd sh2 w)) xs nv = Ok (Nd sh2 w).
  by rewrite /define_weights [flat _]/= [flat (Nd sh2 w)]/=; case: (Nat.eqb _ _); [right|left].
have I xs ax m : initialize_weights 1 (WeightsDict (Nd sh1 w)) xs nv false ax None m = initialize_weights 1 (WeightsDict (Nd sh2 w)) xs nv false ax None m.
  by rewrite /initialize_weights; case: (E xs) => [[-> ->]|[-> ->]].
split=> [eig argsort|eig longtime k].
- rewrite /fit_array /=; case: (reader1_init _ _ _ _ _) => //= rd; case: (configure _ _ _) => //= c.
  by case: (load_array _ _ _ _ _ _ _) => //= rd_d; rewrite /rank_weights; case: (entries _) => //= m; rewrite I.
- have P : pod_rank cast ds xdim nv (WeightsDict (Nd sh1 w)) None = pod_rank cast ds xdim nv (WeightsDict (Nd sh2 w)) None.
    rewrite /pod_rank; case: ds => // first ds; case: ifP => // _.
    case: (pod_xshape _ _ _) => // xs; cbn [bind]; case: (pod_check _ _) => // nt; cbn [bind].
    by case: (E xs) => [[-> ->]|[-> ->]].
  by rewrite /pod_fit_array /comms; cbn [List.map]; rewrite P.
Qed.
Print Assumptions C167_one_process_ignores_the_shape.

(* Weights given as one row with one number per point and variable (what the documentation of custom weights asks for): if the longest axis of a snapshot is not
   the first one, no fit of arrays on one or more processes of a communicator ever returns a result. *)
Theorem C167_flattened_weights_in_parallel_refuted : forall (C : numClosedFieldType) (A : Type) (cast : A -> C) isreal s ds xdim nv sp ax n w size,
  (forall d, List.In d ds -> List.tl (Model_Parallel.shape d) = sp) -> sp <> nil -> (0 < Base_List.prod sp)%N -> argmax sp = Ok ax -> (0 < ax)%N -> (0 < size)%N ->
  (forall eig argsort r, fit_array eig argsort cast isreal s ds xdim nv (WeightsDict (Nd [:: n] w)) (Some size) <> Ok r) /\
  (forall eig longtime k r, pod_fit_array eig cast longtime ds xdim nv (WeightsDict (Nd [:: n] w)) k (Some size) <> Ok r).
Proof.
move=> C A cast isreal s ds xdim nv sp ax n w size Hgrid Hsp /ssrnat.ltP Hpos Hax /ssrnat.ltP Hax0 /ssrnat.ltP Hs.
have Hloc r m : exists e, local_weights (Nd [:: n] w) ax (Some (size, r)) m = Err e by exists IndexError; rewrite /local_weights no_axis.
have Hin0 : List.In 0%N (List.seq 0 size) by apply/List.in_seq; lia.
split=> [eig argsort r|eig longtime k r].
- rewrite /fit_array; case: (reader1_init _ _ _ _ _) => //= rd; case: (configure _ _ _) => //= c.
  set f := fun cm : comm => _.
  have [e He] : exists e, f (Some (size, 0%N)) = Err e.
    rewrite /f /load_array; case Hrd: (reader1_init _ _ _ _ _) => [rd1|e]; cbn [bind]; last by exists e.
    case: (get_data cast 0 rd1 None) => [[rows|]|e] /=; [|by exists AttributeError|by exists e].
    have [Hax1 _] := @reader_axis _ isreal ds xdim nv (Some (size, 0%N)) rd1 sp Hrd Hgrid Hsp Hpos.
    have -> : rd_max_axis rd1 = ax by move: Hax1; rewrite Hax => -[->].
    rewrite /rank_weights; case: (entries _) => [m|e] /=; last by exists e.
    rewrite /initialize_weights /define_weights; case: ifP => _ /=; last by exists ValueError.
    have [e ->] := Hloc 0%N m; by exists e.
  rewrite /locals; case E: (all_ok _) => [ls|] //=.
  suff : forall ys, all_ok (List.map (fun x => do dw <- x; rank_local c dw.1 dw.2) (List.map f (comms (Some size)))) <> Ok ys by move/(_ ls); rewrite E.
  apply: (@no_result _ _ _ _ (f (Some (size, 0%N))) e); last by rewrite He.
  by apply/List.in_map_iff; exists (Some (size, 0%N)); split=> //; apply/List.in_map_iff; exists 0%N.
- rewrite /pod_fit_array.
  have [e He] : exists e, pod_rank cast ds xdim nv (WeightsDict (Nd [:: n] w)) (Some (size, 0%N)) = Err e.
    rewrite /pod_rank; case Eds: ds => [|first ds']; first by exists IndexError.
    case: ifP => _; first by exists IndexError.
    case: (pod_xshape _ _ _) => [xs|e]; cbn [bind]; last by exists e.
    case: (pod_check _ _) => [nt|e]; cbn [bind]; last by exists e.
    rewrite /define_weights; case: ifP => _; cbn [bind]; last by exists ValueError.
    rewrite -Eds.
    have G ds0 : ds0 <> nil -> (forall d, List.In d ds0 -> List.tl (Model_Parallel.shape d) = sp) -> forall rows a, gather_local cast (Some (size, 0%N)) ds0 = Ok (rows, a) -> a = ax.
      elim: ds0 => // d ds0 IH _ Hg rows a; cbn [gather_local].
      case Ed: (distribute_data _ _) => [[[d' a'] g]|] //; cbn [bind].
      have Ea : a' = ax.
        move: Ed (Hg d (or_introl erefl)); rewrite /distribute_data; case: (Model_Parallel.shape d) => [|[|k0] sp'] //= H1 H2.
        by move: H1; rewrite H2 Hax; cbn [bind]; case: (if _ then _ else _) => //= ? [_ <- _].
      case El: (gather_local _ _ ds0) => [[rows' a'']|] //=; rewrite Ea => -[_ <-].
      by case: ds0 IH Hg El => [|d1 ds1] IH Hg El //; apply: (IH _ _ rows' a'') => // d2 H2; apply: Hg; right.
    case Eg: (gather_local _ _ _) => [[rows a]|e]; cbn [bind]; last by exists e.
    rewrite (G ds _ Hgrid rows a Eg); last by rewrite Eds.
    by have [e ->] := Hloc 0%N (length (List.hd nil rows)); exists e.
  case E: (all_ok _) => [ls|] //=.
  suff : forall ys, all_ok (List.map (pod_rank cast ds xdim nv (WeightsDict (Nd [:: n] w))) (comms (Some size))) <> Ok ys by move/(_ ls); rewrite E.
  apply: (@no_result _ _ _ _ (Some (size, 0%N)) e) => //.
  by apply/List.in_map_iff; exists 0%N.
Qed.
Print Assumptions C167_flattened_weights_in_parallel_refuted.

(* If the longest axis of a snapshot is the first one and the number of processes divides its length N, the row of numbers gives what the same weights
   give in the shape of the grid (N first). *)
Theorem C167_flattened_weights_even_shares : forall (C : numClosedFieldType) (A : Type) (cast : A -> C) isreal s ds xdim nv sp N rest w size,
  (forall d, List.In d ds -> List.tl (Model_Parallel.shape d) = sp) -> sp <> nil -> (0 < Base_List.prod sp)%N -> argmax sp = Ok 0%N -> (0 < size)%N -> (size %| N)%N ->
  let flattened := WeightsDict (Nd [:: Base_List.prod (N :: rest)] w) in let shaped := WeightsDict (Nd (N :: rest) w) in
  (forall eig argsort, fit_array eig argsort cast isreal s ds xdim nv flattened (Some size) = fit_array eig argsort cast isreal s ds xdim nv shaped (Some size)) /\
  (forall eig longtime k, pod_fit_array eig cast longtime ds xdim nv flattened k (Some size) = pod_fit_array eig cast longtime ds xdim nv shaped k (Some size)).
Proof.
move=> C A cast isreal s ds xdim nv sp N rest w size Hgrid Hsp /ssrnat.ltP Hpos Hax /ssrnat.ltP Hs /dvdnP [q ->] fl own.
have Hloc r m : (r < size)%coq_nat -> local_weights (Nd [:: Base_List.prod ((q * size)%N :: rest)] w) 0 (Some (size, r)) m = local_weights (Nd ((q * size)%N :: rest) w) 0 (Some (size, r)) m.
  by move=> Hr; have [a [b [Ea [Eb Eab]]]] := @flat_share _ w q size rest r Hs Hr; rewrite /local_weights Ea Eb; cbn [bind]; rewrite Eab.
have Hdef xs r m : (r < size)%coq_nat -> (do w0 <- define_weights 1 fl xs nv; local_weights w0 0 (Some (size, r)) m) = (do w0 <- define_weights 1 own xs nv; local_weights w0 0 (Some (size, r)) m).
  by move=> Hr; rewrite /define_weights /fl /own [flat _]/= [flat (Nd (cons _ _) _)]/=; case: (Nat.eqb _ _); cbn [bind] => //; exact: Hloc.
split=> [eig argsort|eig longtime k].
- rewrite /fit_array; case: (reader1_init _ _ _ _ _) => //= rd; case: (configure _ _ _) => //= c.
  congr (bind (locals _ _) _); apply: List.map_ext_in => cm /List.in_map_iff [r [<- /List.in_seq [_ Hr]]].
  rewrite /load_array; case Hrd: (reader1_init _ _ _ _ _) => [rd1|e]; cbn [bind] => //.
  case: (get_data cast 0 rd1 None) => [[rows|]|e]; cbn [bind fst snd] => //.
  have [Hax1 _] := @reader_axis _ isreal ds xdim nv (Some (size, r)) rd1 sp Hrd Hgrid Hsp Hpos.
  have -> : rd_max_axis rd1 = 0%N by move: Hax1; rewrite Hax => -[->].
  rewrite /rank_weights; case: (entries _) => [m|e]; cbn [bind] => //.
  by rewrite /initialize_weights /flatten_weights Hdef.
- have P cm : List.In cm (comms (Some size)) -> pod_rank cast ds xdim nv fl cm = pod_rank cast ds xdim nv own cm.
    move=> /List.in_map_iff [r [<- /List.in_seq [_ Hr]]].
    rewrite /pod_rank; case Eds: ds => [|first ds'] //; case: ifP => // _.
    case: (pod_xshape _ _ _) => // xs; cbn [bind]; case: (pod_check _ _) => // nt; cbn [bind].
    rewrite -Eds.
    have G ds0 : ds0 <> nil -> (forall d, List.In d ds0 -> List.tl (Model_Parallel.shape d) = sp) -> forall rows a, gather_local cast (Some (size, r)) ds0 = Ok (rows, a) -> a = 0%N.
      elim: ds0 => // d ds0 IH _ Hg rows a; cbn [gather_local].
      case Ed: (distribute_data _ _) => [[[d' a'] g]|] //; cbn [bind].
      have Ea : a' = 0%N.
        move: Ed (Hg d (or_introl erefl)); rewrite /distribute_data; case: (Model_Parallel.shape d) => [|[|k0] sp'] //= H1 H2.
        by move: H1; rewrite H2 Hax; cbn [bind]; case: (if _ then _ else _) => //= ? [_ <- _].
      case El: (gather_local _ _ ds0) => [[rows' a'']|] //=; rewrite Ea => -[_ <-].
      by case: ds0 IH Hg El => [|d1 ds1] IH Hg El //; apply: (IH _ _ rows' a'') => // d2 H2; apply: Hg; right.
    case Eg: (gather_local _ _ _) => [[rows a]|e]; cbn [bind].
      have Ea : a = 0%N by apply: (G ds _ Hgrid rows a Eg); rewrite Eds.
      rewrite Ea /define_weights /fl /own [flat _]/= [flat (Nd (cons _ _) _)]/=; case: (Nat.eqb _ _); cbn [bind] => //.
      by rewrite (Hloc r _ Hr).
    have := Hdef xs r 0%N Hr; rewrite /define_weights /fl /own [flat _]/= [flat (Nd (cons _ _) _)]/=; by case: (Nat.eqb _ _).
  by rewrite /pod_fit_array; congr (bind (all_ok _) _); apply: List.map_ext_in => cm; exact: P.
Qed.
Print Assumptions C167_flattened_weights_even_shares.

(* the hypotheses are met: eight snapshots of four points (C121), one, two or four processes; and for the refutation of a grid of 2 x 3 points *)
Section Nonvacuous.
Variable C : numClosedFieldType.
Example C167_nonvacuous : forall size, List.In size [:: 1; 2; 4]%N ->
  [/\ forall d, List.In d (ex_ds C) -> List.tl (Model_Parallel.shape d) = [:: 4%N], argmax [:: 4%N] = Ok 0%N, (0 < Base_List.prod [:: 4%N])%N & (size %| 4)%N].
Proof. by move=> size /= [<-|[<-|[<-|//]]]; split=> // d [<-|[<-|//]]. Qed.
Example C167_refuted_nonvacuous : exists ds : list (nd C),
  [/\ List.Forall (@wf C) ds, ds <> nil, forall d, List.In d ds -> List.tl (Model_Parallel.shape d) = [:: 2; 3]%N & argmax [:: 2; 3]%N = Ok 1%N].
Proof. by exists [:: Nd [:: 8; 2; 3]%N (List.repeat 0 48)]; split=> //; [repeat constructor|move=> d [<-|//]]. Qed.
(* and flattened weights do succeed there: all of the four points, two processes *)
Example C167_even_succeeds eig argsort isreal : exists r,
  fit_array eig argsort (fun x : C => x) isreal (ex_settings C) (ex_ds C) 1 1 (WeightsDict (Nd [:: 4%N] [:: 1; 2%:R; 3%:R; 4%:R])) (Some 2%N) = Ok r.
Proof.
have Hv : valid_arrays (ex_settings C) (ex_ds C) [:: 4%N] 1 (WeightsDict (Nd [:: 4; 1]%N [:: 1; 2%:R; 3%:R; 4%:R])) (Some 2%N).
  exists [:: 4%N], 0%N, (Z.of_nat 2); split; [split=> //|split; [split=> //|split]] => //.
  - by move=> d [<-|[<-|//]].
  - by right.
  - by move=> d [<-|[<-|//]].
  - by split=> // -[|[|r]].
have [c [H [_ E]]] := C121_fit_arrays_is_spod eig argsort (fun x : C => x) isreal Hv.
have G d : List.In d (ex_ds C) -> List.tl (Model_Parallel.shape d) = [:: 4%N] by move=> [<-|[<-|//]].
have [Ee _] := @C167_flattened_weights_even_shares C C (fun x => x) isreal (ex_settings C) (ex_ds C) 1 1 [:: 4%N] 4 [:: 1%N] [:: 1; 2%:R; 3%:R; 4%:R] 2 G ltac:(by []) isT erefl isT isT.
by eexists; rewrite (Ee eig argsort); exact: E.
Qed.
End Nonvacuous.
