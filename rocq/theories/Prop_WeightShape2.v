(* Property theorems C167 (2): the shape in which the user passes weights, streaming fit. *)
From Coq Require Import QArith.
From Verif Require Import Base_List Model_Parallel Model_Reader1 Model_Reader2 Model_Base Model_Standard Model_Pipeline Spec_Array Spec_Reader Spec_Reader2
  Proof_Parallel Proof_Npy2 Proof_Reader1 Proof_Reader1b Proof_Reader2b Proof_Pipeline Prop_Sizes Proof_StoreFiles Prop_StoreFiles.
From Coq Require Import Lia List.
From mathcomp Require Import all_ssreflect all_algebra.
From Verif Require Import Model_Spod Model_SpodPar Model_PipelineNum Proof_PipelineNum Proof_PipelineFit Prop_Pipeline Prop_WeightShape Model_PipelineStream.
Set Implicit Arguments.
Unset Strict Implicit.
Unset Printing Implicit Defensive.
Import Order.TTheory GRing.Theory Num.Theory.
Local Open Scope ring_scope.

(* the streaming fit meets the weights only here *)
Lemma stream_rank_ext (C : numClosedFieldType) (A : Type) (cast : A -> C) isreal c ds xdim nv u1 u2 cm :
  (forall rd m, reader1_init isreal ds xdim nv cm = Ok rd ->
     initialize_weights 1 u1 (rd_xshape rd) nv false (rd_max_axis rd) cm m = initialize_weights 1 u2 (rd_xshape rd) nv false (rd_max_axis rd) cm m) ->
  stream_rank cast isreal c ds xdim nv u1 cm = stream_rank cast isreal c ds xdim nv u2 cm.
Proof.
move=> H; rewrite /stream_rank; case Hrd: (reader1_init _ _ _ _ _) => [rd|e]; cbn [bind] => //.
case: (get_data cast 0 rd (Some 0%N)) => [[[|row [|r2 rows]]|]|e]; cbn [bind] => //.
by rewrite /rank_weights; case: (entries _) => [m|e]; cbn [bind] => //; rewrite (H rd m Hrd).
Qed.

Theorem C167_streaming : forall (C : numClosedFieldType) svd (A : Type) (cast : A -> C) isreal s ds xdim nv w,
  (* one process without communicator does not notice the shape *)
  (forall sh1 sh2, fit_stream_array svd cast isreal s ds xdim nv (WeightsDict (Nd sh1 w)) None = fit_stream_array svd cast isreal s ds xdim nv (WeightsDict (Nd sh2 w)) None) /\
  forall sp ax size, (forall d, List.In d ds -> List.tl (Model_Parallel.shape d) = sp) -> sp <> nil -> (0 < Base_List.prod sp)%N -> argmax sp = Ok ax -> (0 < size)%N ->
  (* the longest axis is not the first one: no result *)
  (forall n r, (0 < ax)%N -> fit_stream_array svd cast isreal s ds xdim nv (WeightsDict (Nd [:: n] w)) (Some size) <> Ok r) /\
  (* it is the first one and the shares are equal: the same result as with weights in the shape of the grid *)
  (forall N rest, ax = 0%N -> (size %| N)%N ->
     fit_stream_array svd cast isreal s ds xdim nv (WeightsDict (Nd [:: Base_List.prod (N :: rest)] w)) (Some size)
     = fit_stream_array svd cast isreal s ds xdim nv (WeightsDict (Nd (N :: rest) w)) (Some size)).
Proof.
move=> C svd A cast isreal s ds xdim nv w; split=> [sh1 sh2|sp ax size Hgrid Hsp /ssrnat.ltP Hpos Hax /ssrnat.ltP Hs].
  rewrite /fit_stream_array; case: (reader1_init _ _ _ _ _) => // rd; cbn [bind]; case: (configure _ _ _) => // c; cbn [bind].
  rewrite /comms; cbn [List.map]; rewrite (@stream_rank_ext _ _ _ _ _ _ _ _ _ (WeightsDict (Nd sh2 w))) // => rd1 m _.
  by rewrite /initialize_weights /define_weights [flat _]/= [flat (Nd sh2 w)]/=; case: (Nat.eqb _ _).
split=> [n r /ssrnat.ltP Hax0|N rest Eax /dvdnP [q ->]].
- rewrite /fit_stream_array; case: (reader1_init _ _ _ _ _) => // rd; cbn [bind]; case: (configure _ _ _) => // c; cbn [bind].
  have [e He] : exists e, stream_rank cast isreal c ds xdim nv (WeightsDict (Nd [:: n] w)) (Some (size, 0%N)) = Err e.
    rewrite /stream_rank; case Hrd: (reader1_init _ _ _ _ _) => [rd1|e]; cbn [bind]; last by exists e.
    case: (get_data cast 0 rd1 (Some 0%N)) => [[[|row [|r2 rows]]|]|e]; cbn [bind]; try by eexists.
    have [Hax1 _] := @reader_axis _ isreal ds xdim nv (Some (size, 0%N)) rd1 sp Hrd Hgrid Hsp Hpos.
    have -> : rd_max_axis rd1 = ax by move: Hax1; rewrite Hax => -[->].
    rewrite /rank_weights; case: (entries _) => [m|e]; cbn [bind]; last by exists e.
    rewrite /initialize_weights /define_weights; case: ifP => _; cbn [bind]; last by exists ValueError.
    by rewrite /flatten_weights /local_weights no_axis //; exists IndexError.
  case E: (all_ok _) => [ls|] //=.
  suff : forall ys, all_ok (List.map (stream_rank cast isreal c ds xdim nv (WeightsDict (Nd [:: n] w))) (comms (Some size))) <> Ok ys by move/(_ ls); rewrite E.
  apply: (@no_result _ _ _ _ (Some (size, 0%N)) e) => //.
  by apply/List.in_map_iff; exists 0%N; split=> //; apply/List.in_seq; lia.
- rewrite /fit_stream_array; case: (reader1_init _ _ _ _ _) => // rd; cbn [bind]; case: (configure _ _ _) => // c; cbn [bind].
  congr (bind (all_ok _) _); apply: List.map_ext_in => cm /List.in_map_iff [r [<- /List.in_seq [_ Hr]]].
  apply: stream_rank_ext => rd1 m Hrd.
  have [Hax1 _] := @reader_axis _ isreal ds xdim nv (Some (size, r)) rd1 sp Hrd Hgrid Hsp Hpos.
  have -> : rd_max_axis rd1 = 0%N by move: Hax1; rewrite Hax Eax => -[->].
  have [a [b [Ea [Eb Eab]]]] := @flat_share _ w q size rest r Hs Hr.
  rewrite /initialize_weights /define_weights [flat _]/= [flat (Nd (cons _ _) _)]/=; case: (Nat.eqb _ _); cbn [bind] => //.
  by rewrite /flatten_weights /local_weights Ea Eb; cbn [bind]; rewrite Eab.
Qed.
Print Assumptions C167_streaming.
(* the hypotheses on the grid are those of C167_flattened_weights_in_parallel_refuted and C167_flattened_weights_even_shares: see C167_nonvacuous and
   C167_refuted_nonvacuous in Prop_WeightShape *)
Example C167_streaming_nonvacuous (C : numClosedFieldType) : exists ds : list (nd C), exists sp ax,
  (forall d, List.In d ds -> List.tl (Model_Parallel.shape d) = sp) /\ sp <> nil /\ (0 < Base_List.prod sp)%N /\ argmax sp = Ok ax /\ (0 < ax)%N /\ ds <> nil.
Proof. by exists [:: Nd [:: 8; 2; 3]%N (List.repeat 0 48)], [:: 2; 3]%N, 1%N; split=> [d [<-|//]|]. Qed.
