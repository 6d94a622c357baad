(* Property theorems C165 (3): the table of weights of a netCDF fit and the coefficients by convolution. *)
From Coq Require Import QArith.
From Verif Require Import Base_List Model_Parallel Model_Reader1 Model_Reader2 Model_Select Model_Base Model_Standard Model_Pipeline Spec_Array Spec_Reader Spec_Reader2
  Proof_Parallel Proof_Npy2 Proof_Reader1 Proof_Reader1b Proof_Reader2b Proof_Pipeline Prop_Sizes Proof_StoreFiles.
From Coq Require Import Lia List.
From mathcomp Require Import all_ssreflect all_algebra.
From Verif Require Import Model_Spod Model_SpodPar Model_PipelineNum Proof_PipelineNum Proof_PipelineFit Prop_Pipeline Model_Coeffs Model_PipelineCoef Proof_PipelineCoef
  Model_StoreFiles Prop_StoreFiles Model_PipelineConv.
Set Implicit Arguments.
Unset Strict Implicit.
Unset Printing Implicit Defensive.
Import Order.TTheory GRing.Theory Num.Theory.
Local Open Scope ring_scope.

(* The coefficients by convolution use the stored weights as the projection does (C165): one process without communicator does not notice the shape of
   weights.npy; several processes get what the same weights give in their own shape if the longest axis is the first one and their number divides the
   length of the first axis of the grid; they never return when the longest axis is the third or later, or the second one and there are more processes than
   variables, or the first one, with at least two points at every position, and not divided evenly. *)
Theorem C165_convolution_from_a_table : forall (C : numClosedFieldType) n_dft win (omega : C) junk (A : Type) (cast : A -> C) fo T_lb T_ub freq_idx (data : nd A),
  let conv fo np := conv_array n_dft win omega junk cast fo T_lb T_ub freq_idx data np in
  (forall sh1 sh2 w, conv (with_weights fo (Nd sh1 w)) None = conv (with_weights fo (Nd sh2 w)) None) /\
  (forall N rest nv w size, argmax (List.tl (Model_Parallel.shape data)) = Ok 0%N -> (0 < size)%N -> (size %| N)%N ->
     conv (with_weights fo (Nd [:: Base_List.prod (N :: rest); nv] w)) (Some size) = conv (with_weights fo (Nd (List.app (N :: rest) [:: nv]) w)) (Some size)) /\
  (forall nt xs sp nv ax w size,
     wf data -> Model_Parallel.shape data = cons nt sp -> (0 < nt)%N -> sp = List.app xs [:: nv] \/ nv = 1%N /\ sp = xs -> (0 < Base_List.prod sp)%N ->
     argmax sp = Ok ax -> (0 < size)%N ->
     let n1 := Base_List.prod xs in length w = (n1 * nv)%N -> unusable sp n1 nv ax size ->
     forall r, conv (with_weights fo (Nd [:: n1; nv] w)) (Some size) <> Ok r).
Proof.
move=> C n_dft win omega junk A cast fo T_lb T_ub freq_idx data conv; split; first by [].
split.
- move=> N rest nv w size Hax /ssrnat.ltP Hs /dvdnP [q ->].
  have Hr s rk : (rk < size)%coq_nat -> conv_rank n_dft junk cast (with_weights fo (Nd [:: Base_List.prod ((q * size)%N :: rest); nv] w)) s data (Some (size, rk))
      = conv_rank n_dft junk cast (with_weights fo (Nd (List.app ((q * size)%N :: rest) [:: nv]) w)) s data (Some (size, rk)).
    move=> Hrk; rewrite /conv_rank; case E: (distribute_data _ _) => [[[d ax] g]|] //; cbn [bind].
    have Eax : ax = 0%N.
      move: E Hax; rewrite /distribute_data; case: (Model_Parallel.shape data) => [|[|n] sp] //= H1 H2.
      by move: H1; rewrite H2; cbn [bind]; case: (if _ then _ else _) => //= ? [_ <- _].
    have [a [b [Ea [Eb Eab]]]] := @table_share _ w q size rest nv rk Hs Hrk.
    rewrite Eax [rf_weights _]/= [X in bind (distribute_dimension X _ _)]/= Ea; cbn [bind].
    rewrite [rf_weights (with_weights _ _)]/= [X in bind (distribute_dimension X _ _)]/= Eb; cbn [bind].
    by rewrite Eab.
  rewrite /conv /conv_array; case: (select_freqs _ _ _ _ _) => //= s; case: (alloc_coeffs _ _ _) => //= _.
  by congr (bind (all_ok _) _); apply: List.map_ext_in => cm /List.in_map_iff [rk [<- /List.in_seq [_ Hrk]]]; exact: Hr.
- move=> nt xs sp nv ax w size Hwf Hsh /ssrnat.ltP Hnt Hsp /ssrnat.ltP Hp Hax /ssrnat.ltP Hs n1 Hlw Hu r.
  have [Hlt _] := argmax_spec _ Hax.
  have Ep : Nat.mul n1 nv = Base_List.prod sp by case: Hsp => [->|[-> ->]]; rewrite ?prod_app /= ?PeanoNat.Nat.mul_1_r // -/n1 PeanoNat.Nat.mul_1_r.
  have Hv : (0 < nv)%coq_nat by case: (nv) Ep Hp => [|k]; [rewrite PeanoNat.Nat.mul_0_r => <-|]; lia.
  rewrite /conv /conv_array; case: (select_freqs _ _ _ _ _) => // s /=; case: (alloc_coeffs _ _ _) => //= _.
  suff [rk [Hrk [e He]]] : exists rk, (rk < size)%coq_nat /\ exists e, conv_rank n_dft junk cast (with_weights fo (Nd [:: n1; nv] w)) s data (Some (size, rk)) = Err e.
    case E: (all_ok _) => [ls|] //=; case: (@no_result _ _ _ _ _ e _ He ls E).
    by apply/List.in_map_iff; exists rk; split=> //; apply/List.in_seq; split; [lia|].
  case: (PeanoNat.Nat.lt_ge_cases ax 2) => [Hax2|Hax2]; last first.
    exists 0%N; split=> //; have [d' [Ed _]] := @distribute_data_all _ data nt sp ax (Some (size, 0%N)) Hs Hwf Hsh Hnt Hax.
    rewrite /conv_rank Ed /= /distribute_dimension /=.
    have -> : Nat.ltb ax 2 = false by apply/PeanoNat.Nat.ltb_ge.
    by exists IndexError.
  have Hin := @inner_exists xs nv sp ax n1 size Hsp Hv Hu.
  have [rk [Hrk D]] := @unusable_shares sp n1 nv ax size Hs Hv Hp Hlt Ep Hin Hu Hax2.
  exists rk; split=> //; exists ValueError.
  have [d' [Ed [Hwd [Hsd _]]]] := @distribute_data_all _ data nt sp ax (Some (size, rk)) Hrk Hwf Hsh Hnt Hax.
  rewrite /conv_rank Ed; cbn [bind]; rewrite [rf_weights _]/= distribute_dimension_piece //; cbn [bind].
  rewrite (rows_entries Hwd Hsd) Hsh [List.hd _ _]/=.
  have -> : length (flat (piece ax size (Nd [:: n1; nv] w) rk)) = weight_share n1 nv ax size rk.
    have Hwp : wf (piece ax size (Nd [:: n1; nv] w) rk).
      refine (proj1 (slice_axis_spec _ _ _ _ _)); rewrite /wf //=; last exact: bd_fits.
      by rewrite Hlw PeanoNat.Nat.mul_1_r.
    by rewrite Hwp.
  have -> : Nat.eqb (Nat.mul nt (Base_List.prod (upd_nth ax (blockdist (List.nth ax sp 0%N) size rk).1 sp))) (Nat.mul nt (weight_share n1 nv ax size rk)) = false.
    by apply/PeanoNat.Nat.eqb_neq => E; apply: D; rewrite /data_share /bd_n; move: E; clear -Hnt; nia.
  by case: (Nat.eqb nt 0).
Qed.
Print Assumptions C165_convolution_from_a_table.
(* the hypotheses on grids and numbers of processes are those of C165_nonvacuous and C165_even_nonvacuous in Prop_StoreFiles *)
Example C165_convolution_nonvacuous (C : numClosedFieldType) : exists (data : nd C) sp ax, [/\ wf data, Model_Parallel.shape data = 2%N :: sp, argmax sp = Ok ax
  & unusable sp (Base_List.prod [:: 2; 2; 3]%N) 1 ax 2 /\ sp = List.app [:: 2; 2; 3]%N [:: 1%N]].
Proof. by exists (Nd [:: 2; 2; 2; 3; 1]%N (List.repeat 0 24)), [:: 2; 2; 3; 1]%N, 2%N; split=> //; split=> //; left; lia. Qed.
