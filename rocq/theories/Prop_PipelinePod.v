(* Property theorems C159: whole POD fits of in-memory data. *)
From Verif Require Import Base_List Model_Parallel Model_Reader1 Model_Reader2 Model_Base Model_Standard Model_Pipeline Model_PodShape Spec_Array Spec_Reader Spec_Reader2
  Proof_Parallel Proof_Npy2 Proof_Reader1 Proof_Reader1b Proof_Reader2b Proof_Standard1 Proof_Pipeline Prop_PodShape.
From Coq Require Import Sorting.Permutation.
From mathcomp Require Import all_ssreflect all_algebra.
From Verif Require Import Model_Spod Spec_Spod Spec_Coeffs Spec_Pod Proof_Spod Model_SpodPar Proof_SpodPar Model_Pod Proof_Pod Proof_StreamNum3 Model_PipelineNum Proof_PipelineNum Proof_PipelineFit
  Prop_Pod Prop_PodOptimal Prop_Pipeline Model_PipelinePod Proof_PipelinePod.
Set Implicit Arguments.
Unset Strict Implicit.
Unset Printing Implicit Defensive.
Import Order.TTheory GRing.Theory Num.Theory.
Local Open Scope ring_scope.

(* ---- what the runs are compared with: POD of the record on one process (Model_Pod), the record a list of snapshots, each the flattened array of shape xs,
   W the flattened weights ---- *)
Section Reference.
Variables (C : numClosedFieldType).
Variable eig : forall n, 'M[C]_n -> 'rV[C]_n * 'M[C]_n.
Variables (longtime : bool) (rec : list (list C)) (W : list C) (xs : list nat) (k : nat).
Let n := Base_List.prod xs.
Let nt := length rec.
Definition rec_mx : 'M[C]_(nt, n) := \matrix_(t, i) List.nth i (List.nth t rec nil) 0.
Definition w_vec : 'cV[C]_n := \col_i List.nth i W 0.
Definition ref_pod_eigs : list C := List.map (fun j => pod_w (size := 1) (fun _ (i : 'I_n) => i) w_vec rec_mx longtime (@eig nt) 0 j) (enum 'I_nt).
(* the array [*xs, 1, k] in C order; None: not a number *)
Definition ref_pod_file (H : (k <= nt)%N) : nd (option C) :=
  Nd (List.app xs [:: 1%N; k]) (List.flat_map (fun i => List.map (fun j => serial_pod_saved w_vec rec_mx longtime (@eig nt) H i j) (enum 'I_k)) (enum 'I_n)).
End Reference.
(* one or several non-empty datasets over the grid xs, one variable and no variable axis (C61); weights, if given, of shape xs + [1]; with a communicator
   at least one process and one mode *)
Definition pod_input (C : numClosedFieldType) (A : Type) (ds : list (nd A)) (xs : list nat) (xdim : nat) (user : weights_arg C) : Prop :=
  [/\ well_formed ds, ds <> nil, forall d, List.In d ds -> (0 < List.hd 0%N (Model_Parallel.shape d))%N & forall d, List.In d ds -> List.tl (Model_Parallel.shape d) = xs] /\
  [/\ length xs <> (xdim + 1)%N, xs <> nil, (0 < Base_List.prod xs)%N & weights_ok user xs 1].
Definition processes_ok (np : option nat) (k : nat) : Prop := match np with Some size => (0 < size)%N /\ (0 < k)%N | None => True end.

(* ---- C159 ---- *)
Theorem C159_fit_is_pod_of_the_record : forall (C : numClosedFieldType) eig (A : Type) (cast : A -> C) longtime ds xs xdim user k np
    (H : (k <= length (List.map (List.map cast) (record ds)))%N),
  pod_input ds xs xdim user -> processes_ok np k ->
  pod_fit_array eig cast longtime ds xdim 1 user k np
  = Ok (ref_pod_eigs eig longtime (List.map (List.map cast) (record ds)) (weights_of 1 user xs 1) xs,
        ref_pod_file eig longtime (weights_of 1 user xs 1) xs H).
Proof.
move=> C eig A cast longtime ds xs xdim user k np H [[H1 H2 H3 H4] [H5 H6 H7 H8]] Hnp.
have [ax Hax] : exists ax, argmax xs = Ok ax by case: (xs) H6 => // x l _; eexists.
rewrite (@pod_fit_gen C eig A cast longtime ds xs xdim user ax H1 H2 H3 H4 H5 H7 Hax H8 k H np Hnp).
congr (Ok (_, Nd _ _)); rewrite /ravel; apply: flat_map_ext' => i; apply: List.map_ext => j.
by rewrite [LHS]mxE.
Qed.
Print Assumptions C159_fit_is_pod_of_the_record.
(* neither the number of processes nor the split of the record into datasets shows in the result *)
Theorem C159_processes_and_split_invisible : forall (C : numClosedFieldType) eig (A : Type) (cast : A -> C) longtime ds ds' xs xdim user k np np',
  pod_input ds xs xdim user -> pod_input ds' xs xdim user -> processes_ok np k -> processes_ok np' k -> record ds = record ds' -> (k <= length (record ds))%N ->
  pod_fit_array eig cast longtime ds xdim 1 user k np = pod_fit_array eig cast longtime ds' xdim 1 user k np'.
Proof.
move=> C eig A cast longtime ds ds' xs xdim user k np np' Hi Hi' Hp Hp' E Hk.
have H : (k <= length (List.map (List.map cast) (record ds)))%N by rewrite List.map_length.
rewrite (C159_fit_is_pod_of_the_record eig longtime H Hi Hp).
move: H; rewrite E => H; by rewrite (C159_fit_is_pod_of_the_record eig longtime H Hi' Hp').
Qed.
Print Assumptions C159_processes_and_split_invisible.

Lemma nth_enum_map (C : numClosedFieldType) nt (F : 'I_nt -> C) (j : 'I_nt) : List.nth j (List.map F (enum 'I_nt)) 0 = F j.
Proof. by rewrite nth_List -[List.map _ _]/(map _ _) (nth_map j) ?size_enum_ord // nth_ord_enum. Qed.
(* what a user can rely on in the saved results: real data, non-negative weights, the mean subtracted, an eigensolver that keeps its promise, and every saved
   value a number: the eigenvalues are non-negative and add up to the weighted variance of the record about its mean; every saved mode captures exactly its own
   eigenvalue of that variance; and if the saved modes have different eigenvalues they are real and orthonormal in the weighted inner product *)
Theorem C159_saved_results : forall (C : numClosedFieldType) (eig : forall n, 'M[C]_n -> 'rV[C]_n * 'M[C]_n) (A : Type) (cast : A -> C) ds xs xdim user k np eigs sh vals,
  pod_input ds xs xdim user -> processes_ok np k -> (k <= length (record ds))%N ->
  real_eig_ok (@eig (length (List.map (List.map cast) (record ds)))) -> (forall x, List.In x (weights_of 1 user xs 1) -> 0 <= x) ->
  (forall row x, List.In row (record ds) -> List.In x row -> cast x \is Num.real) ->
  pod_fit_array eig cast true ds xdim 1 user k np = Ok (eigs, Nd sh (List.map Some vals)) ->
  let rec := List.map (List.map cast) (record ds) in
  let n := Base_List.prod xs in let W i := List.nth i (weights_of 1 user xs 1) 0 in
  let mean i := (\sum_(t < length rec) List.nth i (List.nth t rec nil) 0) / (length rec)%:R in
  let fluct t i := List.nth i (List.nth t rec nil) 0 - mean i in
  let phi i j := List.nth (i * k + j)%N vals 0 in let lam j := List.nth j eigs 0 in
  [/\ length eigs = length rec, sh = List.app xs [:: 1%N; k] /\ length vals = (n * k)%N,
      (forall j, (j < length rec)%N -> 0 <= lam j) /\ \sum_(j < length rec) lam j = \sum_(t < length rec) \sum_(i < n) W i * `|fluct t i| ^+ 2,
      (forall j, (j < k)%N -> \sum_(t < length rec) `|\sum_(i < n) (phi i j)^* * fluct t i * W i| ^+ 2 = lam j) &
      (forall i j, (i < k)%N -> (j < k)%N -> lam i = lam j -> i = j) ->
        (forall i j, (i < n)%N -> (j < k)%N -> phi i j \is Num.real) /\
        forall j l, (j < k)%N -> (l < k)%N -> \sum_(i < n) (phi i j)^* * phi i l * W i = (j == l)%:R].
Proof.
move=> C eig A cast ds xs xdim user k np eigs sh vals Hi Hp Hk Heig HW Hreal Hfit rec n W mean fluct phi lam.
have H : (k <= length rec)%N by rewrite /rec List.map_length.
move: Hfit; rewrite (C159_fit_is_pod_of_the_record eig true H Hi Hp) /ref_pod_file -/rec => -[Ee Es Ev].
have Hn : (0 < n)%N by case: Hi => _ [].
pose w := w_vec (weights_of 1 user xs 1) xs; pose X := rec_mx rec xs.
have Hid := id_partition n.
have Hlr : length eigs = length rec by rewrite -Ee List.map_length -[length (enum _)]/(size _) size_enum_ord.
have Hlv : length vals = (n * k)%N.
  have := f_equal (@length _) Ev; rewrite List.map_length => <-.
  rewrite -(ravel_length (\matrix_(i < n, j < k) serial_pod_saved w X true (@eig _) H i j)) /ravel; congr length.
  by apply: flat_map_ext' => i; apply: List.map_ext => j; rewrite [RHS]mxE.
have Elam (j : 'I_(length rec)) : lam j = pod_w (size := 1) (fun _ (i : 'I_n) => i) w X true (@eig _) 0 j by rewrite /lam -Ee nth_enum_map.
have Ephi (i : 'I_n) (j : 'I_k) : serial_pod_saved w X true (@eig _) H i j = Some (phi i j).
  have Hlt : (i * k + j < length (List.map Some vals))%coq_nat.
    rewrite List.map_length Hlv; apply/ssrnat.ltP; apply: (@leq_trans (i.+1 * k)%N); first by rewrite mulSnr ltn_add2l.
    by rewrite leq_mul2r ltn_ord orbT.
  have := @nth_rows _ (Some 0) n k (fun i j => serial_pod_saved w X true (@eig _) H i j) i j.
  rewrite Ev => <-; by rewrite List.map_nth.
have HXr : real_mx X.
  move=> t i; rewrite /X mxE.
  have Ht : List.In (List.nth t rec nil) rec by apply: List.nth_In; apply/ssrnat.ltP; apply: ltn_ord.
  move/List.in_map_iff: Ht => [row [Er Hr]].
  have Hlen : length row = n by apply: (@record_row_length _ ds xs row) => //; case: Hi => -[].
  have : List.In (List.nth i (List.nth t rec nil) 0) (List.nth t rec nil) by apply: List.nth_In; rewrite -Er List.map_length Hlen; apply/ssrnat.ltP; apply: ltn_ord.
  by rewrite -{2}Er => /List.in_map_iff [x [<- Hx]]; apply: Hreal Hr Hx.
have Hw x : 0 <= w x 0.
  rewrite /w mxE; apply: HW; apply: List.nth_In; rewrite weights_of_length; last by case: Hi => _ [].
  rewrite prod_app /=; have := ltn_ord x; move/ssrnat.ltP; rewrite -/n; lia.
pose Phi : 'M[C]_(n, k) := \matrix_(i, j) phi i j.
have HPhi : modes_in_file (size := 1) (fun _ (i : 'I_n) => i) w X true (@eig _) H Phi.
  by move=> r i j; rewrite [r]ord1 [Phi _ _]mxE -Ephi.
have Efl t i : fluctuation X t i = fluct t i.
  by rewrite /fluctuation /time_mean /fluct /mean /X [rec_mx _ _ _ _]mxE; congr (_ - _ / _); apply: eq_bigr => s _; rewrite mxE.
have Ew i : w i 0 = W i by rewrite /w mxE.
split; [exact: Hlr|by rewrite -Es Hlv|..|].
- have [HE HL] := C93_total_energy Heig Hid Hw HXr; split=> [j Hj|].
    by rewrite -[j]/(val (Ordinal Hj)) Elam.
  rewrite (eq_bigr _ (fun j _ => Elam j)) HE; apply: eq_bigr => t _; apply: eq_bigr => i _; by rewrite Efl Ew.
- move=> j Hj; have [Hc _] := C138_saved_modes_capture Heig Hid Hw HXr Hn HPhi.
  have := Hc (Ordinal Hj); rewrite -Elam /= => <-; rewrite /variance_along big_ord1; apply: eq_bigr => t _.
  by congr (`|_| ^+ 2); apply: eq_bigr => i _; rewrite Efl Ew !mxE.
- move=> Hd.
  have Hlead : leading_ok k (pod_w (size := 1) (fun _ (i : 'I_n) => i) w X true (@eig _)) (pod_v (size := 1) (fun _ (i : 'I_n) => i) w X true (@eig _)).
    by left => i j Hik Hjk; rewrite -!Elam => E; apply: val_inj; apply: Hd.
  have [HR HO] := C92_orthonormal_modes Heig Hid Hw HPhi Hlead; split=> [i j Hin Hjk|j l Hj Hl].
    by have := HR (Ordinal Hin) (Ordinal Hjk); rewrite mxE.
  have := HO Hn (Ordinal Hj) (Ordinal Hl); rewrite /wip => E; rewrite -[j == l]/(Ordinal Hj == Ordinal Hl) -E.
  by apply: eq_bigr => i _; rewrite Ew !mxE.
Qed.
Print Assumptions C159_saved_results.

Lemma phi_len (C : numClosedFieldType) (eig : forall n, 'M[C]_n -> 'rV[C]_n * 'M[C]_n) longtime nt k ls (r : 'I_(length ls)) :
  (nt < k)%N -> length (pl_phi eig longtime nt k r) = Nat.mul (pl_n r) nt.
Proof.
move=> Hk; rewrite /pl_phi.
have G l : length (List.flat_map (fun i => List.firstn k (List.map (fun j => pod_phi (@pl_own C ls) (pl_wv ls) (pl_data nt ls) longtime (@eig nt) (r := r) i j) (enum 'I_nt))) l) = Nat.mul (length l) nt.
  elim: l => //= i l IH; rewrite List.app_length IH List.firstn_length List.map_length -[length (enum _)]/(size _) size_enum_ord Nat.min_r //.
  by apply/ssrnat.leP; apply: ltnW.
by rewrite G -[length (enum _)]/(size _) size_enum_ord.
Qed.
(* more modes than snapshots: without communicator the fit raises, but with one it may go through: the values of every process are then poured into an array of
   another shape, and modes.npy claims a grid smaller than the data's, with more modes than were computed *)
Theorem C159_too_many_modes_refuted : forall (C : numClosedFieldType) eig (A : Type) (cast : A -> C) longtime ds xs xdim user k,
  pod_input ds xs xdim user -> (length (record ds) < k)%N ->
  pod_fit_array eig cast longtime ds xdim 1 user k None = Err ValueError /\
  forall size ax, (0 < size)%N -> argmax xs = Ok ax ->
    let N := List.nth ax xs 0%N in let nt := length (record ds) in
    (forall r, (r < size)%N -> Nat.modulo (Nat.mul (bd_n N size r) nt) k = 0%N) ->
    exists eigs file, [/\ pod_fit_array eig cast longtime ds xdim 1 user k (Some size) = Ok (eigs, file),
      Model_Parallel.shape file = List.app (upd_nth ax (Nat.div (Nat.mul N nt) k) xs) [:: 1%N; k] & (Nat.div (Nat.mul N nt) k < N)%N].
Proof.
move=> C eig A cast longtime ds xs xdim user k [[H1 H2 H3 H4] [H5 H6 H7 H8]] Hk.
have [ax0 Hax0] : exists ax, argmax xs = Ok ax by case: (xs) H6 => // x l _; eexists.
have Hr cm := @pod_rankE C eig A cast ds xs xdim user ax0 H1 H2 H3 H4 H5 H7 Hax0 H8 cm.
have Hlen : length (List.map (List.map cast) (record ds)) = length (record ds) by rewrite List.map_length.
have Hk0 : k <> 0%N by case: (k) Hk.
have [Hlt _] := argmax_spec _ Hax0.
have Hnt : (0 < length (record ds))%N.
  rewrite record_length; case: (ds) H2 H3 => // d l _ H; have := H d (or_introl erefl); rewrite /=; by case: (List.hd _ _).
split.
  rewrite /pod_fit_array; cbn [comms List.map all_ok]; rewrite (Hr None I); cbn [bind all_ok List.map List.hd fst snd].
  rewrite /pl_file Hlen; set ls := [:: _].
  have : forall r : 'I_(length ls), set_shape k false xs 1 ax0 (pl_phi eig longtime (length (record ds)) k r) = Err ValueError.
    move=> r; rewrite /set_shape phi_len //.
    have -> : pl_n r = Base_List.prod xs.
      rewrite /pl_n /pl_at; case: r => -[|//] /= _; rewrite List.seq_length prod_app /=; lia.
    rewrite prod_app /=; set P := Base_List.prod xs.
    case: Nat.eqb_spec => // E; exfalso.
    have HP : (0 < P)%coq_nat by apply/ssrnat.ltP.
    have Hk' : (length (record ds) < k)%coq_nat by apply/ssrnat.ltP.
    clear -E HP Hk'; nia.
  have : (0 < size (enum 'I_(length ls)))%N by rewrite size_enum_ord.
  by case: (enum 'I_(length ls)) => // r l _ Hs; cbn [List.map all_ok]; rewrite Hs.
move=> size ax Hs Hax N nt Hdiv.
have Ea : ax0 = ax by move: Hax; rewrite Hax0 => -[].
subst ax0; rewrite /pod_fit_array.
pose sh := List.app xs [:: 1%N].
pose rec := List.map (List.map cast) (record ds).
pose W := weights_of 1 user xs 1.
pose G cm := (PLocal (length (axis_ids sh ax cm)) (List.map (picks 0 (axis_ids sh ax cm)) rec) (picks 0 (axis_ids sh ax cm) W), (xs, length rec, ax)).
rewrite (@all_ok_map _ _ _ G); last by move=> cm /List.in_map_iff [r [<- /List.in_seq [_ Hr']]]; apply: Hr.
cbn [bind comms].
have -> : List.hd (pl_none C, (nil, 0%N, 0%N)) (List.map G (List.map (fun r => Some (size, r)) (List.seq 0 size))) = G (Some (size, 0%N)) by case: (size) Hs.
cbn [snd G]; rewrite Hlen -/nt.
set ls := List.map fst _.
have Els : length ls = size by rewrite /ls !List.map_length List.seq_length.
have Hnth m : (m < size)%coq_nat -> List.nth m ls (pl_none C) = (G (Some (size, m))).1.
  by move=> Hm; rewrite /ls List.map_map List.map_map (nth_map_seq0 _ _ Hm).
have Hn (r : 'I_(length ls)) : pl_n r = Nat.mul (bd_n N size r) (Base_List.prod (upd_nth ax 1%N xs)).
  have Hrs : (r < size)%coq_nat by apply/ssrnat.ltP; rewrite -Els.
  rewrite /pl_n /pl_at Hnth //; cbn [G fst pl_m].
  rewrite axis_ids_length; [|exact: Hrs|rewrite /sh List.app_length /=; lia].
  rewrite /sh List.app_nth1 // upd_app_l // prod_app prod_upd // -/N /bd_n /=; lia.
have Hp := prod_upd_pos _ _ (elimT ssrnat.ltP H7) Hlt.
have Hrest : Base_List.prod (List.app (upd_nth ax 1%N xs) [:: 1%N; k]) = Nat.mul (Base_List.prod (upd_nth ax 1%N xs)) k by rewrite prod_app /=; lia.
have Hpk : Nat.mul (Base_List.prod (upd_nth ax 1%N xs)) k <> 0%N by clear -Hp Hk0; nia.
pose P (r : 'I_(length ls)) := Nd (List.app (upd_nth ax (Nat.div (Nat.mul (bd_n N size r) nt) k) xs) [:: 1%N; k]) (pl_phi eig longtime nt k r).
rewrite /pl_file (@all_ok_map _ _ _ P); last first.
  move=> r _; rewrite /set_shape phi_len // Hn Hrest (introF (Nat.eqb_spec _ _) Hpk).
  have Hrs : (r < size)%N by rewrite -Els.
  have -> : Nat.mul (Nat.mul (bd_n N size r) (Base_List.prod (upd_nth ax 1%N xs))) nt = Nat.mul (Base_List.prod (upd_nth ax 1%N xs)) (Nat.mul (bd_n N size r) nt) by lia.
  rewrite Nat.mul_mod_distr_l //; last by clear -Hp; lia.
  rewrite Hdiv // Nat.mul_0_r /= Nat.div_mul_cancel_l //; by clear -Hp; lia.
cbn [bind]; eexists; eexists; split; first by [].
- have En : (0 < seq.size (enum 'I_(length ls)))%N by rewrite size_enum_ord Els.
  have Esum : sum (List.map (fun p => List.nth ax (Model_Parallel.shape p) 0%N) (List.map P (enum 'I_(length ls)))) = Nat.div (Nat.mul N nt) k.
    have -> : List.map (fun p => List.nth ax (Model_Parallel.shape p) 0%N) (List.map P (enum 'I_(length ls))) = List.map (fun b => Nat.div (Nat.mul b nt) k) (List.map (bd_n N size) (List.seq 0 size)).
      rewrite (List.map_map P) -(iota_seq 0 size) -{2}Els -val_enum_ord -[map val _]/(List.map val _) [in RHS](List.map_map (fun i : 'I_(length ls) => val i)) List.map_map.
      apply: List.map_ext => r; rewrite /P /= List.app_nth1 ?upd_nth_same //.
      by rewrite upd_nth_length.
    rewrite sum_div //; last by move=> b /List.in_map_iff [r [<- /List.in_seq [_ /ssrnat.ltP Hr']]]; apply: Hdiv.
    by rewrite bd_sum_all //; apply/ssrnat.ltP.
  move: Esum; case: (enum 'I_(length ls)) En => // r0 l _ Esum; rewrite /concat_axis; cbn [List.map] in Esum; cbn [List.map]; cbn [Model_Parallel.shape].
  by rewrite Esum /P /= upd_app_l ?upd_upd // upd_nth_length.
- apply/ssrnat.ltP; apply: div_lt; [exact/ssrnat.ltP|].
  by apply: nth_pos; [exact/ssrnat.ltP|].
Qed.
Print Assumptions C159_too_many_modes_refuted.

(* the hypotheses are met *)
Section Nonvacuous.
Variable C : numClosedFieldType.
(* two snapshots of two points *)
Definition pod_d : nd C := Nd [:: 2; 2]%N [:: 1; 0; -1; 0].
Example C159_nonvacuous : pod_input [:: pod_d] [:: 2%N] 1 (@NoWeights C).
Proof. by split; split=> // d [<-|//]. Qed.
(* four snapshots of four points on two processes, eight modes asked for *)
Definition pod_d4 : nd C := Nd [:: 4; 4]%N (List.repeat 0 16).
Example C159_too_many_nonvacuous : pod_input [:: pod_d4] [:: 4%N] 1 (@NoWeights C) /\ (length (record [:: pod_d4]) < 8)%N /\
  forall r, (r < 2)%N -> Nat.modulo (Nat.mul (bd_n 4 2 r) (length (record [:: pod_d4]))) 8 = 0%N.
Proof. by split; [split; split=> // d [<-|//]|split=> // -[|[|r]]]. Qed.
(* an eigensolver that keeps its promise, and a fit with at least one mode all of whose saved values are numbers *)
Example C159_saved_nonvacuous : exists (eig : forall n, 'M[C]_n -> 'rV[C]_n * 'M[C]_n) k eigs sh vals,
  [/\ (0 < k)%N, (k <= length (record [:: pod_d]))%N, real_eig_ok (@eig 2%N),
      pod_fit_array eig (fun x => x) true [:: pod_d] 1 1 NoWeights k None = Ok (eigs, Nd sh (List.map Some vals)) &
      (forall x, List.In x (weights_of (1 : C) NoWeights [:: 2%N] 1) -> 0 <= x) /\
      forall row x, List.In row (record [:: pod_d]) -> List.In x row -> x \is Num.real].
Proof.
pose rec := List.map (List.map (fun x : C => x)) (record [:: pod_d]).
pose W := weights_of (1 : C) NoWeights [:: 2%N] 1.
pose X := rec_mx rec [:: 2%N]; pose w := w_vec W [:: 2%N].
have Hw x : 0 <= w x 0 by rewrite mxE; case: x => -[|[|//]] /= _; exact: ler01.
have HX : real_mx X by move=> t x; rewrite mxE; case: t => -[|[|//]] ?; case: x => -[|[|//]] ? /=; rewrite ?rpredN ?rpred1 ?rpred0.
have Hown := id_partition 2%N.
have [eig [k [H [Phi [Heig [HPhi [_ Hz]]]]]]] := pod_hypotheses_met X true Hown Hw.
have [HE _] := C93_total_energy Heig Hown Hw HX.
have Hk : (0 < k)%N.
  rewrite lt0n; apply/eqP => Ek; move: HE; rewrite big1; last by move=> j _; apply: Hz; rewrite Ek.
  rewrite !big_ord_recl !big_ord0 /fluctuation /time_mean !big_ord_recl !big_ord0 /X /w !mxE /= !addr0 !subrr !mul0r !subr0 normr0 expr0n /= !mulr0 !addr0 !mul1r.
  by rewrite normrN normr1 expr1n => /eqP; rewrite eq_sym (_ : 1 + 1 = 2%:R) ?pnatr_eq0.
pose eiga n : 'M[C]_n -> 'rV[C]_n * 'M[C]_n := match @eqP _ 2%N n with ReflectT E => ecast n ('M[C]_n -> 'rV[C]_n * 'M[C]_n) E eig | _ => fun M => (0, M) end.
have Ea : eiga 2%N = eig by rewrite /eiga; case: eqP => // E; rewrite eq_axiomK.
exists eiga, k, (ref_pod_eigs eiga true rec W [:: 2%N]), [:: 2; 1; k]%N,
  (List.flat_map (fun i => List.map (fun j => Phi i j) (enum 'I_k)) (enum 'I_2)).
split=> //; first by rewrite Ea.
- rewrite (C159_fit_is_pod_of_the_record (np := None) eiga true (H : (k <= length (List.map (List.map (fun x : C => x)) (record [:: pod_d])))%N) C159_nonvacuous I).
  rewrite /ref_pod_file; congr (Ok (_, Nd _ _)).
  have G l : List.flat_map (fun i : 'I_2 => List.map (fun j => serial_pod_saved w X true (eiga 2%N) H i j) (enum 'I_k)) l = List.map Some (List.flat_map (fun i => List.map (fun j => Phi i j) (enum 'I_k)) l).
    elim: l => //= i l ->; rewrite List.map_app List.map_map; congr (List.app _ _).
    by apply: List.map_ext => j; rewrite Ea; apply: (HPhi ord0 i j).
  exact: G.
- split=> [x|row x]; first by move=> /= [<-|[<-|//]]; exact: ler01.
  by move=> /= [<-|[<-|//]] /= [<-|[<-|//]]; rewrite ?rpredN ?rpred1 ?rpred0.
Qed.
End Nonvacuous.
