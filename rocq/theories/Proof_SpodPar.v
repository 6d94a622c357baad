From Verif Require Import Base_List Model_Parallel Spec_Array Proof_Parallel Proof_Npy2 Proof_SliceMap Model_Spod Spec_Spod Proof_Spod Model_SpodPar.
From Coq Require Import Sorting.Permutation.
From mathcomp Require Import all_ssreflect all_algebra.
Set Implicit Arguments.
Unset Strict Implicit.
Unset Printing Implicit Defensive.

Lemma owned_piece sh ax size r : owned sh ax size r = flat (piece ax size (Nd sh (List.seq 0 (Base_List.prod sh))) r).
Proof. by rewrite /owned /piece /bd_s /bd_n /=. Qed.
Lemma ltnat a b : (a < b)%coq_nat <-> (a < b)%N.
Proof. by split => /ltP. Qed.
Lemma owned_perm sh ax size : (ax < length sh)%N -> (0 < size)%N ->
  Permutation (List.concat (List.map (owned sh ax size) (List.seq 0 size))) (List.seq 0 (Base_List.prod sh)).
Proof.
move=> /ltP Hax /ltP Hs; rewrite (List.map_ext _ _ (fun r => owned_piece sh ax size r)).
by apply: (pieces_perm (a := Nd sh (List.seq 0 (Base_List.prod sh)))) => //; rewrite /wf /= List.seq_length.
Qed.
Lemma sum_concat (ids : nat -> list nat) a s : \sum_(r <- iota a s) length (ids r) = length (List.concat (List.map ids (List.seq a s))).
Proof. by elim: s a => [|s IH] a /=; rewrite ?big_nil // big_cons List.app_length IH. Qed.
Section Own.
Variables (n size : nat) (ids : nat -> list nat) (nloc : 'I_size -> nat) (own : forall r : 'I_size, 'I_(nloc r) -> 'I_n).
Hypothesis Hperm : Permutation (List.concat (List.map ids (List.seq 0 size))) (List.seq 0 n).
Hypothesis Hown : forall r : 'I_size, [seq val (own k) | k <- enum 'I_(nloc r)] = ids r.

Lemma nloc_size r : nloc r = length (ids r).
Proof. by rewrite -Hown -[RHS]/(seq.size _) size_map size_enum_ord. Qed.
Lemma total : \sum_(r < size) nloc r = n.
Proof.
transitivity (length (List.concat (List.map ids (List.seq 0 size)))); last first.
  by rewrite (Permutation_length Hperm) List.seq_length.
transitivity (\sum_(r < size) length (ids r)); first by apply: eq_bigr => r _; rewrite nloc_size.
rewrite -(big_mkord predT (fun r => length (ids r))) /index_iota subn0.
exact: sum_concat.
Qed.
Lemma own_surj i : exists p : {r : 'I_size & 'I_(nloc r)}, own (tagged p) = i.
Proof.
have Hin : List.In (val i) (List.concat (List.map ids (List.seq 0 size))).
  apply: (Permutation_in _ (Permutation_sym Hperm)); apply/List.in_seq; split; first exact/leP.
  by apply/ltP; exact: ltn_ord.
move/List.in_concat: Hin => [l [Hl Hi]]; move/List.in_map_iff: Hl => [r [Er /List.in_seq [_ /ltP Hr]]].
have {}Hr : (r < size)%N by exact: Hr.
pose r' : 'I_size := Ordinal Hr.
have : List.In (val i) [seq val (own k) | k <- enum 'I_(nloc r')] by rewrite Hown Er.
move/List.in_map_iff => [k [Ek _]]; exists (Tagged (fun r => 'I_(nloc r)) k); exact: val_inj.
Qed.
Lemma own_partition : partition_of own.
Proof.
pose F (p : {r : 'I_size & 'I_(nloc r)}) := own (tagged p).
have Hs i : exists p, F p == i by have [p Hp] := own_surj i; exists p; apply/eqP.
pose g i := xchoose (Hs i).
have Fg : cancel g F by move=> i; apply/eqP; exact: (xchooseP (Hs i)).
have Hg : bijective g.
  apply: inj_card_bij; first exact: can_inj Fg.
  rewrite card_tagged card_ord sumnE big_map big_enum /=.
  by under eq_bigr do rewrite card_ord; rewrite total.
by apply: (bij_can_bij Hg).
Qed.
End Own.

Section Files.
Variables (T : Type) (n size : nat) (sh : list nat) (ax : nat).
Variables (nloc : 'I_size -> nat) (own : forall r : 'I_size, 'I_(nloc r) -> 'I_n).
Hypothesis Hn : n = Base_List.prod sh.
Hypothesis Hown : forall r : 'I_size, [seq val (own k) | k <- enum 'I_(nloc r)] = owned sh ax size r.
Hypotheses (Hax : (ax < length sh)%N) (Hs : (0 < size)%N).
Variable k : nat.
Variable phi : 'M[T]_(n, k).
Variable loc : forall r : 'I_size, 'M[T]_(nloc r, k).
Hypothesis Hloc : forall r (i : 'I_(nloc r)) j, loc r i j = phi (own i) j.

Lemma flat_map_map A B D (g : B -> list D) (f : A -> B) l : List.flat_map g (List.map f l) = List.flat_map (fun x => g (f x)) l.
Proof. by elim: l => //= x l ->. Qed.
Lemma flat_map_ext' A B (g h : A -> list B) l : (forall x, g x = h x) -> List.flat_map g l = List.flat_map h l.
Proof. by move=> H; elim: l => //= x l ->; rewrite H. Qed.
Lemma iota_seq a b : iota a b = List.seq a b.
Proof. by elim: b a => //= b IH a; rewrite IH. Qed.
(* row of the flattened index *)
Definition rowlist (x : nat) : list T :=
  if insub x is Some i then List.map (fun j => phi (i : 'I_n) j) (enum 'I_k) else nil.
Lemma rowlist_val (i : 'I_n) : rowlist (val i) = List.map (fun j => phi i j) (enum 'I_k).
Proof. by rewrite /rowlist valK. Qed.
Lemma ravel_rows : ravel phi = List.flat_map rowlist (List.seq 0 n).
Proof.
have -> : List.seq 0 n = List.map val (enum 'I_n) by rewrite -[List.map _ _]/(map _ _) val_enum_ord iota_seq.
by rewrite flat_map_map; apply: flat_map_ext' => i; rewrite rowlist_val.
Qed.
Lemma loc_rows r : ravel (loc r) = List.flat_map rowlist (owned sh ax size r).
Proof.
rewrite -Hown -[map _ _]/(List.map _ _) flat_map_map; apply: flat_map_ext' => i; rewrite rowlist_val.
by apply: List.map_ext => j; rewrite Hloc.
Qed.
Lemma modes_file : 
  concat_axis ax [seq mode_piece sh ax size r (loc r) | r : 'I_size <- enum 'I_size] = Nd (sh ++ (cons k nil))%list (ravel phi).
Proof.
have Hlen x : List.In x (List.seq 0 (Base_List.prod sh)) -> length (rowlist x) = k.
  move/List.in_seq => [_ /ltP Hx]; have {}Hx : (x < n)%N by rewrite Hn; exact: Hx.
  by rewrite (rowlist_val (Ordinal Hx)) List.map_length -[length _]/(seq.size _) size_enum_ord.
have Hp (r : 'I_size) : mode_piece sh ax size r (loc r) = piece ax size (Nd (sh ++ (cons k nil))%list (ravel phi)) r.
  rewrite ravel_rows {1}Hn (@piece_rows _ _ rowlist k sh _ ax size r Hlen) //; last exact/ltP.
  by rewrite /mode_piece loc_rows owned_piece /bd_n.
have -> : [seq mode_piece sh ax size r (loc r) | r : 'I_size <- enum 'I_size]
   = List.map (piece ax size (Nd (sh ++ (cons k nil))%list (ravel phi))) (List.seq 0 size).
  rewrite (eq_map Hp) -iota_seq -val_enum_ord -[List.map _ _]/(map _ (map _ _)).
  by rewrite -(map_comp (piece ax size (Nd (sh ++ (cons k nil))%list (ravel phi))) val).
apply: pieces_concat; try exact/ltP.
  rewrite /wf /= prod_app /= ravel_rows.
  have Hfl l : (forall x, List.In x l -> length (rowlist x) = k) -> length (List.flat_map rowlist l) = (length l * k)%N.
    elim: l => //= x l IH H; rewrite List.app_length H; last by left.
    by rewrite IH // => y Hy; apply: H; right.
  rewrite Hfl; last by move=> x; rewrite {1}Hn; exact: Hlen.
  by rewrite List.seq_length -Hn -[(k * 1)%coq_nat]/(k * 1)%N muln1.
by rewrite /= List.app_length; apply/ltP; rewrite ltn_addr.
Qed.
End Files.
