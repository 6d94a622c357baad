(* General facts about lists: windows, chunks, permutations, prefix sums.
   No model content. *)
From Coq Require Export List Arith Lia Permutation Bool.
From Coq Require Export ZArith ZifyBool ZifyNat.
Local Open Scope nat_scope.
Export ListNotations.
Set Implicit Arguments.
Ltac Zify.zify_post_hook ::= Z.div_mod_to_equations.

(* exceptions as values *)
Inductive exn :=
| ValueError | AssertionError | TypeError | IndexError | KeyError | OSError
| NameError | UnboundLocalError | AttributeError | ShapeError | ZeroDivisionError.
Inductive res (A : Type) := Ok (a : A) | Err (e : exn).
Arguments Ok {A} _.
Arguments Err {A} _.
Definition bind {A B} (m : res A) (f : A -> res B) : res B :=
  match m with Ok a => f a | Err e => Err e end.
Notation "'do' x <- m ; f" := (bind m (fun x => f))
  (at level 200, x pattern, m at level 100, f at level 200).

(* window l s n = l[s:s+n] *)
Definition window {A} (s n : nat) (l : list A) : list A := firstn n (skipn s l).

Definition sum (l : list nat) : nat := fold_right Nat.add 0 l.
Definition prod (l : list nat) : nat := fold_right Nat.mul 1 l.

(* the list of prefix sums: displacements of consecutive pieces of lengths cs *)
Fixpoint displs (d : nat) (cs : list nat) : list nat :=
  match cs with [] => [] | c :: cs' => d :: displs (d + c) cs' end.

Lemma sum_app l1 l2 : sum (l1 ++ l2) = sum l1 + sum l2.
Proof. induction l1 as [|x l1 IH]; simpl; lia. Qed.
Lemma sum_nil : sum [] = 0. Proof. reflexivity. Qed.
Lemma sum_cons x l : sum (x :: l) = x + sum l. Proof. reflexivity. Qed.

Lemma displs_length d cs : length (displs d cs) = length cs.
Proof. revert d; induction cs as [|c cs IH]; intros d; simpl; auto. Qed.

Lemma displs_nth d cs r : r < length cs -> nth r (displs d cs) 0 = d + sum (firstn r cs).
Proof.
  revert d r; induction cs as [|c cs IH]; intros d r Hr; simpl in *; [lia|].
  destruct r as [|r]; simpl; [lia|]. rewrite IH by lia. lia.
Qed.

Section Window.
Context {A : Type}.
Implicit Types l : list A.

Lemma window_length s n l : length (window s n l) = min n (length l - s).
Proof. unfold window. rewrite firstn_length, skipn_length. lia. Qed.

Lemma window_length_le s n l : s + n <= length l -> length (window s n l) = n.
Proof. intros. rewrite window_length. lia. Qed.

Lemma skipn_skipn_add a b l : skipn a (skipn b l) = skipn (b + a) l.
Proof.
  revert l; induction b as [|b IH]; intros l; simpl; [reflexivity|].
  destruct l; simpl; [now rewrite skipn_nil|apply IH].
Qed.

Lemma nth_error_skipn s k l : nth_error (skipn s l) k = nth_error l (s + k).
Proof.
  revert l; induction s as [|s IH]; intros l; simpl; [reflexivity|].
  destruct l; simpl; [now destruct k|apply IH].
Qed.

Lemma nth_error_firstn_lt n k l : k < n -> nth_error (firstn n l) k = nth_error l k.
Proof.
  revert k l; induction n as [|n IH]; intros k l H; [lia|].
  destruct l as [|x l]; simpl; [now destruct k|].
  destruct k as [|k]; simpl; [reflexivity|apply IH; lia].
Qed.

Lemma nth_error_firstn_ge n k l : n <= k -> nth_error (firstn n l) k = None.
Proof. intros. apply nth_error_None. rewrite firstn_length. lia. Qed.

Lemma nth_error_window s n k l :
  nth_error (window s n l) k = if k <? n then nth_error l (s + k) else None.
Proof.
  unfold window. destruct (Nat.ltb_spec k n).
  - rewrite nth_error_firstn_lt by lia. apply nth_error_skipn.
  - now apply nth_error_firstn_ge.
Qed.

Lemma nth_error_ext l l' : (forall k, nth_error l k = nth_error l' k) -> l = l'.
Proof.
  revert l'; induction l as [|x l IH]; intros l' H.
  - destruct l' as [|y l']; [reflexivity|]. specialize (H 0); discriminate.
  - destruct l' as [|y l']; [specialize (H 0); discriminate|].
    pose proof (H 0) as H0; simpl in H0; injection H0 as <-.
    f_equal. apply IH. intros k. exact (H (S k)).
Qed.

Lemma window_app s n m l : window s n l ++ window (s + n) m l = window s (n + m) l.
Proof.
  unfold window. rewrite <- skipn_skipn_add.
  generalize (skipn s l) as l'. clear l.
  induction n as [|n IH]; intros l'; simpl; [reflexivity|].
  destruct l' as [|x l']; simpl; [now rewrite firstn_nil|].
  now rewrite IH.
Qed.

Lemma window_all n l : length l <= n -> window 0 n l = l.
Proof. intros. unfold window. simpl. now apply firstn_all2. Qed.

Lemma window_0 s l : window s 0 l = [].
Proof. reflexivity. Qed.

Lemma window_nil s n : window s n (@nil A) = [].
Proof. unfold window. now rewrite skipn_nil, firstn_nil. Qed.

Lemma window_window s n s' n' l :
  s' + n' <= n -> window s' n' (window s n l) = window (s + s') n' l.
Proof.
  intros H. apply nth_error_ext. intros k. rewrite !nth_error_window.
  destruct (Nat.ltb_spec k n'); [|reflexivity].
  replace (s' + k <? n) with true by lia. f_equal; lia.
Qed.

Lemma window_app_l s n l l' : s + n <= length l -> window s n (l ++ l') = window s n l.
Proof.
  intros H. apply nth_error_ext; intros k. rewrite !nth_error_window.
  destruct (Nat.ltb_spec k n); [|reflexivity]. apply nth_error_app1; lia.
Qed.

Lemma window_app_r s n l l' : length l <= s -> window s n (l ++ l') = window (s - length l) n l'.
Proof.
  intros H. apply nth_error_ext; intros k. rewrite !nth_error_window.
  destruct (Nat.ltb_spec k n); [|reflexivity]. rewrite nth_error_app2 by lia. f_equal; lia.
Qed.

Lemma window_nth_error_map s n l d :
  s + n <= length l -> window s n l = map (fun k => nth k l d) (seq s n).
Proof.
  intros H. apply nth_error_ext; intros k. rewrite nth_error_window.
  destruct (Nat.ltb_spec k n).
  - rewrite (nth_error_nth' l d) by lia. symmetry.
    rewrite (map_nth_error (fun k => nth k l d) k (seq s n) (d:=s + k)); [reflexivity|].
    rewrite (nth_error_nth' _ 0) by (rewrite seq_length; lia). now rewrite seq_nth by lia.
  - symmetry. apply nth_error_None. rewrite map_length, seq_length. lia.
Qed.

(* consecutive windows of lengths cs starting at d *)
Definition windows (d : nat) (cs : list nat) l : list (list A) :=
  map (fun p => window (fst p) (snd p) l) (combine (displs d cs) cs).

Lemma windows_concat d cs l : concat (windows d cs l) = window d (sum cs) l.
Proof.
  unfold windows. revert d; induction cs as [|c cs IH]; intros d; simpl; [now rewrite window_0|].
  now rewrite IH, window_app.
Qed.

Lemma In_windows_len d cs l w : d + sum cs <= length l -> In w (windows d cs l) ->
  In (length w) cs.
Proof.
  unfold windows. revert d; induction cs as [|c cs IH]; intros d H Hin; simpl in *; [tauto|].
  destruct Hin as [<-|Hin]; [left; rewrite window_length; lia|right].
  apply (IH (d + c)); [lia|assumption].
Qed.

End Window.

Lemma map_window {A B} (f : A -> B) s n l : map f (window s n l) = window s n (map f l).
Proof. unfold window. now rewrite skipn_map, firstn_map. Qed.

Lemma window_seq d s n a : s + n <= a -> window s n (seq d a) = seq (d + s) n.
Proof.
  intros H. unfold window.
  replace a with (s + (n + (a - s - n))) by lia.
  rewrite !seq_app, skipn_app, skipn_all2 by (rewrite seq_length; lia).
  rewrite seq_length, Nat.sub_diag. simpl.
  rewrite firstn_app, seq_length, Nat.sub_diag, firstn_O, app_nil_r.
  apply firstn_all2. rewrite seq_length; lia.
Qed.

Lemma combine_firstn' {A B} n (l : list A) (l' : list B) :
  combine (firstn n l) (firstn n l') = firstn n (combine l l').
Proof.
  revert l l'; induction n as [|n IH]; intros l l'; simpl; [reflexivity|].
  destruct l as [|x l], l' as [|y l']; simpl; try reflexivity. now rewrite IH.
Qed.

Lemma combine_skipn' {A B} n (l : list A) (l' : list B) :
  combine (skipn n l) (skipn n l') = skipn n (combine l l').
Proof.
  revert l l'; induction n as [|n IH]; intros l l'; simpl; [reflexivity|].
  destruct l as [|x l], l' as [|y l']; simpl; try reflexivity.
  - now destruct (skipn n l).
  - apply IH.
Qed.

Lemma combine_window {A B} s n (l : list A) (l' : list B) :
  combine (window s n l) (window s n l') = window s n (combine l l').
Proof. unfold window. now rewrite combine_firstn', combine_skipn'. Qed.

Lemma combine_app' {A B} (l1 l2 : list A) (m1 m2 : list B) :
  length l1 = length m1 -> combine (l1 ++ l2) (m1 ++ m2) = combine l1 m1 ++ combine l2 m2.
Proof.
  revert m1; induction l1 as [|x l1 IH]; intros m1 H; destruct m1 as [|y m1]; simpl in *;
    try discriminate; [reflexivity|]. rewrite IH by lia. reflexivity.
Qed.

Lemma combine_map_fst_snd {A B} (l : list (A * B)) : combine (map fst l) (map snd l) = l.
Proof. induction l as [|[a b] l IH]; simpl; congruence. Qed.

Lemma concat_length_const {A} (ls : list (list A)) m :
  (forall l, In l ls -> length l = m) -> length (concat ls) = length ls * m.
Proof.
  induction ls as [|l ls IH]; intros H; simpl; [reflexivity|].
  rewrite app_length, (H l) by now left. rewrite IH; [lia|]. intros l' Hl'. apply H. now right.
Qed.

Lemma nth_error_seq n s k : nth_error (seq s n) k = if k <? n then Some (s + k) else None.
Proof.
  destruct (Nat.ltb_spec k n).
  - rewrite (nth_error_nth' _ 0) by (rewrite seq_length; lia). now rewrite seq_nth.
  - apply nth_error_None. rewrite seq_length; lia.
Qed.

Lemma nth_error_map_seq {A} (f : nat -> A) n s k :
  nth_error (map f (seq s n)) k = if k <? n then Some (f (s + k)) else None.
Proof.
  destruct (Nat.ltb_spec k n).
  - apply (map_nth_error f). rewrite nth_error_seq. now replace (k <? n) with true by lia.
  - apply nth_error_None. rewrite map_length, seq_length. lia.
Qed.

(* concatenation of equal-length pieces: indexing *)
Lemma nth_error_concat_const {A} (ls : list (list A)) m o k :
  (forall l, In l ls -> length l = m) -> k < m ->
  nth_error (concat ls) (o * m + k) =
  match nth_error ls o with Some l => nth_error l k | None => None end.
Proof.
  intros H Hk. revert o; induction ls as [|l ls IH]; intros o.
  - simpl. destruct o; simpl; [now destruct k|]. now destruct (m + o * m + k).
  - pose proof (H l (or_introl eq_refl)) as Hl. simpl. destruct o as [|o]; simpl.
    + now rewrite nth_error_app1 by lia.
    + rewrite nth_error_app2 by lia. replace (m + o * m + k - length l) with (o * m + k) by lia.
      apply IH. intros l' Hl'. apply H. now right.
Qed.

(* l is the concatenation of its consecutive chunks of length m *)
Lemma chunks_concat {A} (l : list A) o m :
  length l = o * m -> concat (map (fun i => window (i * m) m l) (seq 0 o)) = l.
Proof.
  revert l; induction o as [|o IH]; intros l H.
  - now destruct l.
  - rewrite seq_S, map_app, concat_app. simpl. rewrite app_nil_r.
    replace (map _ (seq 0 o)) with (map (fun i => window (i * m) m (firstn (o * m) l)) (seq 0 o)).
    + rewrite IH by (rewrite firstn_length; lia).
      transitivity (window 0 (o * m) l ++ window (o * m) m l); [reflexivity|].
      rewrite (window_app 0 (o*m) m). apply window_all. lia.
    + apply map_ext_in. intros i Hi. apply in_seq in Hi.
      change (firstn (o * m) l) with (window 0 (o * m) l).
      rewrite window_window by nia. reflexivity.
Qed.

(* swapping two nested concatenations is a permutation *)
Lemma Permutation_concat_swap {A I J} (f : I -> J -> list A) (xs : list I) (ys : list J) :
  Permutation (concat (map (fun x => concat (map (fun y => f x y) ys)) xs))
              (concat (map (fun y => concat (map (fun x => f x y) xs)) ys)).
Proof.
  revert ys; induction xs as [|x xs IH]; intros ys; simpl.
  - induction ys; simpl; auto.
  - rewrite IH. clear IH. induction ys as [|y ys IH]; simpl; [constructor|].
    rewrite <- app_assoc. rewrite <- app_assoc. apply Permutation_app_head.
    rewrite <- IH. rewrite !app_assoc. apply Permutation_app_tail. apply Permutation_app_comm.
Qed.

Lemma Permutation_concat {A} (ls ls' : list (list A)) :
  Permutation ls ls' -> Permutation (concat ls) (concat ls').
Proof.
  induction 1; simpl.
  - constructor.
  - now apply Permutation_app_head.
  - rewrite !app_assoc. apply Permutation_app_tail, Permutation_app_comm.
  - etransitivity; eassumption.
Qed.

Lemma firstn_firstn_S_sum cs r : r < length cs -> sum (firstn (S r) cs) = sum (firstn r cs) + nth r cs 0.
Proof.
  revert r; induction cs as [|c cs IH]; intros r H; simpl in *; [lia|].
  destruct r as [|r]; simpl; [lia|]. rewrite <- Nat.add_assoc, <- IH by lia. reflexivity.
Qed.

Lemma sum_firstn_le cs r : sum (firstn r cs) <= sum cs.
Proof. rewrite <- (firstn_skipn r cs) at 2. rewrite sum_app. lia. Qed.

Lemma sum_nth_le cs r : r < length cs -> sum (firstn r cs) + nth r cs 0 <= sum cs.
Proof. intros. rewrite <- firstn_firstn_S_sum by assumption. apply sum_firstn_le. Qed.

Lemma nth_map_seq0 {A} (f : nat -> A) n r d : r < n -> nth r (map f (seq 0 n)) d = f r.
Proof.
  intros H. apply nth_error_nth. rewrite nth_error_map_seq.
  now replace (r <? n) with true by lia.
Qed.

(* list update *)
Fixpoint upd_nth {A} (i : nat) (x : A) (l : list A) : list A :=
  match l, i with
  | [], _ => []
  | _ :: l', 0 => x :: l'
  | y :: l', S i' => y :: upd_nth i' x l'
  end.

Lemma upd_nth_length {A} i (x : A) l : length (upd_nth i x l) = length l.
Proof. revert i; induction l as [|y l IH]; intros [|i]; simpl; auto. Qed.

Lemma upd_nth_split {A} i (x : A) l : i < length l ->
  upd_nth i x l = firstn i l ++ x :: skipn (S i) l.
Proof.
  revert i; induction l as [|y l IH]; intros [|i] H; simpl in *; try lia; [reflexivity|].
  now rewrite IH by lia.
Qed.

Lemma upd_nth_same {A} i (x : A) l d : i < length l -> nth i (upd_nth i x l) d = x.
Proof. revert i; induction l as [|y l IH]; intros [|i] H; simpl in *; try lia; auto. apply IH; lia. Qed.

Lemma upd_nth_other {A} i j (x : A) l d : i <> j -> nth j (upd_nth i x l) d = nth j l d.
Proof. revert i j; induction l as [|y l IH]; intros [|i] [|j] H; simpl in *; auto; try lia. Qed.

Lemma split_at {A} i (l : list A) d : i < length l -> l = firstn i l ++ nth i l d :: skipn (S i) l.
Proof.
  revert i; induction l as [|y l IH]; intros [|i] H; simpl in *; try lia; [reflexivity|].
  f_equal. apply IH. lia.
Qed.

Lemma prod_app l1 l2 : prod (l1 ++ l2) = prod l1 * prod l2.
Proof. induction l1 as [|x l1 IH]; simpl; [lia|]. rewrite IH. lia. Qed.
