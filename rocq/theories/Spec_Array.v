(* Specification vocabulary for arrays: multi-indices.  Independent of the model. *)
From Verif Require Import Base_List Model_Parallel.

(* an array is well formed when it has as many entries as its shape says *)
Definition wf {A} (a : nd A) : Prop := length (flat a) = prod (shape a).

(* idx is a valid multi-index of an array of shape sh *)
Definition valid (sh idx : list nat) : Prop := Forall2 lt idx sh.

(* position of a multi-index in C order *)
Fixpoint ravel (sh idx : list nat) : nat :=
  match sh, idx with
  | _ :: sh', i :: idx' => i * prod sh' + ravel sh' idx'
  | _, _ => 0
  end.

(* entry [i0, i1, ..] *)
Definition entry {A} (a : nd A) (idx : list nat) : option A := nth_error (flat a) (ravel (shape a) idx).

(* [.., k, ..] -> [.., k + s, ..] *)
Definition shift_axis (ax s : nat) (idx : list nat) : list nat := upd_nth ax (nth ax idx 0 + s) idx.

(* two arrays agree everywhere *)
Definition same_array {A} (a b : nd A) : Prop :=
  shape a = shape b /\ forall idx, valid (shape a) idx -> entry a idx = entry b idx.

(* np.concatenate(pieces, axis=ax): for every outer index, the pieces' rows one after the other *)
Definition concat_axis {A} (ax : nat) (pieces : list (nd A)) : nd A :=
  match pieces with
  | [] => Nd [] []
  | p0 :: _ =>
      let outer := prod (firstn ax (shape p0)) in
      let inner := prod (skipn (S ax) (shape p0)) in
      let cnt p := nth ax (shape p) 0 in
      Nd (upd_nth ax (sum (map cnt pieces)) (shape p0))
         (concat (map (fun o =>
            concat (map (fun p => window (o * (cnt p * inner)) (cnt p * inner) (flat p)) pieces))
            (seq 0 outer)))
  end.

(* pieces that can be joined along axis ax: equal shapes except on that axis *)
Definition joinable {A} (ax : nat) (pieces : list (nd A)) : Prop :=
  forall p q, In p pieces -> In q pieces ->
    wf p /\ ax < length (shape p) /\
    firstn ax (shape p) = firstn ax (shape q) /\ skipn (S ax) (shape p) = skipn (S ax) (shape q).
