(* The reconstruction file: spod/utils.py 441-572 (compute_reconstruction, _compute_rec_op, _compute_rec_conv) and
   pod/utils.py 132-225 (compute_reconstruction), from the arrays in the coefficients folder to the bytes of the file.
   Elements come from an arbitrary type with `add`, `mul`, `zero`; the products of a matrix multiplication are added in index order
   (simplification: the order of summation inside BLAS is not represented). *)
From Coq Require Import ZArith.
From Verif Require Import Base_List Model_Parallel Model_Select.
Set Implicit Arguments.
Local Open Scope nat_scope.

Section Rec.
Context {A : Type}.
Variable zero : A.
Variables add mul : A -> A -> A.

Definition dotp (xs ys : list A) : A :=
  fold_right add zero (map (fun q => mul (fst q) (snd q)) (combine xs ys)).

(* column t of a C-ordered (p, nt) array *)
Definition column (p nt t : nat) (l : list A) : list A := map (fun j => nth (j * nt + t) l zero) (seq 0 p).

(* coeffs[:, time_idx]: integers are normalised against the second dimension; a string is not an index *)
Definition index_times (nt : nat) (t : py_index) : res (list nat) :=
  match t with Ints l => norm_all nt l | Str _ => Err IndexError end.

(* spod/utils.py:540-551 _compute_rec_op; pod/utils.py:193-201:
   phir @ coeffs[:,time_idx] + lt_mean[...,None].  matmul raises ValueError when the inner dimensions differ.
   Simplification: an addition that needs broadcasting of axes of size one is reported as ValueError. *)
Definition rec_op (phi a mean : nd A) (t : py_index) : res (nd A) :=
  match shape a with
  | [p; nt] =>
      do ts <- index_times nt t;
      let sp := removelast (shape phi) in
      if last (shape phi) 0 =? p then
        if list_eq_dec Nat.eq_dec sp (shape mean) then
          Ok (Nd (sp ++ [length ts])
                 (concat (map (fun g => map (fun t =>
                    add (dotp (window (g * p) p (flat phi)) (column p nt t (flat a))) (nth g (flat mean) zero)) ts)
                    (seq 0 (prod sp)))))
        else Err ValueError
      else Err ValueError
  | _ => Err IndexError
  end.

(* spod/utils.py:554-572 _compute_rec_conv: phir[...,0,0] needs two last axes that are not empty (IndexError otherwise);
   phir reshaped to (.., n_modes*n_freq), coeffs 'ijk->ikj' and reshaped to (n_modes*n_freq, nt) *)
Definition conv_coeffs (F nt M : nat) (l : list A) : list A :=
  concat (map (fun f => concat (map (fun m => map (fun t => nth ((f * nt + t) * M + m) l zero) (seq 0 nt)) (seq 0 M))) (seq 0 F)).
Definition rec_conv (phi a mean : nd A) (t : py_index) : res (nd A) :=
  match shape a with
  | [F; nt; M] =>
      let r := length (shape phi) in
      if r <? 2 then Err IndexError
      else if (nth (r - 2) (shape phi) 0 =? 0) || (nth (r - 1) (shape phi) 0 =? 0) then Err IndexError
      else
        let sp := firstn (r - 2) (shape phi) in
        if prod (shape phi) =? prod (sp ++ [M * F])
        then rec_op (Nd (sp ++ [M * F]) (flat phi)) (Nd [M * F; nt] (conv_coeffs F nt M (flat a))) mean t
        else Err ValueError
  | _ => Err IndexError
  end.

(* Q_rec.shape = shape (525-528): with a communicator the distributed axis is -1, i.e. computed from the number n of local entries;
   numpy refuses when the other axes have no entries *)
Definition set_shape (sh : list nat) (ax : nat) (c : comm) (n : nat) : res (list nat) :=
  match c with
  | None => if prod sh =? n then Ok sh else Err ValueError
  | Some _ =>
      if ax <? length sh then
        let others := prod (firstn ax sh) * prod (skipn (S ax) sh) in
        if others =? 0 then Err ValueError
        else if n mod others =? 0 then Ok (upd_nth ax (n / others) sh) else Err ValueError
      else Err IndexError
  end.

(* np.moveaxis(Q_rec, -1, 0), as the C-ordered contents *)
Definition move_last (a : nd A) : nd A :=
  let m := last (shape a) 0 in
  let sp := removelast (shape a) in
  Nd (m :: sp) (concat (map (fun k => map (fun g => nth (g * m + k) (flat a) zero) (seq 0 (prod sp))) (seq 0 m))).

(* 490-529: the array that one process hands to npy_save (axis = max_axis + 1); coeffs.shape[1] of a one-dimensional array raises *)
Definition unmoved (phi a mean : nd A) (ax : nat) (tsel : time_sel) (c : comm) : res (nd A) :=
  match nth_error (shape a) 1 with
  | None => Err IndexError
  | Some nt =>
      do t <- resolve_time nt tsel;
      do phi' <- distribute_dimension phi ax c;
      do mean' <- distribute_dimension mean ax c;
      do q <- match length (shape a) with
              | 2 => rec_op phi' a mean' t
              | 3 => rec_conv phi' a mean' t
              | _ => Err ValueError
              end;
      do sh <- set_shape (shape mean ++ [match t with Ints l => length l | Str _ => 0 end]) ax c (length (flat q));
      Ok (Nd sh (flat q))
  end.
Definition local_rec (phi a mean : nd A) (ax : nat) (tsel : time_sel) (c : comm) : res (nd A) :=
  do u <- unmoved phi a mean ax tsel c; Ok (move_last u).

(* ---- memory order: np.moveaxis returns a view, so np.save (parallel.py:250) sees the strides ---- *)
(* strides, in elements, of a C-ordered array *)
Fixpoint c_strides (sh : list nat) : list nat :=
  match sh with [] => [] | _ :: r => prod r :: c_strides r end.
(* numpy's contiguity flags: axes of size one are skipped; e is the stride expected for the next axis *)
Fixpoint contig (e : nat) (axes : list (nat * nat)) : bool :=
  match axes with
  | [] => true
  | (d, s) :: r => if d =? 1 then contig e r else (s =? e) && contig (e * d) r
  end.
Definition f_contiguous (sh st : list nat) : bool := (prod sh =? 0) || contig 1 (combine sh st).
Definition c_contiguous (sh st : list nat) : bool := (prod sh =? 0) || contig 1 (rev (combine sh st)).
(* shape and strides of np.moveaxis(a, -1, 0) for a C-ordered array of shape sp ++ [m] *)
Definition moved_shape (m : nat) (sp : list nat) : list nat := m :: sp.
Definition moved_strides (m : nat) (sp : list nat) : list nat := 1 :: map (fun s => s * m) (c_strides sp).

Context {B : Type}.
Variable enc : A -> list B.
Variable hdr : bool -> list nat -> list B.   (* .npy header; first argument: fortran_order *)
(* np.save(filename, np.moveaxis(u, -1, 0)) (numpy/lib/format.py: header_data_from_array_1_0 and write_array): C order when the
   array is C-contiguous; else, when it is Fortran-contiguous, the flag is set and the buffer is written as it lies in memory
   (which is the C-ordered buffer of u); else C order *)
Definition np_save_moved (u : nd A) : list B :=
  let m := last (shape u) 0 in
  let sp := removelast (shape u) in
  let sh := moved_shape m sp in
  let st := moved_strides m sp in
  if negb (c_contiguous sh st) && f_contiguous sh st
  then hdr true sh ++ concat (map enc (flat u))
  else hdr false sh ++ concat (map enc (flat (move_last u))).
End Rec.

(* np.load of a file with the given flag (numpy/lib/format.py read_array): with fortran_order the data are reshaped to the reversed
   shape and transposed, so entry [i0,i1,..] is at position i0 + d0*(i1 + d1*(..)) *)
Fixpoint f_position (sh idx : list nat) : nat :=
  match sh, idx with d :: sh', i :: idx' => i + d * f_position sh' idx' | _, _ => 0 end.
