(* Model of /repo/pyspod/utils/parallel.py (array distribution and parallel .npy files). *)
From Verif Require Import Base_List.
Set Implicit Arguments.

(* numpy nd-array: shape and C-ordered flat contents.
   Simplification: dtype and memory order are not represented (parallel.py:205
   makes the array C-contiguous before it is written). *)
Record nd (A : Type) := Nd { shape : list nat; flat : list A }.
Arguments Nd {A}.

(* an MPI communicator seen from one process: None, or (size, rank) *)
Definition comm := option (nat * nat).

(* parallel.py:154-158  _blockdist(N, size, rank) *)
Definition blockdist (N size rank : nat) : nat * nat :=
  let q := N / size in
  let r := N mod size in
  let n := q + (if rank <? r then 1 else 0) in
  let s := rank * q + min rank r in
  if rank <? size then (n, s) else (0, 0).

(* basic indexing data[:, .., s:s+n, .., :] on axis `ax` of a C-ordered array
   (parallel.py:97-99, 123-125, 145-147): the array is seen as (outer, N, inner).
   Simplification: the returned array is a copy, not a view. *)
Definition slice_flat {A} (outer N inner s n : nat) (l : list A) : list A :=
  concat (map (fun o => window ((o * N + s) * inner) (n * inner) l) (seq 0 outer)).

Definition slice_axis {A} (ax s n : nat) (a : nd A) : nd A :=
  let outer := prod (firstn ax (shape a)) in
  let N := nth ax (shape a) 0 in
  let inner := prod (skipn (S ax) (shape a)) in
  Nd (upd_nth ax n (shape a)) (slice_flat outer N inner s n (flat a)).

(* parallel.py:132-151  distribute_dimension(data, max_axis, comm);
   shape[max_axis] raises IndexError when the axis does not exist (only evaluated with a comm) *)
Definition distribute_dimension {A} (a : nd A) (ax : nat) (c : comm) : res (nd A) :=
  match c with
  | None => Ok a
  | Some (size, rank) =>
      if ax <? length (shape a) then
        let '(n, s) := blockdist (nth ax (shape a) 0) size rank in
        Ok (slice_axis ax s n a)
      else Err IndexError
  end.

(* np.argmax of a tuple: first index of the maximum; ValueError on an empty tuple *)
Fixpoint argmax_from (i best bi : nat) (l : list nat) : nat :=
  match l with
  | [] => bi
  | x :: l' => if best <? x then argmax_from (S i) x i l' else argmax_from (S i) best bi l'
  end.
Definition argmax (l : list nat) : res nat :=
  match l with [] => Err ValueError | x :: l' => Ok (argmax_from 1 x 0 l') end.

(* parallel.py:83-103  distribute(data, comm) : data, max_axis, global_shape *)
Definition distribute {A} (a : nd A) (c : comm) : res (nd A * nat * list nat) :=
  do ax <- argmax (shape a);
  do a' <- distribute_dimension a ax c;
  Ok (a', ax, shape a).

(* parallel.py:106-129  distribute_data(data, comm); data[0,...] raises IndexError when
   the array has no first axis or no first row *)
Definition distribute_data {A} (a : nd A) (c : comm) : res (nd A * nat * list nat) :=
  match shape a with
  | [] => Err IndexError
  | 0 :: _ => Err IndexError
  | _ :: sp =>
      do ax <- argmax sp;
      do a' <- distribute_dimension a (S ax) c;
      Ok (a', ax, sp)
  end.

(* ---------- parallel .npy files ---------- *)
Section Npy.
Context {A B : Type}.           (* elements, bytes *)
Variable enc : A -> list B.     (* bytes of one element *)
Variable hdr : list nat -> list B.  (* .npy magic + header for a shape (np.lib.format) *)

Definition file := nat -> option B.   (* byte at a position, None beyond what was written *)
Definition empty_file : file := fun _ => None.
Definition write1 (f : file) (e : nat * B) : file :=
  fun p => if p =? fst e then Some (snd e) else f p.
Definition run_writes (es : list (nat * B)) (f : file) : file := fold_left write1 es f.

(* positions (in elements of the global array) covered by the subarray filetype
   sizes = global shape, subsizes = local shape, starts = displacement on the axis
   (parallel.py:231-243), in the order in which local elements are written *)
Definition subarray_pos (outer G inner displ n : nat) : list nat :=
  concat (map (fun o => seq ((o * G + displ) * inner) (n * inner)) (seq 0 outer)).

(* the byte writes of one rank: its elements in C order at offset + es*position
   (parallel.py:243-246) *)
Definition bytes_at (off es : nat) (p : nat) (a : A) : list (nat * B) :=
  combine (seq (off + p * es) es) (enc a).

Definition rank_writes (ax off es G displ : nat) (a : nd A) : list (nat * B) :=
  let outer := prod (firstn ax (shape a)) in
  let inner := prod (skipn (S ax) (shape a)) in
  let n := nth ax (shape a) 0 in
  if 0 <? n then
    concat (map (fun pa => bytes_at off es (fst pa) (snd pa))
                (combine (subarray_pos outer G inner displ n) (flat a)))
  else [] (* Create_contiguous(0): nothing is written *).

(* parallel.py:186-248  npy_save on a communicator: `locs` are the arrays of ranks 0,1,...
   gcount = Allreduce(SUM), gdispl = Scan(SUM) - own count; rank 0 writes the header for
   the global shape (its local shape with the axis replaced by gcount) and broadcasts its
   length.  Result: all byte writes issued after truncation.  `es` is the element size. *)
Definition npy_save_writes (es ax : nat) (locs : list (nd A)) : list (nat * B) :=
  let counts := map (fun a => nth ax (shape a) 0) locs in
  let gcount := sum counts in
  let gdispl := displs 0 counts in
  let gshape := match locs with a0 :: _ => upd_nth ax gcount (shape a0) | [] => [] end in
  let header := hdr gshape in
  let offset := length header in
  combine (seq 0 offset) header ++
  concat (map (fun da => rank_writes ax offset es gcount (fst da) (snd da)) (combine gdispl locs)).

(* file.Set_size(0) (line 212) and then the writes in the order `order` they reach the file *)
Definition npy_save_file (order : list (nat * B)) (before : file) : file :=
  run_writes order ((fun _ => empty_file) before).

(* np.save(filename, array), line 250: header then C-ordered elements *)
Definition np_save (a : nd A) : list B := hdr (shape a) ++ concat (map enc (flat a)).

(* ---------- loading ---------- *)
Variable dec : list B -> option A.
Variable parse : file -> option (list nat * nat). (* shape and header length *)

(* file.Read_all of es bytes at a position *)
Fixpoint read_bytes (f : file) (p es : nat) : option (list B) :=
  match es with
  | 0 => Some []
  | S k => match f p, read_bytes f (S p) k with
           | Some b, Some bs => Some (b :: bs) | _, _ => None end
  end.
Definition read_elem (f : file) (off es p : nat) : option A :=
  match read_bytes f (off + p * es) es with Some bs => dec bs | None => None end.

(* parallel.py:284-288: `count // size + count % size > rank` is a comparison, so the
   default count is the integer value of a Boolean *)
Definition load_count (N : nat) (count : option nat) (size rank : nat) : nat :=
  match count with
  | Some c => c
  | None => if rank <? N / size + N mod size then 1 else 0
  end.

(* parallel.py:253-321 npy_load on a communicator, for rank `rank`; counts are the values of
   `count` on all ranks (Scan on line 291 sums those of ranks <= rank).  Entries that cannot be
   read are None. *)
Definition npy_load (f : file) (es ax size rank : nat) (count : nat -> option nat)
  : option (nd (option A)) :=
  match parse f with
  | None => None
  | Some (sizes, off) =>
      let N := nth ax sizes 0 in
      let cnt r := load_count N (count r) size r in
      let c := cnt rank in
      let displ := sum (map cnt (seq 0 (S rank))) - c in
      let outer := prod (firstn ax sizes) in
      let inner := prod (skipn (S ax) sizes) in
      Some (Nd (upd_nth ax c sizes)
               (map (read_elem f off es)
                    (if 0 <? c then subarray_pos outer N inner displ c else [])))
  end.
End Npy.

(* ---------- create_subcomm, parallel.py:49-65 ---------- *)
(* den is the first of 3,4,2,1 dividing size; (a,b) is what MPI.Compute_dims returned *)
Definition subcomm_den (size : nat) : nat :=
  if size mod 3 =? 0 then 3 else if size mod 4 =? 0 then 4 else if size mod 2 =? 0 then 2 else 1.
Definition subcomm_dims (size : nat) (compute_dims : nat -> nat * nat) : nat * nat :=
  let den := subcomm_den size in
  let '(a, b) := compute_dims (size / den) in
  (a, b * den).
(* cart.Get_coords of a row-major cartesian grid (MPI standard) and Sub([False,True]) *)
Definition subcomm_of (dims : nat * nat) (rank : nat) : nat * nat :=
  (rank / snd dims, rank mod snd dims).
