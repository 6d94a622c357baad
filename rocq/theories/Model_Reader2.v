(* Model of the file-based readers reader_2stage and reader_mat,
   /repo/pyspod/utils/reader.py:165-462 and 472-755. *)
From Verif Require Import Base_List Model_Parallel.
Set Implicit Arguments.

(* buffer[off:off+len(msg)] = msg on a flat buffer (a received message) *)
Definition put {A} (l : list A) (off : nat) (msg : list A) : list A :=
  firstn off l ++ msg ++ skipn (off + length msg) l.

(* ---------- redistribution by point-to-point messages, lines 286-333 (592-640 in reader_mat) ---------- *)
Section Redistribute.
Context {A : Type}.
Variable zero : A.
Variables (size nreaders nxyz nv : nat).  (* ranks, readers, flattened space, variables *)
Variable mpi_version : nat.
(* input q = the rows rank q has read (each of nxyz*nv entries, space-major, variable-minor) *)
Variable input : nat -> list (list A).

(* lines 310-316: s_msgs[irank] = input_data[:, s:s+n, :] *)
Definition message (src dst : nat) : list A :=
  let '(n, s) := blockdist nxyz size dst in
  concat (map (window (s * nv) (n * nv)) (input src)).

(* lines 310-313: offset[irank+1] = offset[irank] + nt(irank) *)
Definition offset (m : nat) (irank : nat) : nat :=
  sum (map (fun q => fst (blockdist m nreaders q)) (seq 0 irank)).

(* lines 321-329 on rank dst: receive from source q lands at data[offset[q]:]; `order` is the order in
   which the messages arrive.  m = te - ts. *)
Definition receive_all (m dst : nat) (order : list nat) : list A :=
  let n := fst (blockdist nxyz size dst) in
  fold_left (fun data q => put data (offset m q * (n * nv)) (message q dst))
            order (repeat zero (m * (n * nv))).

(* lines 296-297: choice of the padded path *)
Definition max_time (m : nat) : nat :=
  fold_right Nat.max 0 (map (fun q => fst (blockdist m nreaders q)) (seq 0 size)).
Definition use_padding (m : nat) : bool :=
  negb ((4 <=? mpi_version) ||
        (Z.of_nat (max_time m * size * fst (blockdist nxyz size 0) * nv) <? 2147483647)%Z).

(* the padded path (lines 336-374) executes `t_waitall += ...` (line 363) without a previous
   assignment in the loop iteration of the last rank: UnboundLocalError *)
Definition redistribute (m dst : nat) (order : list nat) : res (list A) :=
  if use_padding m then Err UnboundLocalError else Ok (receive_all m dst order).
End Redistribute.

(* ---------- netCDF files ---------- *)
Record ncfile (A : Type) := NcFile {
  nc_labels : list Z;                    (* the time coordinate *)
  nc_vars : list (list (list A)) }.      (* variable -> time -> flattened space *)

(* d.sel({time: slice(lo, hi)}) (line 275): both ends included.  pandas takes the rows from the first
   occurrence of lo to the last occurrence of hi; the occurrences of each of the two labels must be
   contiguous (they always are on a sorted coordinate), otherwise KeyError.  Labels are numbers
   (decode_times=False), NaN labels are not modelled. *)
Fixpoint index_of (x : Z) (l : list Z) : nat :=
  match l with [] => 0 | y :: l' => if (x =? y)%Z then 0 else S (index_of x l') end.
Definition last_index_of (x : Z) (l : list Z) : nat := length l - 1 - index_of x (rev l).
Definition contiguous (x : Z) (l : list Z) : bool :=
  forallb (fun i => (nth i l 0 =? x)%Z) (seq (index_of x l) (S (last_index_of x l) - index_of x l)).
Definition sel (labels : list Z) (lo hi : Z) : res (list nat) :=
  if contiguous lo labels && contiguous hi labels
  then Ok (seq (index_of lo labels) (S (last_index_of hi labels) - index_of lo labels))
  else Err KeyError.

Section NetCDF.
Context {A : Type}.
Variable zero : A.

(* lines 277-280: input_data[.., x, idx] = vals[x] for every variable idx: one row of the buffer *)
Definition interleave (nxyz : nat) (vals : list (list A)) : list A :=
  concat (map (fun x => map (fun v => nth x v zero) vals) (seq 0 nxyz)).

(* lines 268-281: the rows [a, a+cnt) of one file, selected by labels.  A number of selected rows
   different from cnt cannot be assigned (ValueError), except that a single one is broadcast. *)
Definition read_file (nxyz : nat) (f : ncfile A) (a cnt : nat) : res (list (list A)) :=
  do idx <- sel (nc_labels f) (nth a (nc_labels f) 0%Z) (nth (a + cnt - 1) (nc_labels f) 0%Z);
  let got := map (fun i => interleave nxyz (map (fun v => nth i v []) (nc_vars f))) idx in
  if length got =? cnt then Ok got
  else match got with [r] => Ok (repeat r cnt) | _ => Err ValueError end.

(* lines 211-221: file_time[f] = (nt, nt + steps): a dictionary, so a repeated name keeps its first
   place but gets the later range.  Names are numbers here. *)
Fixpoint dict_set {V} (d : list (nat * V)) (k : nat) (v : V) : list (nat * V) :=
  match d with
  | [] => [(k, v)]
  | (k', v') :: d' => if k =? k' then (k, v) :: d' else (k', v') :: dict_set d' k v
  end.
Definition steps (f : ncfile A) : nat := length (nc_labels f).
Definition file_time (fs : nat -> ncfile A) (names : list nat) : list (nat * (nat * nat)) :=
  snd (fold_left (fun '(nt, d) k => (nt + steps (fs k), dict_set d k (nt, nt + steps (fs k))))
                 names (0, [])).

(* lines 251-283: what one rank reads for the time range [js, je); the buffer has je-js rows, rows not
   read stay zero *)
Fixpoint read_loop (nxyz : nat) (fs : nat -> ncfile A) (ft : list (nat * (nat * nat)))
    (js je cum_t : nat) (acc : list (list A)) : res (list (list A)) :=
  match ft with
  | [] => Ok acc
  | (k, (v0, v1)) :: ft' =>
      if negb (cum_t =? v0) then Err AssertionError
      else
        let read_js := max cum_t js in
        let read_je := min (cum_t + (v1 - v0)) je in
        if read_js <? read_je then
          do got <- read_file nxyz (fs k) (read_js - cum_t) (read_je - read_js);
          read_loop nxyz fs ft' js je (cum_t + (v1 - v0)) (acc ++ got)
        else read_loop nxyz fs ft' js je (cum_t + (v1 - v0)) acc
  end.
Definition read_rank (nxyz nv : nat) (fs : nat -> ncfile A) (names : list nat) (js je : nat)
  : res (list (list A)) :=
  do got <- read_loop nxyz fs (file_time fs names) js je 0 [];
  Ok (got ++ repeat (repeat zero (nxyz * nv)) ((je - js) - length got)).

(* lines 236-333 for all ranks: every rank reads its time range (an exception on any rank aborts the
   collective operation; the first one is reported), then messages are exchanged; result for rank dst *)
Fixpoint all_ok {X} (l : list (res X)) : res (list X) :=
  match l with
  | [] => Ok []
  | r :: l' => do x <- r; do xs <- all_ok l'; Ok (x :: xs)
  end.
(* line 178 *)
Definition nreaders_of (nreaders : option nat) (size : nat) : nat :=
  match nreaders with None => size | Some 0 => size | Some n => min n size end.
Definition get_data_for_time2 (size nreaders nxyz nv mpi_version : nat) (fs : nat -> ncfile A)
    (names : list nat) (ts te dst : nat) (order : list nat) : res (list A) :=
  do inputs <- all_ok (map (fun q => let '(n, s) := blockdist (te - ts) nreaders q in
                                     read_rank nxyz nv fs names (ts + s) (ts + s + n)) (seq 0 size));
  redistribute zero size nreaders nxyz nv mpi_version (fun q => nth q inputs []) (te - ts) dst order.
End NetCDF.

(* ---------- chunked store, lines 376-414 (get_data without ts) ---------- *)
Record block (A : Type) := Block { b_s : nat; b_e : nat; b_v : list A }.
Arguments Block {A}.

(* x chunk = the local data of chunk number chunk (get_data_for_time(t_s, t_e), lines 388-391), one
   element of the list per time step *)
Definition chunk_store {A} (nt nchunks nblks : nat) (x : nat -> list A) : list (nat * block A) :=
  concat (map (fun chunk =>
    let '(t_n, t_s) := blockdist nt nchunks chunk in
    map (fun blk =>
      let '(bn, bs) := blockdist (t_s + t_n - t_s) nblks blk in
      (chunk * nblks + blk, Block (t_s + bs) (t_s + (bs + bn)) (window bs bn (x chunk))))
      (seq 0 nblks)) (seq 0 nchunks)).

(* a C-ordered array with m rows of w entries, as the list of its rows *)
Definition chop {A} (w m : nat) (l : list A) : list (list A) :=
  map (fun t => window (t * w) w l) (seq 0 m).

(* get_data() on rank dst; orders chunk = arrival order of the messages while reading that chunk.
   nt is the number of steps counted in __init__ (lines 203-217). *)
Definition total_steps {A} (fs : nat -> ncfile A) (names : list nat) : nat :=
  fold_left (fun nt k => nt + steps (fs k)) names 0.
Definition get_data2 {A} (zero : A) (size nreaders nxyz nv mpi_version nchunks nblks : nat)
    (fs : nat -> ncfile A) (names : list nat) (dst : nat) (orders : nat -> list nat)
  : res (list (nat * block (list A))) :=
  let nt := total_steps fs names in
  let w := fst (blockdist nxyz size dst) * nv in
  do xs <- all_ok (map (fun chunk =>
             let '(t_n, t_s) := blockdist nt nchunks chunk in
             do x <- get_data_for_time2 zero size nreaders nxyz nv mpi_version fs names t_s (t_s + t_n) dst (orders chunk);
             Ok (chop w t_n x)) (seq 0 nchunks));
  Ok (chunk_store nt nchunks nblks (fun chunk => nth chunk xs [])).

(* reader.py:226-230: number of chunks chosen from the size of the data (exact arithmetic) *)
Definition auto_nchunks (nt values_per_step itemsize size : N) : N :=
  N.max 1 (N.div (nt * values_per_step * itemsize) (1024 * 1024 * 256 * size)).
(* spod/base.py:482-495: the size of a snapshot is taken from the first row of the last block *)
Definition last_block_row {A} (st : list (nat * block A)) : res A :=
  match rev st with
  | [] => Err ValueError
  | (_, b) :: _ => match b_v b with [] => Err ValueError | r :: _ => Ok r end
  end.

(* ---------- MATLAB files ---------- *)
Section Mat.
Context {A K : Type}.
Variable zero : A.
Variable leb : K -> K -> bool.        (* Python's order on file names *)
Fixpoint insert (x : K) (l : list K) : list K :=
  match l with [] => [x] | y :: l' => if leb x y then x :: l else y :: insert x l' end.
Fixpoint sort (l : list K) : list K :=
  match l with [] => [] | x :: l' => insert x (sort l') end.

(* lines 549-577: loop over the sorted files, one step per file.  content k = the data of the file, one
   flattened field per variable (its shape is (nv, x, y, z)); np.transpose(data, [1,2,3,0]).reshape(-1,nv)
   makes the variable the fastest axis.  Simplification: the isfinite assertion is not modelled. *)
Fixpoint mat_loop (nxyz : nat) (content : K -> list (list A)) (files : list K) (js je cum_t : nat) (acc : list (list A)) :=
  match files with
  | [] => acc
  | k :: files' =>
      if max cum_t js <? min (cum_t + 1) je
      then mat_loop nxyz content files' js je (cum_t + 1) (acc ++ [interleave zero nxyz (content k)])
      else mat_loop nxyz content files' js je (cum_t + 1) acc
  end.
Definition mat_rank (nxyz nv : nat) (content : K -> list (list A)) (names : list K) (js je : nat) : list (list A) :=
  let got := mat_loop nxyz content (sort names) js je 0 [] in
  got ++ repeat (repeat zero (nxyz * nv)) ((je - js) - length got).
Definition get_data_for_time_mat (size nxyz nv mpi_version : nat) (content : K -> list (list A)) (names : list K)
    (ts te dst : nat) (order : list nat) : res (list A) :=
  redistribute zero size size nxyz nv mpi_version
    (fun q => let '(n, s) := blockdist (te - ts) size q in mat_rank nxyz nv content names (ts + s) (ts + s + n))
    (te - ts) dst order.
End Mat.
