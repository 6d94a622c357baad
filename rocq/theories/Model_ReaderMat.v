(* utils/reader.py, class reader_mat: choice of the number of chunks and reading of the whole record in chunks. *)
From Verif Require Import Base_List Model_Parallel Model_Reader2.
Set Implicit Arguments.

(* reader.py:515-521: the number of chunks; values = np.prod(shape[1:]).
   Simplification: the sizes are computed exactly instead of in double precision. *)
Definition auto_nchunks_mat (nt values itemsize size : N) : N :=
  let nchunks := N.div (nt * values * itemsize) (1024 * 1024 * 256 * size) in   (* 518: int(...) *)
  let nchunks := N.max nchunks 1 in                                              (* 519 *)
  N.min nchunks ((nt + size - 1) / size).                                        (* 520: math.ceil(nt/comm.size) *)

(* reader.py:669-700: get_data(None).  The store is built by the same loop as in the netCDF reader (chunk_store);
   every chunk is read with get_data_for_time; nt = number of files (489). *)
Definition get_data_mat {A K} (zero : A) (leb : K -> K -> bool) (size nxyz nv mpi_version nchunks nblks : nat)
    (content : K -> list (list A)) (names : list K) (dst : nat) (orders : nat -> list nat)
  : res (list (nat * block (list A))) :=
  let nt := length names in
  let w := fst (blockdist nxyz size dst) * nv in
  do xs <- all_ok (map (fun chunk =>
             let '(t_n, t_s) := blockdist nt nchunks chunk in
             do x <- get_data_for_time_mat zero leb size nxyz nv mpi_version content names t_s (t_s + t_n) dst (orders chunk);
             Ok (chop w t_n x)) (seq 0 nchunks));
  Ok (chunk_store nt nchunks nblks (fun chunk => nth chunk xs [])).
