(* Model of the data movement of /repo/pyspod/spod/standard.py: blocks from the chunked store,
   Fourier block files, per-mode files, array shapes of the spectral matrix. *)
From Coq Require Import String.
From Verif Require Import Base_List Model_Parallel Model_Reader2 Model_Base.
Local Open Scope nat_scope.
Set Implicit Arguments.

(* ---------- standard.py:367-407 _get_block, chunked store ---------- *)
(* 372-391: the loop over the store; out = rows of Q_blk filled so far (cnt of them) *)
Fixpoint block_loop {A} (st : list (nat * block A)) (end_ : nat) (cnt bstart : nat) (out : list A) : nat * list A :=
  match st with
  | [] => (cnt, out)
  | (_, v) :: st' =>
      let read_here_s := max (b_s v) bstart in
      let read_here_e := min (b_e v) end_ in
      let c := read_here_e - read_here_s in               (* a non-positive count reads nothing *)
      if 0 <? c
      then block_loop st' end_ (cnt + c) (bstart + c) (out ++ window (read_here_s - b_s v) c (b_v v))
      else block_loop st' end_ cnt bstart out
  end.
(* 396-404: chunks that end before start are deleted *)
Definition drop_old {A} (start : nat) (st : list (nat * block A)) : list (nat * block A) :=
  filter (fun kb => negb (b_e (snd kb) <? start)) st.
(* returns the rows and the store left *)
Definition get_block_store {A} (st : list (nat * block A)) (start end_ : nat) : res (list A * list (nat * block A)) :=
  match st with
  | [] => Err IndexError                                   (* list(self.data)[-1] *)
  | _ =>
      let '(cnt, out) := block_loop st end_ 0 start [] in
      if negb (cnt =? end_ - start) then Err AssertionError
      else match b_v (snd (last st (0, Block 0 0 []))) with
           | [] => Err IndexError                          (* last_val[0,...] at 403 *)
           | _ => Ok (out, drop_old start st)
           end
  end.
(* standard.py:107-113: the blocks in order, every block from the store left by the previous one *)
Fixpoint run_blocks {A} (st : list (nat * block A)) (n_dft : nat) (starts : list nat) : res (list (list A)) :=
  match starts with
  | [] => Ok []
  | s :: starts' =>
      do r <- get_block_store st s (s + n_dft);
      do rs <- run_blocks (snd r) n_dft starts';
      Ok (fst r :: rs)
  end.

(* ---------- standard.py:257-353 per-mode files ---------- *)
Section PerMode.
Context {A : Type}.
Variable zero : A.
Variables (size n_freq n_modes : nat).
(* phi r f m: the local piece of mode m of frequency f on rank r *)
Variable phi : nat -> nat -> nat -> list A.
Definition total_files : nat := n_freq * n_modes.
(* 287, 291-292: phi_dict[0][0].shape[0] of every rank and their maximum *)
Definition counts : list nat := map (fun r => length (phi r 0 0)) (seq 0 size).
Definition phi0_max : nat := fold_right max 0 counts.
(* 296: math.ceil(total_files/comm.size) *)
Definition n_passes : nat := (total_files + size - 1) / size.
(* 297-298 *)
Definition pass_range (ipass : nat) : list nat :=
  let write_s := ipass * size in
  let write_e := min ((ipass + 1) * size) total_files in
  seq write_s (write_e - write_s).
(* 315-318: the file a rank writes in this pass: the last i of the loop for which it is the writer *)
Definition pass_write (ipass rank : nat) : option (nat * nat) :=
  fold_left (fun w i => if rank =? i mod size then Some (i / n_modes, i mod n_modes) else w) (pass_range ipass) None.
(* 312-314: zero-padded message *)
Definition padded (r f m : nat) : list A := phi r f m ++ repeat zero (phi0_max - length (phi r f m)).
(* 304-316: all messages rank src sends to rank dst, in program order over all passes; MPI does not
   let messages of one sender to one receiver overtake one another *)
Definition channel (src dst : nat) : list (list A) :=
  flat_map (fun ipass => flat_map (fun i =>
      if i mod size =? dst then [padded src (i / n_modes) (i mod n_modes)] else []) (pass_range ipass)) (seq 0 n_passes).
(* 317-318: number of receives from one source a rank posts in the passes before ipass *)
Definition receives_before (ipass rank : nat) : nat :=
  sum (map (fun p => length (filter (fun i => rank =? i mod size) (pass_range p))) (seq 0 ipass)).
(* 300, 317-319, 327: the buffer after all messages of the pass have arrived, in the given order *)
Definition buffer (ipass rank : nat) (order : list nat) : list A :=
  fold_left (fun data irank => put data (phi0_max * irank) (nth (receives_before ipass rank) (channel irank rank) []))
    order (repeat zero (phi0_max * size)).
(* 331-337: removal of the padding, in place *)
Definition unpad_step (data : list A) (irank : nat) : list A :=
  let start := irank * phi0_max in
  put data (sum (firstn irank counts)) (window start (nth irank counts 0) data).
Definition unpad (data : list A) : list A := fold_left unpad_step (seq 0 size) data.
(* 340-345: the file written in a pass: its (frequency, mode) and its contents *)
Definition pass_file (ipass rank : nat) (order : list nat) : option (nat * nat * list A) :=
  match pass_write ipass rank with
  | Some fm => Some (fm, firstn (sum counts) (unpad (buffer ipass rank order)))
  | None => None
  end.
End PerMode.

(* ---------- Fourier block files, standard.py:112-136 and base.py:837-855 ---------- *)
(* contents of a file: None = created but not (completely) written *)
Definition fs (X : Type) := string -> option (option X).
Definition fs_set {X} (m : fs X) (k : string) (v : option X) : fs X :=
  fun k' => if String.eqb k' k then Some v else m k'.
Inductive fs_op (X : Type) := Create (k : string) | Write (k : string) (x : X).
Arguments Create {X} _. Arguments Write {X} _ _.
Definition fs_step {X} (m : fs X) (o : fs_op X) : fs X :=
  match o with Create k => fs_set m k None | Write k x => fs_set m k (Some x) end.
Definition fs_run {X} (m : fs X) (os : list (fs_op X)) : fs X := fold_left fs_step os m.
(* the writing run: block by block, frequency by frequency; opening for writing truncates the file
   (parallel.py:211-212 opens with MODE_CREATE|MODE_WRONLY and sets the size to 0; numpy's save
   truncates); mid b f are the readable but incomplete contents the file passes through while the
   pieces of the ranks arrive (parallel.py:231-241), any finite list of them *)
Definition expected (n_blocks n_freq : nat) : list (nat * nat) := list_prod (seq 0 n_blocks) (seq 0 n_freq).
Definition save_one {X} (mid : nat -> nat -> list X) (qhat : nat -> nat -> X) (bf : nat * nat) : list (fs_op X) :=
  let k := block_file (fst bf) (snd bf) in
  Create k :: map (Write k) (mid (fst bf) (snd bf)) ++ [Write k (qhat (fst bf) (snd bf))].
Definition save_ops {X} (n_blocks n_freq : nat) (mid : nat -> nat -> list X) (qhat : nat -> nat -> X) : list (fs_op X) :=
  flat_map (save_one mid qhat) (expected n_blocks n_freq).
Definition exists_file {X} (m : fs X) (k : string) : bool := match m k with Some _ => true | None => false end.
(* base.py:837-855 *)
Definition are_blocks_present {X} (m : fs X) (n_blocks n_freq : nat) : bool :=
  let all_blocks_exist := fold_left (fun acc i_blk =>
    let all_freq_exist := fold_left (fun a i_freq => if exists_file m (block_file i_blk i_freq) then a + 1 else a) (seq 0 n_freq) 0 in
    if all_freq_exist =? n_freq then acc + 1 else acc) (seq 0 n_blocks) 0 in
  all_blocks_exist =? n_blocks.
(* 75-80: np.load of a file that exists but was not completely written raises *)
Definition load_blocks {X} (m : fs X) (n_blocks n_freq : nat) : res (list X) :=
  all_ok (map (fun bf => match m (block_file (fst bf) (snd bf)) with
                         | Some (Some x) => Ok x | Some None => Err ValueError | None => Err OSError end) (expected n_blocks n_freq)).
(* 58-62, 107-136: what the second run works with *)
Definition reuse_run {X} (m : fs X) (n_blocks n_freq : nat) (qhat : nat -> nat -> X) : res (list X) :=
  if are_blocks_present m n_blocks n_freq then load_blocks m n_blocks n_freq
  else Ok (map (fun bf => qhat (fst bf) (snd bf)) (expected n_blocks n_freq)).

(* 126-132: the shape given to the local array before saving: xshape (no variable axis), with -1 on the
   distributed axis when there is a communicator; n = number of local entries.
   Simplification: the other axes are assumed non-empty. *)
Definition save_shape (xshape : list nat) (ax : nat) (c : comm) (n : nat) : res (list nat) :=
  match c with
  | None => if prod xshape =? n then Ok xshape else Err ValueError
  | Some _ =>
      if ax <? length xshape then
        let others := prod (firstn ax xshape) * prod (skipn (S ax) xshape) in
        if n mod others =? 0 then Ok (upd_nth ax (n / others) xshape) else Err ValueError
      else Err IndexError
  end.
(* parallel.py:195-203: the shape written into the header *)
Definition global_shape (ax : nat) (shapes : list (list nat)) : list nat :=
  match shapes with
  | [] => []
  | sh :: _ => upd_nth ax (sum (map (fun s => nth ax s 0) shapes)) sh
  end.
(* 67-84: reload: the file is copied into an array of shape xshape, which is distributed along max_axis and
   flattened: the column of Q_hats[f] on one rank.
   Simplification: numpy would also broadcast axes of length 1. *)
Definition reload_block {A} (xshape : list nat) (ax : nat) (c : comm) (file : nd A) : res (list A) :=
  if list_eq_dec Nat.eq_dec (shape file) xshape
  then do p <- distribute_dimension file ax c; Ok (flat p)
  else Err ValueError.

(* ---------- shapes, standard.py:199-200 ---------- *)
Definition squeeze (sh : list nat) : list nat := filter (fun d => negb (d =? 1)) sh.
(* numpy broadcasting of two shapes, aligned on the right *)
Fixpoint broadcast_rev (a b : list nat) : res (list nat) :=
  match a, b with
  | [], _ => Ok b
  | _, [] => Ok a
  | x :: a', y :: b' =>
      do r <- broadcast_rev a' b';
      if x =? y then Ok (x :: r) else if x =? 1 then Ok (y :: r) else if y =? 1 then Ok (x :: r) else Err ValueError
  end.
Definition broadcast (a b : list nat) : res (list nat) := do r <- broadcast_rev (rev a) (rev b); Ok (rev r).
(* np.matmul of 1-d/2-d shapes *)
Definition matmul_shape (a b : list nat) : res (list nat) :=
  match a, b with
  | [k], [k'] => if k =? k' then Ok [] else Err ValueError
  | [k], [k'; n] => if k =? k' then Ok [n] else Err ValueError
  | [m; k], [k'] => if k =? k' then Ok [m] else Err ValueError
  | [m; k], [k'; n] => if k =? k' then Ok [m; n] else Err ValueError
  | _, _ => Err ValueError
  end.
(* shape of M[f] on a rank with xv local entries: Q_hat_f.conj().T @ (Q_hat_f * weights) *)
Definition spod_matrix_shape (xv n_blocks : nat) : res (list nat) :=
  let q := squeeze [xv; n_blocks] in
  do qw <- broadcast q [xv; 1];
  matmul_shape (rev q) qw.
