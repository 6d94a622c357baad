(* The path of the data through a batch fit, put together from the models of its parts: /repo/pyspod/spod/base.py:391-512
   (_initialize: reader, weights, feasibility, mean) and standard.py:41, 89-118, 157-187, 367-407 (blocks).  Here the part that only
   moves data; the arithmetic is in Model_PipelineNum.
   Simplification: an exception is reported for the first rank, and checks may be made in another order than in the code. *)
From Verif Require Import Base_List Model_Parallel Model_Reader1 Model_Reader2 Model_Base Model_Standard.
Local Open Scope nat_scope.
Set Implicit Arguments.

(* self.data: the array of a reader_1stage, or the dictionary of chunks of a file reader *)
Inductive held (A : Type) := Array (rows : list (list A)) | Chunks (st : list (nat * block (list A))).
Arguments Array {A}. Arguments Chunks {A}.
(* the processes: None without communicator, otherwise its size *)
Definition comms (np : option nat) : list comm :=
  match np with None => [None] | Some size => map (fun r => Some (size, r)) (seq 0 size) end.

Section Rank.
Context {A B : Type}.
Variables (cast : A -> B) (zero : B) (isreal : A -> bool).
(* base.py:397-402, 449-450, 461 with in-memory data; None.values raises *)
Definition load_array (ds : list (nd A)) (xdim nv : nat) (c : comm) : res (reader1 * held B) :=
  do rd <- reader1_init isreal ds xdim nv c;
  do d <- get_data cast zero rd None;
  match d with Some rows => Ok (rd, Array rows) | None => Err AttributeError end.
End Rank.
Section Rank2.
Context {B : Type}.
(* base.py:482-488 and standard.py:90-95: the number of entries of a snapshot on this rank *)
Definition entries (d : held B) : res nat :=
  match d with
  | Array [] => Err IndexError
  | Array (r :: _) => Ok (length r)
  | Chunks st => do r <- last_block_row st; Ok (length r)
  end.
(* base.py:437-495 *)
Definition rank_weights (one : B) (user : weights_arg B) (xshape : list nat) (nv : nat) (flattened : bool) (ax : nat) (c : comm) (d : held B) : res (list B) :=
  do m <- entries d; initialize_weights one user xshape nv flattened ax c m.
(* standard.py:160-161 *)
Definition starts (nt n_dft n_overlap nb : nat) : list nat :=
  map (fun i => Z.to_nat (Model_Base.block_offset (Z.of_nat nt) (Z.of_nat n_dft) (Z.of_nat n_overlap) (Z.of_nat i))) (seq 0 nb).
(* 163, 367-407: all blocks in order *)
Definition blocks_of (n_dft : nat) (sts : list nat) (d : held B) : res (list (list (list B))) :=
  match d with
  | Array rows => Ok (map (fun s => get_block_array rows s (s + n_dft)) sts)
  | Chunks st => run_blocks st n_dft sts
  end.
(* apply a function to every row *)
Definition map_store {V} (g : list B -> V) (st : list (nat * block (list B))) : list (nat * block V) :=
  map (fun kb => (fst kb, Block (b_s (snd kb)) (b_e (snd kb)) (map g (b_v (snd kb))))) st.
(* base.py:589-617 for either kind of data, in any monoid of rows *)
Definition mean_of {V} (vzero : V) (add : V -> V -> V) (divn : V -> nat -> V) (g : list B -> V) (nt nb : nat) (d : held B) : V :=
  match d with
  | Array rows => long_t_mean vzero add divn nt nb (map g rows)
  | Chunks st => long_t_mean_dict vzero add divn nt (map_store g st)
  end.
End Rank2.
