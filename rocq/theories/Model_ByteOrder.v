(* Byte order in allreduce and the parallel npy_save: /repo/pyspod/utils/parallel.py:161-170, 186-191, 213-226.
   An array is the byte order of its dtype and its numbers, each a list of bytes as they lie in memory (a complex number is
   two of them). `dec` is the value of a number in the byte order of the machine. Both functions are modelled for the values
   only; where the bytes go in the file is Model_Parallel.v (C04), when the processes meet is Model_Spmd.v (C139). *)
From Verif Require Import Base_List Model_Stat.
Inductive byteorder := Native | Swapped.
Section Bytes.
Context {B V : Type}.
Variable dec : list B -> V.
Variable add : V -> V -> V.
Record array := Array { order : byteorder; numbers : list (list B) }.
(* what numpy makes of the numbers: it reverses the bytes of a swapped dtype *)
Definition values (a : array) : list V :=
  map (fun b => dec (match order a with Native => b | Swapped => rev b end)) (numbers a).
(* 164, 190: data.view(data.dtype.newbyteorder('=')): another dtype for the same bytes *)
Definition view_native (a : array) : array := Array Native (numbers a).
(* 165-167: zeros_like, Allreduce with MPI.SUM; MPI chooses the tree; the result is in the machine's order *)
Fixpoint reduced (locs : nat -> array) (t : rtree nat) : list V :=
  match t with
  | Leaf r => values (view_native (locs r))
  | Node l r => map (fun p => add (fst p) (snd p)) (combine (reduced locs l) (reduced locs r))
  end.
(* 162-170: on rank r; without a communicator the argument itself *)
Inductive communicator := NoComm | Comm (t : rtree nat).
Definition allreduce (c : communicator) (locs : nat -> array) (r : nat) : list V :=
  match c with NoComm => values (locs r) | Comm t => reduced locs t end.
(* 190, 213-226, 243 and 250: the byte order in the header and the numbers in the file, size pieces one after another along
   the axis (C04); np.save without a communicator writes the array's own byte order into the header *)
Definition saved (c : option nat) (locs : nat -> array) : array :=
  match c with
  | None => Array (order (locs 0)) (numbers (locs 0))
  | Some size => Array (order (view_native (locs 0))) (flat_map (fun r => numbers (view_native (locs r))) (seq 0 size))
  end.
End Bytes.
