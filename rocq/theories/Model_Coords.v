(* Nearest grid point: /repo/pyspod/utils/postproc.py:57-85 (find_nearest_coords). Coordinates are rationals. *)
From Coq Require Import QArith Qabs.
From Verif Require Import Base_List Model_Select Model_Reader1.
Set Implicit Arguments.
Local Open Scope nat_scope.

(* np.unravel_index(p, dims), C order *)
Fixpoint unravel (dims : list nat) (p : nat) : list nat :=
  match dims with
  | [] => []
  | _ :: rest => (p / prod rest) :: unravel rest (p mod prod rest)
  end.
(* grid[i, ...] flattened: meshgrid with indexing='ij', component i, at multi-index k is x[i][k_i] *)
Definition mesh (x : list (list Q)) (i : nat) : list Q :=
  let dims := map (@length Q) x in
  map (fun p => nth (nth i (unravel dims p) 0) (nth i x []) 0%Q) (seq 0 (prod dims)).
(* 76-84: the loop body *)
Definition nearest_coord (x : list (list Q)) (i : nat) (coord : Q) : res (Q * nat) :=
  if i <? length x then
    let dims := map (@length Q) x in
    let cnt := length dims - i - 1 in
    do p <- argmin (map (fun g => Qabs (g - coord)) (mesh x i));
    Ok (nth p (mesh x i) 0%Q, nth cnt (unravel dims p) 0)
  else Err IndexError.
Fixpoint coords_loop (x : list (list Q)) (i : nat) (coords : list Q) : res (list Q * list nat) :=
  match coords with
  | [] => Ok ([], [])
  | c :: r => do v <- nearest_coord x i c; do vs <- coords_loop x (S i) r; Ok (fst v :: fst vs, snd v :: snd vs)
  end.
(* 68-75: data_space_dim is a tuple; Simplification: x is a list of one-dimensional arrays (meshgrid flattens others) *)
Definition find_nearest_coords (coords : list Q) (x : list (list Q)) (data_space_dim : list nat) : res (list Q * list nat) :=
  match x with
  | [] => Err IndexError                               (* grid[0,::] of an empty array *)
  | _ => if list_eqb (map (@length Q) x) data_space_dim then coords_loop x 0 coords else Err ValueError
  end.
