(* Which records POD accepts: shapes only. /repo/pyspod/pod/base.py 209-240 and standard.py 45-66, serial run
   (C59 covers the distribution over ranks). A record is its shape (number of snapshots first). *)
From Verif Require Import Base_List.
Set Implicit Arguments.
(* params['n_modes_save']: an integer, or left out: the float 1e10 (base.py:41) *)
Inductive modes_arg := Default | Int (k : nat).
(* base.py 217-226: shape of data[[0],...], with an axis added for one variable *)
Definition x_tmp_shape (nv xdim : nat) (shape : list nat) : list nat :=
  let x := 1 :: tl shape in
  if (nv =? 1) && negb (length x =? xdim + 2) then x ++ [1] else x.
(* 232: x_tmp[0,...,0].shape *)
Definition pod_xshape (nv xdim : nat) (shape : list nat) : res (list nat) :=
  let x := x_tmp_shape nv xdim shape in
  if length x <? 2 then Err IndexError
  else if last x 1 =? 0 then Err IndexError
  else Ok (removelast (tl x)).
(* 233-236 *)
Definition pod_check (xshape : list nat) (shapes : list (list nat)) : res nat :=
  if forallb (fun s => if list_eq_dec Nat.eq_dec (tl s) xshape then true else false) shapes
  then Ok (fold_right Nat.add 0 (map (fun s => hd 0 s) shapes)) else Err AssertionError.
Definition size_of (sh : list nat) : nat := fold_right Nat.mul 1 sh.
(* standard.py 58-66: phi is [nx*nv, nt]; phi[:,0:n_modes_save], then phi_r.shape = [*xshape, nv, n_modes_save] *)
Definition pod_save_shape (xshape : list nat) (nv nt : nat) (k : modes_arg) (npoints : nat) : res (list nat) :=
  match k with
  | Default => Err TypeError       (* slice indices must be integers *)
  | Int k => if npoints * Nat.min k nt =? size_of (xshape ++ [nv; k]) then Ok (xshape ++ [nv; k]) else Err ValueError
  end.
(* fit: shape of the saved modes, or the exception *)
Definition pod_fit_shape (nv xdim : nat) (shapes : list (list nat)) (k : modes_arg) : res (list nat) :=
  match shapes with
  | [] => Err IndexError           (* data_list[0] *)
  | first :: _ =>
      do xs <- pod_xshape nv xdim first;
      do nt <- pod_check xs shapes;
      pod_save_shape xs nv nt k (size_of (tl first))
  end.
