(* Shapes met by compute_coeffs_conv, /repo/pyspod/spod/utils.py 284-296, 322-327, 349-394, 400-409.
   An array is represented by its shape only. One rank: xsize entries held. *)
From Verif Require Import Base_List.
Set Implicit Arguments.
(* np.squeeze: axes of length 1 are removed *)
Definition squeeze (sh : list nat) : list nat := filter (fun d => negb (d =? 1)) sh.
(* a.T *)
Definition transpose (sh : list nat) : list nat := rev sh.
(* two axes with the same einsum label: equal lengths, or one of them 1 *)
Definition bcast (a b : nat) : res nat :=
  if a =? b then Ok a else if a =? 1 then Ok b else if b =? 1 then Ok a else Err ValueError.
(* np.einsum('ij,kji->ik', x, p) *)
Definition einsum_ij_kji (x p : list nat) : res (list nat) :=
  match x, p with
  | [xi; xj], [pk; pj; pi] => do i <- bcast xi pi; do j <- bcast xj pj; Ok [i; pk]
  | _, _ => Err ValueError   (* operand has another number of dimensions than its labels *)
  end.
(* target[...] = value *)
Definition assign (target value : list nat) : res unit :=
  if (length target =? length value)
     && forallb (fun tv => (snd tv =? fst tv) || (snd tv =? 1)) (combine target value)
  then Ok tt else Err ValueError.
Definition size_of (sh : list nat) : nat := fold_right Nat.mul 1 sh.
(* a.shape = sh *)
Definition set_shape (old new : list nat) : res unit := if size_of old =? size_of new then Ok tt else Err ValueError.
(* one pass through the function for nt >= 1 snapshots: freq_idx has n_idx entries, all < n_freq *)
Definition conv_shapes (n_freq n_freq_r n_idx xsize nm : nat) (xshape : list nat) : res unit :=
  let phir := [n_freq; xsize; nm] in                                    (* 322 *)
  let p_tmp := transpose (squeeze phir) in                              (* 383 *)
  do x_tmp <- (match squeeze [xsize; 1] with                            (* 384; weights are [xsize,1], Q_blk [n_idx,xsize] *)
               | [] => Ok [n_idx; xsize]
               | d :: _ => do j <- bcast xsize d; Ok [n_idx; j] end);
  do v <- einsum_ij_kji x_tmp p_tmp;
  do _ <- assign [n_freq_r; nm] v;                                      (* 294, 392 *)
  set_shape phir (xshape ++ [n_freq_r; nm]).                            (* 408 *)
