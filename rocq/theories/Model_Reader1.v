(* Model of reader_1stage, /repo/pyspod/utils/reader.py:20-138 (in-memory datasets). *)
From Verif Require Import Base_List Model_Parallel.
Set Implicit Arguments.

Section Reader1.
Context {A B : Type}.
Variable cast : A -> B.       (* storing into a buffer of dtype self._dtype (line 92) *)
Variable zero : B.            (* np.zeros, line 92 *)
Variable isreal : A -> bool.  (* np.isreal, line 61 *)

Record reader1 := Reader1 {
  rd_list : list (nd A); rd_nt : nat; rd_nx : nat; rd_shape : list nat; rd_xshape : list nat;
  rd_is_real : bool; rd_max_axis : nat; rd_comm : comm }.

(* rows of an array along its first axis *)
Definition rowlen {T} (a : nd T) : nat := prod (tl (shape a)).
Definition nrows {T} (a : nd T) : nat := hd 0 (shape a).
Definition rows {T} (a : nd T) : list (list T) :=
  map (fun t => window (t * rowlen a) (rowlen a) (flat a)) (seq 0 (nrows a)).

Fixpoint list_eqb (l l' : list nat) : bool :=
  match l, l' with
  | [], [] => true
  | x :: l, y :: l' => (x =? y) && list_eqb l l'
  | _, _ => false
  end.

(* lines 36-42: every dataset has the spatial shape of the previous one; nt is the sum *)
Fixpoint check_shapes (prev : option (list nat)) (ds : list (nd A)) (nt : nat) : res nat :=
  match ds with
  | [] => Ok nt
  | d :: ds' =>
      match prev with
      | Some sp => if list_eqb (tl (shape d)) sp
                   then check_shapes (Some (tl (shape d))) ds' (nt + nrows d)
                   else Err AssertionError
      | None => check_shapes (Some (tl (shape d))) ds' (nt + nrows d)
      end
  end.

(* lines 21-63.  x_tmp has shape 1 :: tl shape, plus a trailing 1 when nv = 1 and the number
   of dimensions is not xdim + 2 (lines 52-54).  xshape is that of x_tmp[0,...,0]. *)
Definition reader1_init (ds : list (nd A)) (xdim nv : nat) (c : comm) : res reader1 :=
  do nt <- check_shapes None ds 0;
  match ds with
  | [] => Err IndexError                        (* data_list[0] *)
  | d0 :: _ =>
      if nrows d0 =? 0 then Err IndexError      (* data[[0],...] *)
      else
        let sp := tl (shape d0) in
        let x_shape := if (nv =? 1) && negb (S (length sp) =? xdim + 2) then sp ++ [1] else sp in
        if (length x_shape =? 0) || (last x_shape 0 =? 0) then Err IndexError (* x_tmp[0,...,0] *)
        else
          do ax <- argmax x_shape;
          Ok (Reader1 ds nt (prod (removelast x_shape)) (1 :: x_shape) (removelast x_shape)
                      (forallb isreal (hd [] (rows d0))) ax c)
  end.

(* data[cum:cum+k, ..] = src on a buffer of `length buf` rows: numpy copies when the number of
   rows agrees, broadcasts a single row, and raises ValueError otherwise *)
Definition assign_rows (buf : list (list B)) (cum k : nat) (src : list (list B)) : res (list (list B)) :=
  let k' := min k (length buf - cum) in
  if length src =? k' then Ok (firstn cum buf ++ src ++ skipn (cum + k') buf)
  else match src with
       | [r] => Ok (firstn cum buf ++ repeat r k' ++ skipn (cum + k') buf)
       | _ => Err ValueError
       end.

(* lines 71-106 get_data_for_time(ts, te): loop over the datasets with tmp_nt, cum_read, data.
   The buffer is represented by its rows (te-ts of them); the trailing axis of length one added
   on lines 89-91, 96-97 does not change the rows. *)
Fixpoint get_loop (ds : list (nd A)) (c : comm) (ts te tmp_nt cum : nat)
    (data : option (list (list B))) : res (option (list (list B))) :=
  match ds with
  | [] => Ok data
  | d :: ds' =>
      let js := max ts tmp_nt in
      let je := min te (tmp_nt + nrows d) in
      if js <? je then
        do (d', _, _) <- distribute_data d c;
        let buf := match data with
                   | Some b => b
                   | None => repeat (repeat zero (rowlen d')) (te - ts)
                   end in
        let src := map (map cast) (window (js - cum) (je - js) (rows d')) in
        do buf' <- assign_rows buf cum (je - js) src;
        get_loop ds' c ts te (tmp_nt + nrows d) (cum + (je - js)) (Some buf')
      else get_loop ds' c ts te (tmp_nt + nrows d) cum data
  end.

Definition get_data_for_time (r : reader1) (ts te : nat) : res (option (list (list B))) :=
  get_loop (rd_list r) (rd_comm r) ts te 0 0 None.

(* lines 65-69 *)
Definition get_data (r : reader1) (ts : option nat) : res (option (list (list B))) :=
  match ts with
  | None => get_data_for_time r 0 (rd_nt r)
  | Some t => get_data_for_time r t (t + 1)
  end.

(* how the streaming fit consumes the reader (spod/streaming.py:101-110): snapshot 0 is read
   outside the try block; any exception (also from reshaping None) ends the stream.
   `fuel` bounds the number of snapshots requested. *)
Fixpoint stream_from (r : reader1) (t fuel : nat) : list (list B) :=
  match fuel with
  | 0 => []
  | S f => match get_data r (Some t) with
           | Ok (Some [row]) => row :: stream_from r (S t) f
           | _ => []
           end
  end.
End Reader1.
