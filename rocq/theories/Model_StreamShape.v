(* Array shapes in one streaming basis update and at the end of the stream,
   /repo/pyspod/spod/streaming.py:58-65, 100-110, 157-207. Values are not modelled here (see
   Model_StreamNum.v); only whether numpy accepts the operands. *)
From Verif Require Import Base_List.
Definition shape := list nat.
(* np.squeeze *)
Definition squeeze (s : shape) : shape := filter (fun d => negb (d =? 1)) s.
(* np.diag: 1-d to 2-d, 2-d to its diagonal, anything else raises *)
Definition diag_shape (s : shape) : res shape :=
  match s with
  | [a] => Ok [a; a]
  | [a; b] => Ok [Nat.min a b]
  | _ => Err ValueError
  end.
(* transpose of a 1-d array is itself *)
Definition transpose (s : shape) : shape := rev s.
(* np.matmul for operands of dimension at most two *)
Definition matmul_shape (s t : shape) : res shape :=
  match s, t with
  | [a; b], [c; d] => if b =? c then Ok [a; d] else Err ValueError
  | [b], [c; d] => if b =? c then Ok [d] else Err ValueError
  | [a; b], [c] => if b =? c then Ok [a] else Err ValueError
  | [b], [c] => if b =? c then Ok [] else Err ValueError
  | _, _ => Err ValueError
  end.
(* subtraction/division broadcast, equal number of dimensions at most two *)
Definition bc1 (a b : nat) : option nat := if a =? b then Some a else if a =? 1 then Some b else if b =? 1 then Some a else None.
Definition broadcast (s t : shape) : res shape :=
  match s, t with
  | [a; b], [c; d] => match bc1 a c, bc1 b d with Some x, Some y => Ok [x; y] | _, _ => Err ValueError end
  | [a; b], [d] => match bc1 b d with Some y => Ok [a; y] | None => Err ValueError end
  | [a; b], [] => Ok [a; b]
  | _, _ => Err ShapeError
  end.
Definition hstack2 (s t : shape) : res shape :=
  match s, t with
  | [a; b], [c; d] => if a =? c then Ok [a; b + d] else Err ValueError
  | [a], [b] => Ok [a + b]
  | _, _ => Err ValueError
  end.
Definition vstack2 (s t : shape) : res shape :=
  match s, t with
  | [a; b], [c; d] => if b =? d then Ok [a + c; b] else Err ValueError
  | _, _ => Err ValueError
  end.
(* 157-207 with flat local entries and k modes; returns the shape of the new basis *)
Definition update_shapes (flat k : nat) : res shape :=
  let x := [flat; 1] in                       (* 160: x_hat[:,[f]] * sqrt_w *)
  let U := squeeze [flat; k] in               (* 163 *)
  do Sm <- diag_shape (squeeze [k]);           (* 166 *)
  do Ux <- matmul_shape (transpose U) x;      (* 169-170 *)
  do UUx <- matmul_shape U Ux;                (* 173 *)
  do up <- broadcast x UUx;
  do ab <- matmul_shape (transpose up) up;    (* 176-178 *)
  do un <- broadcast up ab;                   (* 181 *)
  do K1 <- hstack2 Sm Ux;                      (* 185 *)
  do K2 <- hstack2 [1; k] ab;                 (* 188: z is [1,k] *)
  do K <- vstack2 K1 K2;                      (* 189 *)
  do Ut <- hstack2 U un;                      (* 201 *)
  do Un <- matmul_shape Ut [nth 0 K 0; nth 0 K 0];  (* 202: Up is square *)
  (* 206: u_hat[:,f,:] = U[:,0:k] *)
  match Un with
  | [a; b] => if (a =? flat) && (Nat.min k b =? k) then Ok [a; k] else Err ValueError
  | _ => Err IndexError
  end.
(* 100-110: at the end of an in-memory stream the reader returns None; reshaping None to
   (flat,1) raises inside the try block - and ends the loop - unless flat is 1; then the mean update
   adds None to numbers, outside the try block *)
Definition end_of_stream (flat : nat) : res unit :=
  if flat =? 1 then Err TypeError else Ok tt.
(* a stream in which `blocks` transforms are completed (n_freq >= 1) *)
Definition fit_shapes (flat k blocks : nat) : res unit :=
  do _ <- (if blocks =? 0 then Ok [flat; k] else update_shapes flat k);
  end_of_stream flat.
