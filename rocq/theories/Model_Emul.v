(* Emulation of coefficients: /repo/pyspod/emulation/base.py:31-117 (scaler, scale_data, descale_data) and
   /repo/pyspod/emulation/neural_nets.py:91-121, 147-202 (extract_sequences, model_inference).
   Values are rationals; None is a value that is not a finite number. *)
From Coq Require Import QArith Qabs Qminmax Qround String.
From Verif Require Import Base_List Model_Select.
Set Implicit Arguments.
Local Open Scope nat_scope.

(* ---------- scaling ---------- *)
Definition qmaxl (x : Q) (l : list Q) : Q := fold_right Qmax x l.
Definition qminl (x : Q) (l : list Q) : Q := fold_right Qmin x l.
(* max(abs(amax(row)), abs(amin(row))); amax of nothing raises *)
Definition abs_max (row : list Q) : res Q :=
  match row with [] => Err ValueError | x :: r => Ok (Qmax (Qabs (qmaxl x r)) (Qabs (qminl x r))) end.
Fixpoint all_res {A B} (f : A -> res B) (l : list A) : res (list B) :=
  match l with [] => Ok [] | a :: r => do b <- f a; do bs <- all_res f r; Ok (b :: bs) end.
(* one real component of the data, rows = coefficients, columns = time.
   39-42 (amax*10, amin*10), 44-47, 49-50 *)
Definition scaler_part (normalization : string) (data : list (list Q)) : res (list Q) :=
  if String.eqb (lower normalization) "localmax" then
    all_res (fun row => do m <- abs_max (map (fun x => x * 10)%Q row); Ok m) data
  else if String.eqb (lower normalization) "globalmax" then
    do m <- (do his <- all_res (fun row => match row with [] => Err ValueError | x :: r => Ok (qmaxl x r) end) data;
             do los <- all_res (fun row => match row with [] => Err ValueError | x :: r => Ok (qminl x r) end) data;
             match his, los with
             | h :: hs, l :: ls => Ok (Qmax (Qabs (qmaxl h hs)) (Qabs (qminl l ls)))
             | _, _ => Err ValueError end);
    Ok (map (fun _ => m) data)
  else Ok (map (fun _ => 1%Q) data).
(* 31-75: real data, or the two components of complex data; the test for 'complex' does not ignore case *)
Definition scaler_real (data_type normalization : string) (data : list (list Q)) : res (list Q) :=
  if String.eqb (lower data_type) "real" then scaler_part normalization data else Err TypeError.
Definition scaler_complex (data_type normalization : string) (re im : list (list Q)) : res (list Q * list Q) :=
  if String.eqb data_type "complex" then
    do a <- scaler_part normalization re; do b <- scaler_part normalization im; Ok (a, b)
  else Err TypeError.

(* numpy division *)
Definition ndiv (x v : Q) : option Q := if Qeq_bool v 0 then None else Some (x / v)%Q.
Definition nmul (x : option Q) (v : Q) : option Q := match x with Some a => Some (a * v)%Q | None => None end.
(* 78-95, 98-117: entry (i,j) divided / multiplied by vec[i]; store is the assignment into an array of the type of the
   argument (np.zeros_like): identity for floating point, truncation for integers.
   Simplification: vec has one entry per row of data. *)
Definition scale_part (store : option Q -> option Q) (data : list (list Q)) (vec : list Q) : list (list (option Q)) :=
  map (fun rv => map (fun x => store (ndiv x (snd rv))) (fst rv)) (combine data vec).
Definition descale_part (data : list (list (option Q))) (vec : list Q) : list (list (option Q)) :=
  map (fun rv => map (fun x => nmul x (snd rv)) (fst rv)) (combine data vec).
Definition trunc (q : Q) : Z := if Qle_bool 0 q then Qfloor q else Qceiling q.
Definition store_integer (x : option Q) : option Q := match x with Some q => Some (inject_Z (trunc q)) | None => None end.
Definition store_floating (x : option Q) : option Q := x.
Definition scale_data (data_type : string) (store : option Q -> option Q) (data : list (list Q)) (vec : list Q) : res (list (list (option Q))) :=
  if String.eqb (lower data_type) "real" then Ok (scale_part store data vec) else Err TypeError.
Definition scale_data_complex (data_type : string) (re im : list (list Q)) (vec : list Q * list Q)
  : res (list (list (option Q)) * list (list (option Q))) :=
  if String.eqb (lower data_type) "complex"
  then Ok (scale_part store_floating re (fst vec), scale_part store_floating im (snd vec)) else Err TypeError.

(* ---------- sequences ---------- *)
Section Sequences.
Variable A : Type.     (* one snapshot of all coefficients: a column of data *)
(* 91-121; data as the list of its columns; the target is flattened by the reshape, here the list of snapshots *)
Definition extract_sequences (n_in n_out : nat) (data : list A) (fh : Z) : res (list (list A * list A)) :=
  if (fh <? 1)%Z then Err ValueError else
  let total_size := (Z.of_nat (length data) - Z.of_nat n_in - Z.of_nat n_out - fh + 1)%Z in
  if (total_size <? 0)%Z then Err ValueError                       (* np.zeros of a negative dimension *)
  else
    let f := Z.to_nat fh in
    (* states[idx] raises IndexError beyond the last row; t + n_in - 1 + fh >= 0 because fh >= 1 *)
    all_res (fun t =>
      let ix := seq t n_in in
      let iy := seq (t + n_in + f - 1) n_out in
      if forallb (fun i => i <? length data) (ix ++ iy)
      then Ok (window t n_in data, window (t + n_in + f - 1) n_out data) else Err IndexError)
    (seq 0 (Z.to_nat total_size)).

(* 147-202; predict: the trained network (real and imaginary parts together), n_in snapshots to n_out snapshots *)
Variable predict : list A -> list A.
Variable zero : A.
(* coeffs[:, lb:ub] = block: numpy clips the slice to the array and broadcasts a single column.
   put_cols keeps the length of l. *)
Definition put_cols (l : list A) (lb ub : nat) (block : list A) : res (list A) :=
  let w := min ub (length l) - lb in
  if length block =? w then Ok (firstn lb l ++ block ++ skipn (lb + w) l)
  else match block with [b] => Ok (firstn lb l ++ repeat b w ++ skipn (lb + w) l) | _ => Err ValueError end.
(* range(n_in, nt, n_out): number of passes; a zero step raises *)
Definition n_passes (nt n_in n_out : nat) : nat := (nt - n_in + n_out - 1) / n_out.
Fixpoint fill (n_in n_out : nat) (blocks : list (list A)) (i : nat) (coeffs : list A) : res (list A) :=
  match blocks with
  | [] => Ok coeffs
  | b :: r => do c <- put_cols coeffs (n_out * i + n_in) (n_in + n_out * (i + 1)) b; fill n_in n_out r (S i) c
  end.
Definition model_inference (n_in n_out : nat) (data : list A) : res (list A) :=
  let nt := length data in
  if nt <? n_in then Err NameError                                 (* `network` is not defined *)
  else if n_out =? 0 then Err ValueError
  else
    let blocks := map (fun cnt => predict (window (cnt * n_out) n_in data)) (seq 0 (n_passes nt n_in n_out)) in
    do c0 <- put_cols (repeat zero nt) 0 n_in (window 0 n_in data);
    fill n_in n_out blocks 0 c0.
End Sequences.
