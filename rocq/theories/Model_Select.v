(* Selections made before coefficients and reconstructions are computed:
   /repo/pyspod/spod/utils.py (compute_coeffs_op, compute_coeffs_conv, compute_reconstruction,
   _get_modes, check_orthogonality) and /repo/pyspod/utils/postproc.py (find_nearest_freq).
   Frequencies and periods are rationals (no NaN, no rounding). *)
From Coq Require Import QArith Qabs String Ascii.
From Verif Require Import Base_List.
Set Implicit Arguments.
Local Open Scope nat_scope.

(* ---- np.argmin over a list: first position of the smallest value ---- *)
Fixpoint argmin_from (i best : nat) (bv : Q) (l : list Q) : nat :=
  match l with
  | [] => best
  | x :: r => if Qle_bool bv x then argmin_from (S i) best bv r else argmin_from (S i) i x r
  end.
Definition argmin (l : list Q) : res nat :=
  match l with [] => Err ValueError | x :: r => Ok (argmin_from 1 0 x r) end.
(* postproc.py:52-54 *)
Definition find_nearest_freq (req : Q) (freq : list Q) : res (Q * nat) :=
  do i <- argmin (map (fun f => Qabs (f - req)) freq);
  Ok (nth i freq 0%Q, i).

(* ---- spod/utils.py:120-133 = 270-283: frequency selection ---- *)
Record fsel := Fsel { f_lb : Q; f_idx_lb : nat; f_ub : Q; f_idx_ub : nat; n_freq_r : Z; freq_list : list nat }.
(* 1/T in Python: None and zero raise *)
Definition inv_period (T : option Q) : res Q :=
  match T with None => Err TypeError | Some t => if Qeq_bool t 0 then Err ZeroDivisionError else Ok (/ t)%Q end.
Definition is_none {A} (o : option A) : bool := match o with None => true | _ => false end.
Definition select_freqs (freq : list Q) (n_freq : nat) (T_lb T_ub : option Q) (freq_idx : option (list nat)) : res fsel :=
  do b <- (if (is_none T_lb || is_none T_ub) && is_none freq_idx
           then match nth_error freq 0, nth_error freq (n_freq - 1) with
                | Some a, Some z => Ok (a, 0, (z, n_freq - 1))
                | _, _ => Err IndexError
                end
           else do ru <- inv_period T_ub; do l <- find_nearest_freq ru freq;
                do rl <- inv_period T_lb; do u <- find_nearest_freq rl freq; Ok (l, u));
  let '(fl, il, (fu, iu)) := b in
  Ok (Fsel fl il fu iu (Z.of_nat iu - Z.of_nat il + 1)%Z
       (match freq_idx with Some l => l | None => seq il (iu + 1 - il) end)).
(* 138-139: np.zeros((n_freq_r*n_modes_save, nt)) *)
Definition alloc_coeffs (s : fsel) (n_modes nt : nat) : res unit :=
  if (n_freq_r s * Z.of_nat n_modes <? 0)%Z then Err ValueError else Ok tt.

(* ---- spod/utils.py:703-723 _get_modes; A is the type of a column ---- *)
Section Modes.
Variable A : Type.
Variable zero : A.
(* postproc.get_modes_at_freq + distribute + reshape to [xsize, n_modes]: columns of the frequency;
   None: no file for that frequency (`m` is never bound) *)
Variable modes_at : nat -> option (list A).
Definition set_col (i : nat) (a : A) (l : list A) : res (list A) :=
  if i <? length l then Ok (firstn i l ++ a :: skipn (S i) l) else Err IndexError.
(* 717-719: for i_mode in range(n_modes) *)
Fixpoint put (n_modes cnt i : nat) (cols : list A) (phir : list A) : res (list A) :=
  match cols with
  | [] => Ok phir
  | a :: r => do p <- set_col (n_modes * cnt + i) a phir; put n_modes cnt (S i) r p
  end.
Fixpoint gather (n_modes cnt : nat) (freqs : list nat) (phir : list A) : res (list A) :=
  match freqs with
  | [] => Ok phir
  | f :: r =>
    match modes_at f with
    | None => Err UnboundLocalError
    | Some cols => if length cols =? n_modes
                   then do p <- put n_modes cnt 0 cols phir; gather n_modes (S cnt) r p
                   else Err ValueError                       (* 716: reshape *)
    end
  end.
(* n_freq: number of frequency slots; 721: del phi raises when the loop body never ran *)
Definition get_modes (n_freq : Z) (freqs : list nat) (n_modes : nat) : res (list A) :=
  if (n_freq * Z.of_nat n_modes <? 0)%Z then Err ValueError else
  do p <- gather n_modes 0 freqs (repeat zero (Z.to_nat n_freq * n_modes));
  match freqs with [] => Err UnboundLocalError | _ => Ok p end.
End Modes.
(* what compute_coeffs_op does up to the projection (120-163) *)
Definition coeffs_modes {A} (zero : A) modes_at freq n_freq T_lb T_ub freq_idx (n_modes nt : nat) : res (fsel * list A) :=
  do s <- select_freqs freq n_freq T_lb T_ub freq_idx;
  do _ <- alloc_coeffs s n_modes nt;
  do p <- get_modes zero modes_at (n_freq_r s) (freq_list s) n_modes;
  Ok (s, p).

(* ---- 492-505: time selection, followed by the indexing coeffs[:, time_idx] ---- *)
Inductive time_sel := TNone | TStr (s : string) | TList (l : list Z) | TOther.
(* str.lower(), ASCII *)
Definition lower_ascii (a : ascii) : ascii :=
  let n := nat_of_ascii a in if (65 <=? n) && (n <=? 90) then ascii_of_nat (n + 32) else a.
Fixpoint lower (s : string) : string :=
  match s with EmptyString => EmptyString | String a s' => String (lower_ascii a) (lower s') end.
(* np.arange(0, nt, d) *)
Definition arange (nt d : nat) : list Z := map (fun i => Z.of_nat (i * d)) (seq 0 ((nt + d - 1) / d)).
Inductive py_index := Ints (l : list Z) | Str (s : string).
Definition resolve_time (nt : nat) (t : time_sel) : res py_index :=
  match t with
  | TNone => Ok (Ints [0%Z; Z.of_nat (nt mod 2); (Z.of_nat nt - 1)%Z])
  | TStr s =>
    if String.eqb (lower s) "all" then Ok (Ints (arange nt 1))
    else if String.eqb (lower s) "half" then Ok (Ints (arange nt 2))
    else if String.eqb (lower s) "quarter" then Ok (Ints (arange nt 4))
    else if String.eqb (lower s) "tenth" then Ok (Ints (arange nt 10))
    else if String.eqb (lower s) "hundredth" then Ok (Ints (arange nt 100))
    else Ok (Str s)
  | TList l => Ok (Ints l)
  | TOther => Err TypeError
  end.
(* numpy: indices in [-nt, nt); a string is not an index *)
Definition norm_index (nt : nat) (i : Z) : res nat :=
  if (0 <=? i)%Z && (i <? Z.of_nat nt)%Z then Ok (Z.to_nat i)
  else if (- Z.of_nat nt <=? i)%Z && (i <? 0)%Z then Ok (Z.to_nat (i + Z.of_nat nt))
  else Err IndexError.
Fixpoint norm_all (nt : nat) (l : list Z) : res (list nat) :=
  match l with [] => Ok [] | i :: r => do a <- norm_index nt i; do b <- norm_all nt r; Ok (a :: b) end.
Definition selected_times (nt : nat) (t : time_sel) : res (list nat) :=
  do p <- resolve_time nt t;
  match p with Ints l => norm_all nt l | Str _ => Err IndexError end.

(* ---- 70-75: the comparison of complex numbers with real bounds (numpy: lexicographic) ---- *)
Definition clt (a b : Q * Q) : bool :=
  negb (Qle_bool (fst b) (fst a)) || (Qeq_bool (fst a) (fst b) && negb (Qle_bool (snd b) (snd a))).
Definition tol_ortho : Q := (2 # 1000000).
Definition ortho_check (same : bool) (O : Q * Q) : bool :=
  let c := if same then 1%Q else 0%Q in
  clt O (c + tol_ortho, 0)%Q && clt (c - tol_ortho, 0)%Q O.

(* ---- 353-365: window samples summed for the correction at step i of the convolution ---- *)
Definition half_up (n_dft : nat) : Z := ((Z.of_nat n_dft + 1) / 2)%Z.
Definition corr_range (nt n_dft i : nat) : option (Z * Z) :=
  let thres := half_up n_dft in
  if (Z.of_nat i <? thres - 2)%Z then Some (thres - Z.of_nat i - 1, Z.of_nat n_dft)%Z
  else if (Z.of_nat i >=? Z.of_nat nt - thres)%Z then Some (0, Z.of_nat nt + thres - Z.of_nat i - 1)%Z
  else None.
(* is window sample k of step i in the sum (k < n_dft) *)
Definition in_sum (nt n_dft i k : nat) : bool :=
  match corr_range nt n_dft i with
  | Some (lb, ub) => (lb <=? Z.of_nat k)%Z && (Z.of_nat k <? ub)%Z
  | None => true
  end.
(* 330-331: padded record: ceil(n_dft/2) zero snapshots on both sides; None = a zero snapshot *)
Definition padded {A} (n_dft : nat) (data : list A) : list (option A) :=
  repeat None (Z.to_nat (half_up n_dft)) ++ map Some data ++ repeat None (Z.to_nat (half_up n_dft)).

(* ---- 316-321, 400-411: the modes file of the convolution variant ---- *)
(* phir: [n_freq, xsize, n_modes] in C order; the array is relabelled [xsize, n_freq, n_modes] *)
Definition conv_phir {A} (M : nat -> nat -> nat -> A) (nf xs nm : nat) : list A :=
  flat_map (fun f => flat_map (fun x => map (fun m => M f x m) (seq 0 nm)) (seq 0 xs)) (seq 0 nf).
Definition conv_file_entry {A} (M : nat -> nat -> nat -> A) (nf xs nm x f m : nat) : option A :=
  nth_error (conv_phir M nf xs nm) ((x * nf + f) * nm + m).
