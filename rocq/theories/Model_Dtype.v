(* Element types of the arrays in memory and on disk: which precision a run really uses.
   Numpy's rules for the type of a result are modelled (array with array; array with a float64 scalar, where the two
   generations of numpy differ: the project does not pin a version, setup.cfg:35). Values are not modelled here. *)
From Coq Require Import String List Bool.
From Verif Require Import Base_List.
Import ListNotations.
Set Implicit Arguments.
Local Open Scope string_scope.

(* integer stands for int32/int64; float32, float64, complex64, complex128 *)
Inductive dtype := Int | F32 | F64 | C64 | C128.
(* numpy.result_type of two arrays *)
Definition promote (a b : dtype) : dtype :=
  match a, b with
  | Int, Int => Int
  | Int, F32 | F32, Int | Int, F64 | F64, Int => F64
  | Int, C64 | C64, Int | Int, C128 | C128, Int => C128
  | F32, F32 => F32
  | F32, F64 | F64, F32 | F64, F64 => F64
  | F32, C64 | C64, F32 | C64, C64 => C64
  | F64, C64 | C64, F64 => C128
  | _, C128 | C128, _ => C128
  end.
(* array with a float64 scalar (np.sqrt of an integer): numpy 1 keeps the array's precision, numpy 2 (NEP 50) promotes *)
Definition with_f64_scalar (nep50 : bool) (a : dtype) : dtype :=
  if nep50 then promote a F64 else match a with Int => F64 | _ => a end.
Definition real_of (a : dtype) : dtype := match a with C64 => F32 | C128 => F64 | _ => a end.
(* np.mean: integers are averaged in float64, floats in their own type *)
Definition mean_of (a : dtype) : dtype := match a with Int => F64 | _ => a end.

Inductive prec := Single | Double.
Definition flt (p : prec) : dtype := match p with Single => F32 | Double => F64 end.
Definition cpx (p : prec) : dtype := match p with Single => C64 | Double => C128 end.

(* what a user may pass as dtype: a string, the class np.float64 / np.float32, the object np.dtype('float64') / np.dtype('float32') *)
Inductive darg := Str (s : string) | NpF64 | NpF32 | DtF64 | DtF32.
(* Python: arg == 'double'. A dtype object compares equal to the strings that name it *)
Definition eq_double (a : darg) : bool := match a with Str s => String.eqb s "double" | DtF64 => true | _ => false end.
Definition eq_single (a : darg) : bool := match a with Str s => String.eqb s "single" | DtF32 => true | _ => false end.
Definition eq_np64 (a : darg) : bool := match a with NpF64 | DtF64 => true | _ => false end.
Definition eq_np32 (a : darg) : bool := match a with NpF32 | DtF32 => true | _ => false end.
(* spod/base.py:79,89-94; pod/base.py:43,52-57; pod/utils.py:228-235 *)
Definition class_prec (a : darg) : prec := if eq_double a then Double else Single.
(* spod/utils.py:726-735 *)
Definition utils_prec (a : darg) : res prec :=
  if eq_double a || eq_np64 a then Ok Double else if eq_single a || eq_np32 a then Ok Single else Err ValueError.
(* spod/base.py:712-716, spod/utils.py:738-743, pod/base.py:438-444, pod/utils.py:238-243: only float64 and complex128 are converted *)
Definition set_dtype (p : prec) (d : dtype) : dtype := match d with F64 => flt p | C128 => cpx p | _ => d end.

(* files of a results folder and of a coefficients folder *)
Record folder := Folder {
  f_modes : option dtype; f_eigs : option dtype; f_mean : option dtype; f_weights : option dtype;
  c_modes : option dtype; c_mean : option dtype; c_coeffs : option dtype; c_rec : option dtype }.
Definition empty : folder := Folder None None None None None None None None.

(* spod/standard.py:68,97,139,182-188,199-235,353-358; spod/base.py:497,513,598-617,670-699.
   close: real_if_close has made the eigenvalues real (206). wt: the type of the weights array (float64 when not given) *)
Definition fit (nep50 close : bool) (p : prec) (wt : dtype) (fo : folder) : folder :=
  let w := set_dtype p wt in                       (* base.py:497 *)
  let q := cpx p in                                (* qhat, standard.py:97-98: assignment into an array of self._complex *)
  let m := promote q (promote q w) in              (* 200 *)
  let l := if close then real_of m else m in       (* 205-206 *)
  let linv := with_f64_scalar nep50 l in           (* 225-226 *)
  let phi := promote q (promote m linv) in         (* 232, 273 *)
  Folder (Some phi) (Some (real_of m)) (Some (flt p)) (Some w) (c_modes fo) (c_mean fo) (c_coeffs fo) (c_rec fo).

(* spod/utils.py:576-608 *)
Definition oblique (svd : bool) (p : prec) (phir w d : dtype) : dtype :=
  let m := promote phir (promote w phir) in
  let q := promote phir (promote w d) in
  if svd then promote (promote (promote m (cpx p)) m) q else promote m q.
(* spod/utils.py:79-217: dx is the type of the data passed by the caller. The folder of the fit must exist (C41: OSError otherwise) *)
Definition coeffs_op (svd : bool) (p : prec) (dx : dtype) (fo : folder) : res folder :=
  match f_modes fo, f_weights fo with
  | Some _, Some w0 =>
      let d := set_dtype p dx in let w := set_dtype p w0 in   (* 117-118 *)
      let mu := mean_of d in                                 (* 157 *)
      let d := promote d mu in
      let phir := cpx p in                                   (* 162, 712 *)
      Ok (Folder (f_modes fo) (f_eigs fo) (f_mean fo) (f_weights fo) (Some phir) (Some mu) (Some (oblique svd p phir w d)) (c_rec fo))
  | _, _ => Err OSError
  end.
(* spod/utils.py:223-438: the mean is computed in float64 (314), the coefficients are stored into an array of dt_complex (296, 383) *)
Definition coeffs_conv (p : prec) (dx : dtype) (fo : folder) : res folder :=
  match f_modes fo, f_weights fo with
  | Some _, Some w0 =>
      Ok (Folder (f_modes fo) (f_eigs fo) (f_mean fo) (f_weights fo) (Some (cpx p)) (Some F64) (Some (cpx p)) (c_rec fo))
  | _, _ => Err OSError
  end.
(* spod/utils.py:441-535, 540-573: the stored mean is not converted *)
Definition reconstruct (p : prec) (fo : folder) : res folder :=
  match c_modes fo, c_mean fo, c_coeffs fo with
  | Some phir, Some mu, Some a =>
      let r := promote (promote (set_dtype p phir) (set_dtype p a)) mu in
      Ok (Folder (f_modes fo) (f_eigs fo) (f_mean fo) (f_weights fo) (c_modes fo) (c_mean fo) (c_coeffs fo) (Some r))
  | _, _, _ => Err OSError
  end.

(* calls of a user on one folder; a failed call leaves the types as they are *)
Inductive call :=
| Fit (nep50 close : bool) (dt : darg) (wt : dtype)              (* constructor with dtype=dt, then fit *)
| MCoeffs (svd : bool) (dx : dtype)                              (* obj.compute_coeffs_op, spod/base.py:634-645: dtype is not passed on *)
| MRec                                                           (* obj.compute_reconstruction, 648-661: dtype is not passed on *)
| UCoeffs (svd : bool) (dt : darg) (dx : dtype)                  (* module functions *)
| UConv (dt : darg) (dx : dtype)
| URec (dt : darg).
Definition step (fo : folder) (c : call) : folder * res unit :=
  let ret (r : res folder) := match r with Ok g => (g, Ok tt) | Err e => (fo, Err e) end in
  match c with
  | Fit n k dt wt => ret (Ok (fit n k (class_prec dt) wt fo))
  | MCoeffs s dx => ret (do p <- utils_prec (Str "double"); coeffs_op s p dx fo)
  | MRec => ret (do p <- utils_prec (Str "double"); reconstruct p fo)
  | UCoeffs s dt dx => ret (do p <- utils_prec dt; coeffs_op s p dx fo)
  | UConv dt dx => ret (do p <- utils_prec dt; coeffs_conv p dx fo)
  | URec dt => ret (do p <- utils_prec dt; reconstruct p fo)
  end.
Fixpoint run (fo : folder) (h : list call) : folder :=
  match h with [] => fo | c :: h => run (fst (step fo c)) h end.
