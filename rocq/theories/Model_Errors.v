(* /repo/pyspod/utils/errors.py: compute_l_errors (6-31), compute_h_errors (34-65). Exact arithmetic; arrays of equal shape,
   flattened to n+1 entries (an empty array has no maximum). *)
From Coq Require Import String.
From Verif Require Import Base_List.
From mathcomp Require Import all_ssreflect all_algebra.
Set Implicit Arguments.
Unset Strict Implicit.
Unset Printing Implicit Defensive.
Import GRing.Theory Num.Theory.
Local Open Scope ring_scope.
Section Errors.
Variable C : numClosedFieldType.
(* np.amax: keep the running maximum *)
Definition amax (l : seq C) : C := foldl (fun m x => if m < x then x else m) (head 0 l) (behead l).
Definition entries n (v : 'rV[C]_n) : seq C := [seq v 0 i | i <- enum 'I_n].
(* np.linalg.norm(v, 1), np.linalg.norm(v) *)
Definition norm1 n (v : 'rV[C]_n) : C := \sum_i `|v 0 i|.
Definition norm2 n (v : 'rV[C]_n) : C := sqrtC (\sum_i `|v 0 i| ^+ 2).
(* 17-31; the relative error divides by the reference, not by its modulus *)
Definition compute_l_errors n (data data_ref : 'rV[C]_n) (norm_type : string) : res C :=
  let ef := \row_i `|data 0 i - data_ref 0 i| in
  let e_rel := \row_i (ef 0 i / data_ref 0 i) in
  if String.eqb norm_type "l1" then Ok (norm1 ef / n%:R)
  else if String.eqb norm_type "l2" then Ok (norm2 ef / n%:R)
  else if String.eqb norm_type "linf" then Ok (amax (entries ef))
  else if String.eqb norm_type "l1_rel" then Ok (norm1 e_rel / n%:R)
  else if String.eqb norm_type "l2_rel" then Ok (norm2 e_rel / n%:R)
  else if String.eqb norm_type "linf_rel" then Ok (amax (entries e_rel))
  else Err ValueError.
(* 48-65; rows are times, the first one contributes nothing *)
Fixpoint h_loop nx (dt : C) (data data_ref : seq 'rV[C]_nx) (prev : option ('rV[C]_nx * 'rV[C]_nx)) (err : C) : C :=
  match data, data_ref with
  | d :: ds, r :: rs =>
      let s := match prev with
               | None => 0
               | Some (d0, r0) => \sum_x ((d 0 x - d0 0 x) / dt - (r 0 x - r0 0 x) / dt)
               end in
      h_loop dt ds rs (Some (d, r)) (err + dt * s ^+ 2)
  | _, _ => err
  end.
Definition compute_h_errors nx (data data_ref : seq 'rV[C]_nx) (dt : C) (norm_type : string) : res C :=
  if String.eqb norm_type "h1" then Ok (sqrtC (h_loop dt data data_ref None 0)) else Err ValueError.
End Errors.
