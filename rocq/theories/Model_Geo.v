(* /repo/pyspod/utils/weights.py: geo_trapz_2D (8-44), geo_trapz_3D (47-84). Real numbers, no rounding.
   Arrays are lists of lists; x1_dim = number of latitudes, x2_dim of longitudes. *)
From Coq Require Import Reals.
From Verif Require Import Base_List.
Set Implicit Arguments.
Local Open Scope R_scope.

(* np.linspace(a, b, n): n evenly spaced numbers, both ends included *)
Definition linspace (a b : R) (n : nat) : list R := map (fun i => a + INR i * ((b - a) / (INR n - 1))) (seq 0 n).
(* np.diff *)
Fixpoint diff (l : list R) : list R :=
  match l with a :: ((b :: _) as r) => (b - a) :: diff r | _ => [] end.
(* x[0:-1] *)
Definition but_last (l : list R) : list R := firstn (length l - 1) l.
(* x[i], x[-1] *)
Definition index (l : list R) (i : nat) : res R := match nth_error l i with Some x => Ok x | None => Err IndexError end.
Definition last_of (l : list R) : res R := index l (length l - 1).

(* 22-26 and 61-65 *)
Definition lat_rad (x1 : nat) : list R := map (fun x => x / 360 * 2 * PI) (linspace (-90) 90 x1).
Definition lon_rad (x2 : nat) : list R := map (fun x => x / 360 * 2 * PI) (but_last (linspace 0 360 (x2 + 1))).
(* 28-30 and 67-69 *)
Definition d_lat (x1 : nat) : res (list R) :=
  let diff_lat := but_last (diff (lat_rad x1)) in
  do second <- index diff_lat 1;
  do last <- last_of diff_lat;
  Ok (second / 2 :: diff_lat ++ [last / 2]).
(* 32-33 and 71-72 *)
Definition d_lon (x2 : nat) : res (list R) :=
  do first <- index (lon_rad x2) 0;
  Ok (first / 2 :: diff (lon_rad x2)).
(* 35-39 and 74-78: entry (i, j) of dA *)
Definition area (rad : R) (x1 x2 : nat) : res (list (list R)) :=
  do dlat <- d_lat x1;
  do dlon <- d_lon x2;
  Ok (map (fun i => map (fun j => Rabs (rad * rad * cos (nth i (lat_rad x1) 0) * nth j dlon 0 * nth i dlat 0)) (seq 0 x2)) (seq 0 x1)).
(* 40-41: n_vars copies, the variable last; shape (x1, x2, n_vars) *)
Definition geo_trapz_2D (rad : R) (x1 x2 nv : nat) : res (list (list (list R))) :=
  do dA <- area rad x1 x2;
  Ok (map (map (fun x => repeat x nv)) dA).
(* 79-81: x3 copies along a last axis, then n_vars copies along the FIRST axis; shape (n_vars*x1, x2, x3) *)
Definition geo_trapz_3D (rad : R) (x1 x2 x3 nv : nat) : res (list (list (list R))) :=
  do dA <- area rad x1 x2;
  let dA3 := map (map (fun x => repeat x x3)) dA in
  Ok (concat (repeat dA3 nv)).
(* the weights are used after flattening in C order (spod/base.py:define_weights checks their size only) *)
Definition flatten (w : list (list (list R))) : list R := concat (map (@concat R) w).
