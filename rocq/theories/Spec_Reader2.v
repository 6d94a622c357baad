(* What the file readers should deliver.  Independent of the reader model. *)
From Verif Require Import Base_List Model_Parallel Model_Reader2.

(* a netCDF file over nxyz points with nv variables: every variable has one field per time label *)
Definition nc_ok {A} (nxyz nv : nat) (f : ncfile A) : Prop :=
  length (nc_vars f) = nv /\
  forall v, In v (nc_vars f) -> length v = length (nc_labels f) /\ forall row, In row v -> length row = nxyz.

(* snapshot t of a file: the values of all variables at point 0, then at point 1, ... *)
Definition nc_snapshot {A} (zero : A) (nxyz : nat) (f : ncfile A) (t : nat) : list A :=
  flat_map (fun x => map (fun v => nth x (nth t v []) zero) (nc_vars f)) (seq 0 nxyz).

(* the record: all snapshots of all files in the order of the list of names *)
Definition nc_record {A} (zero : A) (nxyz : nat) (fs : nat -> ncfile A) (names : list nat) : list (list A) :=
  flat_map (fun k => map (nc_snapshot zero nxyz (fs k)) (seq 0 (length (nc_labels (fs k))))) names.

(* the part of a row (nxyz points, nv values each) that rank dst of size owns *)
Definition own_points {A} (nxyz nv size dst : nat) (row : list A) : list A :=
  let '(n, s) := blockdist nxyz size dst in window (s * nv) (n * nv) row.

(* a MATLAB file holds one field per variable and a single time step *)
Definition mat_snapshot {A} (zero : A) (nxyz : nat) (vars : list (list A)) : list A :=
  flat_map (fun x => map (fun v => nth x v zero) vars) (seq 0 nxyz).

(* the intervals [s,e) of the list follow one another from a to b *)
Fixpoint tiling (a : nat) (l : list (nat * nat)) (b : nat) : Prop :=
  match l with
  | [] => a = b
  | (s, e) :: l' => s = a /\ s <= e /\ tiling e l' b
  end.
