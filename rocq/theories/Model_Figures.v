(* Figures on the screen and in files: /repo/pyspod/utils/postproc.py:1489-1498 (_save_show_plots), 21 (CWD), and the way the plotting functions
   open, fill and store their figures: 198-228 and similar (one figure), 411-533 (2-D modes), 806-936 (slices of 3-D modes), 1040-1062 (plot_coeffs),
   1107-1161 (plot_2d_data), 1199-1229 (plot_data_tracers).
   pyplot keeps the open figures in a list; the current one is the newest; plt.close() closes it and the one opened before it becomes current.
   What a call draws on a figure is one item of a type A, computed by a parameter that may raise (see Model_Plot, Model_Plot2 for what is drawn).
   Simplifications: plot_mode_tracers is not here (with several variables it always raises, C103); a missing file name and an empty one are the same
   (both are false in Python); the folder exists. *)
From Coq Require Import String Ascii.
From Verif Require Import Base_List Model_Base Model_IO.
Set Implicit Arguments.
Local Open Scope nat_scope.

Section Figures.
Variable A : Type.
Variable import_dir : string.   (* 21: the working directory when the module was imported *)
Variable blocking : bool.       (* plt.show: waits until the user has closed all windows, or does nothing (no display) *)
Definition fig := list A.
Record st := St { open : list fig; files : list (string * string * fig); pages : list fig; shown : list (list fig) }.
(* plt.figure() *)
Definition figure (s : st) : st := St ([] :: open s) (files s) (pages s) (shown s).
(* drawing on the current figure; without one, pyplot opens one *)
Definition draw (a : A) (s : st) : st :=
  St (match open s with [] => [[a]] | f :: r => (f ++ [a]) :: r end) (files s) (pages s) (shown s).
Inductive place := CWD | Path (d : string).
Definition folder (p : place) : string := match p with CWD => import_dir | Path d => d end.
(* 1489-1498 *)
Definition save_show (name : string) (p : place) (pdf : bool) (s : st) : st :=
  if pdf then St (open s) (files s) (pages s ++ [hd [] (open s)]) (shown s)
  else if String.eqb name "" then St (if blocking then [] else open s) (files s) (pages s) (shown s ++ [open s])
  else St (tl (open s)) ((folder p, name, hd [] (open s)) :: files s) (pages s) (shown s).

(* 528-532, 931-935, 1057-1061, 1156-1160, 1224-1228; root, ext = splitext(filename) *)
Definition root_of (filename : string) : string := substring 0 (String.length filename - String.length (splitext filename)) filename.
Definition tmp_name (filename suffix : string) : string :=
  if String.eqb filename "" then filename else (root_of filename ++ suffix ++ splitext filename)%string.
Definition suffix_mode (vm : Z * Z) : string := ("_var" ++ py_str (fst vm) ++ "_mode" ++ py_str (snd vm))%string.   (* 532, 935 *)
Definition suffix_time (vt : Z * Z) : string := ("_var" ++ py_str (fst vt) ++ "_time" ++ py_str (snd vt))%string.   (* 1160 *)
Definition suffix_coords (cv : string * Z) : string := ("_coords" ++ fst cv ++ "_var" ++ py_str (snd cv))%string.   (* 1228 *)
Definition suffix_coeff (i : Z) : string := ("_coeff_id" ++ py_str i)%string.                                       (* 1061 *)

(* a loop; an exception ends it *)
Fixpoint each {J : Type} (body : J -> st -> st * res unit) (l : list J) (s : st) : st * res unit :=
  match l with
  | [] => (s, Ok tt)
  | j :: r => match body j s with (s', Ok _) => each body r s' | (s', Err e) => (s', Err e) end
  end.
(* a new figure for each picture *)
Definition picture {J : Type} (suffix : J -> string) (draws : J -> res A) (filename : string) (p : place) (pdf : bool) (j : J) (s : st) : st * res unit :=
  let s1 := figure s in
  match draws j with
  | Err e => (s1, Err e)
  | Ok a => (save_show (tmp_name filename (suffix j)) p pdf (draw a s1), Ok tt)
  end.
(* 411-533: a mode number beyond the stored modes is skipped *)
Definition plot_2d_modes (vars modes : list Z) (n_modes : Z) (draws : Z * Z -> res A) (filename : string) (p : place) (pdf : bool) : st -> st * res unit :=
  each (picture suffix_mode draws filename p pdf) (filter (fun vm => (snd vm <? n_modes)%Z) (list_prod vars modes)).
(* 806-936 *)
Definition plot_3d_slices (vars modes : list Z) (draws : Z * Z -> res A) (filename : string) (p : place) : st -> st * res unit :=
  each (picture suffix_mode draws filename p false) (list_prod vars modes).
(* 1107-1161 *)
Definition plot_2d_data (vars times : list Z) (draws : Z * Z -> res A) (filename : string) (p : place) : st -> st * res unit :=
  each (picture suffix_time draws filename p false) (list_prod vars times).
(* 1199-1229; a place is the text of its nearest coordinates *)
Definition plot_data_tracers (places : list string) (vars : list Z) (draws : string * Z -> res A) (filename : string) (p : place) : st -> st * res unit :=
  each (picture suffix_coords draws filename p false) (list_prod places vars).
(* 1040-1062: the figure is opened once, before the loop *)
Definition plot_coeffs (ids : list Z) (draws : Z -> res A) (filename : string) (p : place) (s : st) : st * res unit :=
  each (fun i s => match draws i with
                   | Err e => (s, Err e)
                   | Ok a => (save_show (tmp_name filename (suffix_coeff i)) p false (draw a s), Ok tt)
                   end) ids (figure s).
(* 198-228, 258-281, 314-338, 1254-1288, 1307-1317, 1332-1342: one figure *)
Definition plot_one (draws : res A) (filename : string) (p : place) (s : st) : st * res unit :=
  let s1 := figure s in
  match draws with Err e => (s1, Err e) | Ok a => (save_show filename p false (draw a s1), Ok tt) end.

(* a session *)
Inductive call :=
| Modes2D (vars modes : list Z) (n_modes : Z) (draws : Z * Z -> res A) (filename : string) (p : place) (pdf : bool)
| Slices3D (vars modes : list Z) (draws : Z * Z -> res A) (filename : string) (p : place)
| Data2D (vars times : list Z) (draws : Z * Z -> res A) (filename : string) (p : place)
| Tracers (places : list string) (vars : list Z) (draws : string * Z -> res A) (filename : string) (p : place)
| Coeffs (ids : list Z) (draws : Z -> res A) (filename : string) (p : place)
| One (draws : res A) (filename : string) (p : place).
Definition perform (c : call) : st -> st * res unit :=
  match c with
  | Modes2D vars modes n draws filename p pdf => plot_2d_modes vars modes n draws filename p pdf
  | Slices3D vars modes draws filename p => plot_3d_slices vars modes draws filename p
  | Data2D vars times draws filename p => plot_2d_data vars times draws filename p
  | Tracers places vars draws filename p => plot_data_tracers places vars draws filename p
  | Coeffs ids draws filename p => plot_coeffs ids draws filename p
  | One draws filename p => plot_one draws filename p
  end.
(* exceptions are caught by the caller *)
Fixpoint run (cs : list call) (s : st) : st * list (res unit) :=
  match cs with
  | [] => (s, [])
  | c :: r => let '(s1, x) := perform c s in let '(s2, xs) := run r s1 in (s2, x :: xs)
  end.
End Figures.
