(* The parameter dictionary of the SPOD objects: /repo/pyspod/spod/base.py:50-123 (constructor), 426-470 (number of blocks, feasibility),
   498-501 (number of modes), 515-521 (folder), 620-632 (n_freq), 663-691 (parameter file).  Python dictionaries are shared by reference:
   the object keeps the caller's dictionary and writes into it.  Object i of dictionary d is the i-th object built from it.
   Simplifications: the optional entries not used here (window, storage, dtype...) are kept in the dictionary but not read; an
   overlap is a rational. *)
From Coq Require Import QArith Qround String Ascii.
From Verif Require Import Base_List Model_Base.
Set Implicit Arguments.
Local Open Scope string_scope.

Inductive val := VInt (z : Z) | VNum (q : Q) | VStr (s : string) | VBool (b : bool).
Definition dict := list (string * val).
Fixpoint get (k : string) (d : dict) : option val :=
  match d with [] => None | (k', v) :: r => if string_dec k k' then Some v else get k r end.
(* d[k] = v *)
Definition put (k : string) (v : val) (d : dict) : dict := (k, v) :: d.
Definition as_num (v : val) : res Q := match v with VInt z => Ok (inject_Z z) | VNum q => Ok q | _ => Err TypeError end.
(* int(v) *)
Definition as_int (v : val) : res Z :=
  match v with VInt z => Ok z | VNum q => Ok (if Qle_bool 0 q then Qfloor q else Qceiling q) | VStr _ => Err ValueError | VBool b => Ok (if b then 1 else 0)%Z end.
Definition need (k : string) (d : dict) : res val := match get k d with Some v => Ok v | None => Err KeyError end.
Definition opt (k : string) (dflt : val) (d : dict) : val := match get k d with Some v => v | None => dflt end.

Section Objects.
Variable cwd : string.
Record obj := Obj { o_ndft : Z; o_dt : val; o_xdim : val; o_nv : val; o_novlp : Z; o_full : bool; o_nmodes : Q; o_savedir : string }.
(* os.path.join(cwd, s) *)
Definition join (s : string) : string := match s with String a _ => if ascii_dec a "/" then s else cwd ++ "/" ++ s | EmptyString => cwd ++ "/" end.
(* 51-88, 115-117 *)
Definition construct (d : dict) : res (obj * dict) :=
  do nd0 <- need "n_dft" d; do nd <- as_int nd0;
  do dt <- need "time_step" d; do xd <- need "n_space_dims" d; do nv <- need "n_variables" d;
  do ov <- as_num (opt "overlap" (VInt 0) d);
  do nm <- as_num (opt "n_modes_save" (VInt 10000000000) d);
  do sd <- match opt "savedir" (VStr "spod_results") d with VStr s => Ok (join s) | _ => Err TypeError end;
  do no <- check_overlap nd ov;
  Ok (Obj nd dt xd nv no (match opt "fullspectrum" (VBool false) d with VBool b => b | _ => true end) nm sd, put "savedir" (VStr sd) d).
(* a fit on nt snapshots, real or complex: number of blocks, of frequencies and of saved modes *)
Definition n_freq_of (o : obj) (isreal : bool) : Z := if isreal && negb (o_full o) then (o_ndft o / 2 + 1)%Z else o_ndft o.
Definition clip (o : obj) (nb : Z) : Q := if Qle_bool (o_nmodes o) (inject_Z nb) then o_nmodes o else inject_Z nb.
(* 663-691: what is written into the caller's dictionary, and the file params_modes.yaml *)
Definition store_params (o : obj) (nb nf : Z) (nm : Q) (d : dict) : res dict :=
  do dt <- as_num (o_dt o);
  do nmi <- as_int (VNum nm);
  Ok (put "n_modes_save" (VInt nmi) (put "n_overlap" (VInt (o_novlp o)) (put "n_blocks" (VInt nb) (put "n_dft" (VInt (o_ndft o))
     (put "time_step" (VNum dt) (put "results_folder" (VStr (o_savedir o ++ "/" ++ result_folder (o_ndft o) (o_novlp o) nb)) (put "n_freq" (VInt nf) d))))))).
Inductive op :=
| New (d i : nat)                                  (* spod(params) *)
| Edit (d : nat) (k : string) (v : val)            (* params[k] = v *)
| Fit (d i : nat) (nt : Z) (isreal : bool).
Inductive outcome := Created | Edited | Saved (file : dict) | Raised (e : exn).
Record world := World { dicts : nat -> dict; objs : nat -> nat -> option obj }.
Definition set_dict (w : world) (d : nat) (x : dict) : world := World (fun j => if Nat.eqb j d then x else dicts w j) (objs w).
Definition set_obj (w : world) (d i : nat) (x : option obj) : world :=
  World (dicts w) (fun j k => if Nat.eqb j d && Nat.eqb k i then x else objs w j k).
Definition step (w : world) (e : op) : world * outcome :=
  match e with
  | New d i => match construct (dicts w d) with
               | Ok (o, d') => (set_obj (set_dict w d d') d i (Some o), Created)
               | Err x => (w, Raised x)
               end
  | Edit d k v => (set_dict w d (put k v (dicts w d)), Edited)
  | Fit d i nt isreal =>
      match objs w d i with
      | None => (w, Raised NameError)
      | Some o =>
          match check_feasible nt (o_ndft o) (o_novlp o) with
          | Err x => (w, Raised x)
          | Ok nb =>
              let nm := clip o nb in
              let o' := Obj (o_ndft o) (o_dt o) (o_xdim o) (o_nv o) (o_novlp o) (o_full o) nm (o_savedir o) in
              match store_params o' nb (n_freq_of o isreal) nm (dicts w d) with
              | Err x => (set_obj w d i (Some o'), Raised x)
              | Ok f => (set_obj (set_dict w d f) d i (Some o'), Saved f)
              end
          end
      end
  end.
Fixpoint run (w : world) (h : list op) : world * list outcome :=
  match h with [] => (w, []) | e :: r => let '(w1, x) := step w e in let '(w2, xs) := run w1 r in (w2, x :: xs) end.
End Objects.
