(* Reading the mode files back: /repo/pyspod/utils/postproc.py:88-147 (get_modes_at_freq, get_all_modes).
   A directory is the list of its entries (name, contents) in the order the operating system lists them.
   Simplification: contents are opaque (the arrays in one directory have the same shape and type). *)
From Coq Require Import String Ascii.
From Verif Require Import Base_List Model_Reader2 Model_Base.
Set Implicit Arguments.
Local Open Scope nat_scope.

(* Python's order on str, names being ASCII *)
Definition str_leb (s t : string) : bool := match String.compare s t with Gt => false | _ => true end.
Definition ends_with (suffix s : string) : bool :=
  (String.length suffix <=? String.length s) &&
  String.eqb (substring (String.length s - String.length suffix) (String.length suffix) s) suffix.
(* glob pattern a*b: the two ends do not share characters *)
Definition glob (a b s : string) : bool :=
  String.prefix a s && ends_with b s && (String.length a + String.length b <=? String.length s).

Section Dir.
Variable X : Type.
Definition dir := list (string * X).
Definition load (d : dir) (name : string) : res X :=
  match find (fun e => String.eqb (fst e) name) d with Some e => Ok (snd e) | None => Err OSError end.
(* 124-147: all *.npy names, sorted, stacked; np.stack of no array raises.  Names starting with a dot are
   not matched by glob *)
Definition get_all_modes (d : dir) : res (list X) :=
  let flist := sort str_leb (filter (fun s => glob "" ".npy" s && negb (String.prefix "." s)) (map fst d)) in
  match flist with [] => Err ValueError | _ => all_ok (map (load d) flist) end.

(* 101-121; One: the array in the file of the frequency; Stacked: modes stacked along a last axis *)
Inductive freq_modes := One (x : X) | Stacked (l : list X).
(* freq_idx_f{freq_idx:08d}_m *)
Definition mode_prefix (f : nat) : string := append "freq_idx_f" (append (pad8 f) "_m").
Definition get_modes_at_freq (d : dir) (f : nat) : res freq_modes :=
  match find (fun e => String.eqb (fst e) (freq_file f)) d with
  | Some e => Ok (One (snd e))
  | None =>
      let modes := sort str_leb (filter (glob (mode_prefix f) ".npy") (map fst d)) in
      match modes with
      | [] => Err UnboundLocalError                       (* 121: m was never bound *)
      | _ => do l <- all_ok (map (load d) modes); Ok (Stacked l)
      end
  end.
End Dir.
Arguments One {X}. Arguments Stacked {X}.

(* get_all_modes also changes the working directory of the process (134-135).  A path is absolute or relative,
   a working directory is a list of components; is_dir says which directories exist.
   Simplification: no '..', no symbolic links. *)
Record path := Path { absolute : bool; parts : list string }.
Definition resolve (cwd : list string) (p : path) : list string := if absolute p then parts p else cwd ++ parts p.
Definition chdir (is_dir : list string -> bool) (cwd : list string) (p : path) : res (list string) :=
  if is_dir (resolve cwd p) then Ok (resolve cwd p) else Err OSError.
Definition modes_path (results_path : path) : path := Path (absolute results_path) (parts results_path ++ ["modes"%string]).
Section Cwd.
Variable X : Type.
Variable is_dir : list string -> bool.
Variable listing : list string -> dir X.
(* result and new working directory; an exception in chdir leaves it unchanged *)
Definition get_all_modes_at (cwd : list string) (results_path : path) : res (list X) * list string :=
  match chdir is_dir cwd (modes_path results_path) with
  | Ok cwd' => (get_all_modes (listing cwd'), cwd')
  | Err e => (Err e, cwd)
  end.
End Cwd.
