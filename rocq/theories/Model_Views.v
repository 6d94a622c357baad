(* What the arrays returned by the mode readers are connected to: /repo/pyspod/utils/postproc.py:88-171.
   get_data_from_file (163) opens the file with np.lib.format.open_memmap, whose default mode is 'r+': the returned array is
   the file itself, writable.  get_modes_at_freq returns it as it is (107) when there is one file per frequency, and a new
   array filled from np.load (115-120) when there is one file per mode; get_all_modes copies every map into a new array (144).
   A session is a history of reads, in-place edits of returned arrays by the user (m[...] = v, m *= ..., np.conj(m, out=m),
   one entry at a time) and saves of mode files by fits in the same folder.
   Simplifications: an array is the list of its entries, a stack a list of arrays; a file is only saved again with the same
   number of entries (a map of a truncated file is not modelled); no file is removed. *)
From Coq Require Import String.
From Verif Require Import Base_List Model_Reader2 Model_Base Model_ModeFiles.
Set Implicit Arguments.
Local Open Scope nat_scope.

Section Views.
Variable V : Type.
(* files the process may write to: 'r+' fails otherwise, np.load (mode 'rb') does not *)
Variable writable : string -> bool.

(* a returned array: a map of the named file, or memory of its own *)
Inductive arr := Mapped (name : string) | Owned (l : list (list V)).
Record st := St { files : dir (list V); heap : list arr }.

Inductive event :=
| GetFreq (f : nat)                       (* postproc.get_modes_at_freq *)
| GetAll                                  (* postproc.get_all_modes *)
| Edit (h j i : nat) (v : V)              (* entry i of part j of the h-th array returned so far *)
| Save (name : string) (c : list V).      (* np.save / npy_save of a mode file *)

Definition lookup (d : dir (list V)) (name : string) : option (list V) :=
  match find (fun e => String.eqb (fst e) name) d with Some e => Some (snd e) | None => None end.
Definition set_file (d : dir (list V)) (name : string) (c : list V) : dir (list V) :=
  map (fun e => if String.eqb (fst e) name then (fst e, c) else e) d.

(* 150-171: a map of the file *)
Definition get_data_from_file (d : dir (list V)) (name : string) : res arr :=
  match lookup d name with
  | None => Err OSError
  | Some _ => if writable name then Ok (Mapped name) else Err OSError
  end.
(* what an array shows *)
Definition contents (d : dir (list V)) (a : arr) : list (list V) :=
  match a with
  | Mapped name => match lookup d name with Some c => [c] | None => [] end
  | Owned l => l
  end.
(* 101-121 *)
Definition get_freq (d : dir (list V)) (f : nat) : res arr :=
  match lookup d (freq_file f) with
  | Some _ => get_data_from_file d (freq_file f)
  | None => do m <- get_modes_at_freq d f;
            match m with One x => Ok (Owned [x]) | Stacked l => Ok (Owned l) end
  end.
(* 124-147: opens every file, then np.stack copies *)
Definition get_all (d : dir (list V)) : res arr :=
  do l <- get_all_modes d;
  if forallb (fun e => implb (glob "" ".npy" (fst e) && negb (String.prefix "." (fst e))) (writable (fst e))) d
  then Ok (Owned l) else Err OSError.

(* an exception leaves files and earlier arrays as they are *)
Definition new (s : st) (r : res arr) : st :=
  match r with Ok a => St (files s) (heap s ++ [a]) | Err _ => s end.
Definition edit (s : st) (h j i : nat) (v : V) : st :=
  match nth_error (heap s) h with
  | None => s
  | Some a =>
      match nth_error (contents (files s) a) j with
      | None => s                                         (* IndexError *)
      | Some c =>
          if i <? length c then
            match a with
            | Mapped name => St (set_file (files s) name (upd_nth i v c)) (heap s)
            | Owned l => St (files s) (upd_nth h (Owned (upd_nth j (upd_nth i v c) l)) (heap s))
            end
          else s                                          (* IndexError *)
      end
  end.
Definition step (s : st) (e : event) : st :=
  match e with
  | GetFreq f => new s (get_freq (files s) f)
  | GetAll => new s (get_all (files s))
  | Edit h j i v => edit s h j i v
  | Save name c =>
      match lookup (files s) name with
      | None => St (files s ++ [(name, c)]) (heap s)
      | Some c0 => if length c =? length c0 then St (set_file (files s) name c) (heap s) else s
      end
  end.
Definition run (s : st) (evs : list event) : st := fold_left step evs s.
End Views.
Arguments Mapped {V}. Arguments GetFreq {V}. Arguments GetAll {V}. Arguments Save {V}.
