(* /repo/pyspod/utils/io.py: read_data (12-41), read_config (44-80), _parse_yaml (83-89), _check_keys (92-101). *)
From Coq Require Import String Ascii.
From Verif Require Import Base_List Model_Select.
Set Implicit Arguments.
Local Open Scope nat_scope.

(* ---------- configuration ---------- *)
Section Config.
Variable V : Type.
Definition pydict := list (string * V).        (* insertion order, distinct keys *)
Fixpoint set_key (d : pydict) (k : string) (v : V) : pydict :=
  match d with
  | [] => [(k, v)]
  | (k', v') :: d' => if String.eqb k k' then (k, v) :: d' else (k', v') :: set_key d' k v
  end.
Definition get_key (d : pydict) (k : string) : option V :=
  match find (fun e => String.eqb (fst e) k) d with Some e => Some (snd e) | None => None end.
(* what YAML yields for a section: nothing, or a list of items, each a mapping or something else *)
Inductive item := Dict (d : pydict) | NotDict.
Definition section := option (list item).
(* 83-89: only the first key of every item is used *)
Fixpoint parse_items (l : list item) (params : pydict) : res pydict :=
  match l with
  | [] => Ok params
  | NotDict :: _ => Err AttributeError
  | Dict [] :: _ => Err IndexError
  | Dict ((k, v) :: _) :: r => parse_items r (set_key params k v)
  end.
Definition parse_yaml (s : section) : res pydict := match s with None => Err TypeError | Some l => parse_items l [] end.
(* 63-80: the document as a mapping; the result of the check of the required keys (68) is not used.
   sections: absent (None) or present *)
Definition read_config (required optional : option section) : res pydict :=
  match required with
  | None => Err KeyError
  | Some r =>
      do params_req <- parse_yaml r;
      match optional with
      | None => Ok params_req
      | Some o => do params_opt <- parse_yaml o;
                  Ok (fold_left (fun d e => set_key d (fst e) (snd e)) params_opt params_req)
      end
  end.
End Config.
Arguments NotDict {V}. Arguments Dict {V}.

(* ---------- formats ---------- *)
(* genericpath._splitext on the characters of the path: from the last dot after the last slash, unless only dots come
   before it in the last component; '' otherwise *)
Fixpoint rfind (c : ascii) (l : list ascii) (i : nat) (best : option nat) : option nat :=
  match l with [] => best | x :: r => rfind c r (S i) (if Ascii.eqb x c then Some i else best) end.
Definition splitext (path : string) : string :=
  let l := list_ascii_of_string path in
  match rfind "." l 0 None with
  | None => EmptyString
  | Some dot =>
      let start := match rfind "/" l 0 None with Some s => S s | None => 0 end in
      if (start <=? dot) && existsb (fun c => negb (Ascii.eqb c ".")) (window start (dot - start) l)
      then string_of_list_ascii (skipn dot l) else EmptyString
  end.
Inductive loader := NetCDF | Matlab.
(* 24-41: a missing or empty format is taken from the name; npy_load is not defined in this module.
   Result: which library opens the file *)
Definition read_data (data_file : string) (format : option string) : res loader :=
  let f := match format with Some (String a s) => String a s | _ => splitext data_file end in
  let f := lower f in
  if String.eqb f ".npy" || String.eqb f "npy" then Err NameError
  else if String.eqb f ".nc" || String.eqb f "nc" then Ok NetCDF
  else if String.eqb f ".mat" || String.eqb f "mat" then Ok Matlab
  else Err ValueError.
