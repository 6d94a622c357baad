(* Sequences of POD fits, coefficient computations and reconstructions, by several objects and by the functions of pod.utils, over one
   file system: /repo/pyspod/pod/base.py:31-66 (constructor), 300-306 (result folder), 373-399 (object methods), 402-428 (_store_and_save),
   pod/standard.py:56-72 (mode file), pod/utils.py:17-129 (compute_coeffs_op), 132-225 (compute_reconstruction).
   The numerical kernels are parameters (modelled in Model_Pod); a fit is represented by the results it computed.  Files have their
   real names; a directory is the list of its components (paths relative to the working directory at import are made absolute).
   A failure while saving (I/O error, process killed) is a number of completed writes and whether another one had begun, which
   leaves a file that cannot be read.  Simplification: the working directory does not change. *)
From Coq Require Import QArith String Ascii.
From Verif Require Import Base_List Model_Base Model_Select.
Set Implicit Arguments.
Local Open Scope nat_scope.

Definition dir := list string.
Definition path := (dir * string)%type.
Definition dir_eq_dec (a b : dir) : {a = b} + {a <> b}.
Proof. decide equality; apply string_dec. Defined.
Definition path_eq_dec (a b : path) : {a = b} + {a <> b}.
Proof. decide equality; [apply string_dec|apply dir_eq_dec]. Defined.

Section Session.
(* arrays, parameter dictionaries, data records *)
Variables Arr Pr Dat : Type.
(* params_coeffs.yaml: the parameters of the fit, coeffs_dir, modes_idx, max_axis *)
Inductive content := CArr (a : Arr) | CNpz (a : Arr) | CYaml (p : Pr) | CCoeffsYaml (p : Pr) (coeffs_dir : dir) (modes_idx : option (list nat)) (max_axis : nat) | Torn.
(* newest write first *)
Definition store := list (path * content).
Fixpoint lookup (p : path) (st : store) : option content :=
  match st with [] => None | (q, c) :: r => if path_eq_dec p q then Some c else lookup p r end.
(* open_memmap, np.load, yaml.load: a missing or unreadable file raises *)
Definition read_arr (st : store) (p : path) : res Arr :=
  match lookup p st with Some (CArr a) => Ok a | Some _ => Err ValueError | None => Err OSError end.
Definition read_npz (st : store) (p : path) : res Arr :=
  match lookup p st with Some (CNpz a) => Ok a | Some _ => Err ValueError | None => Err OSError end.
Definition read_yaml (st : store) (p : path) : res Pr :=
  match lookup p st with Some (CYaml a) => Ok a | Some _ => Err ValueError | None => Err OSError end.
Definition read_max_axis (st : store) (p : path) : res nat :=
  match lookup p st with Some (CCoeffsYaml _ _ _ ax) => Ok ax | Some _ => Err ValueError | None => Err OSError end.

(* ---- fit ---- *)
Record fit_result := FitResult { r_modes : Arr; r_weights : Arr; r_eigs : Arr; r_params : Pr }.
(* standard.py:59-66, base.py:409-423 *)
Definition fit_writes (d : dir) (r : fit_result) : list (path * content) :=
  [((d, "modes.npy"%string), CArr (r_modes r)); ((d, "weights.npy"%string), CArr (r_weights r));
   ((d, "params_modes.yaml"%string), CYaml (r_params r)); ((d, "eigs.npz"%string), CNpz (r_eigs r))].

(* ---- coefficients, pod/utils.py:17-129 ---- *)
Variable mean_of : Dat -> Arr.
(* 47-85: number of variables and dimensions from the parameters, modes, number of weights (reshaped to the data, 75), record.
   The values of the weights are not used *)
Variable project : Pr -> Arr -> nat -> Dat -> res Arr.
Variable size_of : Arr -> nat.
(* axis along which the record is distributed, 59 *)
Variable axis_of : Dat -> nat.
Record coeffs_args := CoeffsArgs { a_data : Dat; a_modes_idx : option (list nat) }.
Definition coeffs_writes (st : store) (results_dir : dir) (savedir : option dir) (a : coeffs_args) : res (list (path * content) * dir) :=
  do wt <- read_arr st (results_dir, "weights.npy"%string);
  do phir <- read_arr st (results_dir, "modes.npy"%string);
  do eigs <- read_npz st (results_dir, "eigs.npz"%string);
  do params <- read_yaml st (results_dir, "params_modes.yaml"%string);
  do c <- project params phir (size_of wt) (a_data a);
  let cd := results_dir ++ ["coeffs"%string] ++ match savedir with Some s => s | None => [] end in
  Ok ([((cd, "coeffs.npy"%string), CArr c); ((cd, "modes_r.npy"%string), CArr phir); ((cd, "ltm.npy"%string), CArr (mean_of (a_data a)));
       ((cd, "params_coeffs.yaml"%string), CCoeffsYaml params cd (a_modes_idx a) (axis_of (a_data a)))], cd).

(* ---- reconstruction, pod/utils.py:132-225 ---- *)
Variable nt_of : Arr -> res nat.                                   (* coeffs.shape[1] *)
Variable rebuild : nat -> Arr -> Arr -> Arr -> list nat -> res Arr. (* max_axis, modes, mean, coefficients, times *)
Record recon_args := ReconArgs { b_time : time_sel; b_coeffs : option Arr }.
Definition recon_writes (st : store) (coeffs_dir : dir) (savedir : option dir) (filename : option string) (b : recon_args)
  : res (list (path * content) * (Arr * dir)) :=
  do ltm <- read_arr st (coeffs_dir, "ltm.npy"%string);
  do phir <- read_arr st (coeffs_dir, "modes_r.npy"%string);
  do max_axis <- read_max_axis st (coeffs_dir, "params_coeffs.yaml"%string);
  do c <- match b_coeffs b with
          | Some c => Ok c
          | None => match read_arr st (coeffs_dir, "coeffs.npy"%string) with Ok c => Ok c | Err _ => Err OSError end   (* 160-165 *)
          end;
  do nt <- nt_of c;
  do ts <- selected_times nt (b_time b);
  do r <- rebuild max_axis phir ltm c ts;
  let f := match filename with Some f => f | None => "reconstructed"%string end in
  let cd := coeffs_dir ++ match savedir with Some s => s | None => [] end in
  Ok ([((cd, (f ++ ".npy")%string), CArr r)], (r, cd)).

(* ---- objects ---- *)
(* what the constructor fixed: savedir, n_modes_save *)
Record config := Config { c_savedir : dir; c_nmodes : Z }.
Variable conf : nat -> config.
(* base.py:300-302 *)
Definition results_folder (o : nat) : dir := c_savedir (conf o) ++ [("modes" ++ py_str (c_nmodes (conf o)))%string].
(* attributes _savedir_sim and _coeffs_dir (set together with _file_coeffs) *)
Record obj := Obj { o_sim : option dir; o_coeffs : option dir }.
(* further arguments of the coefficients method *)
Record ignored := Ignored { i_results_dir : dir; i_tol : Q; i_svd : bool; i_T_lb : option Q; i_T_ub : option Q }.
Inductive op :=
| OFit (o : nat) (r : fit_result)
| OCoeffs (o : nat) (i : ignored) (a : coeffs_args)
| ORecon (o : nat) (coeffs_dir : dir) (b : recon_args)
| UCoeffs (results_dir : dir) (savedir : option dir) (a : coeffs_args)
| URecon (coeffs_dir : dir) (savedir : option dir) (filename : option string) (b : recon_args).
(* an operation and the point where it is stopped, if any: number of completed writes, and whether the next one had begun *)
Definition event := (op * option (nat * bool))%type.
Inductive outcome := Done | Dir (d : dir) | Rec (r : Arr) (d : dir) | Raised (e : exn) | Stopped.
Record world := World { w_store : store; w_obj : nat -> obj }.
Definition set_obj (w : nat -> obj) (o : nat) (b : obj) : nat -> obj := fun i => if i =? o then b else w i.
(* perform the writes, possibly not all *)
Definition perform (st : store) (ws : list (path * content)) (stop : option (nat * bool)) : store * bool :=
  match stop with
  | None => (rev ws ++ st, true)
  | Some (k, begun) => match nth_error ws k with
              | Some (p, _) => ((if begun then [(p, Torn)] else []) ++ rev (firstn k ws) ++ st, false)
              | None => (rev ws ++ st, true)
              end
  end.
(* base.py:373-383: results_dir=self._savedir_sim, and neither tol, svd, T_lb nor T_ub is passed on; 386-399 *)
Definition step (w : world) (e : event) : world * outcome :=
  let st := w_store w in
  match fst e with
  | OFit o r =>
      let d := results_folder o in
      let '(st', ok) := perform st (fit_writes d r) (snd e) in
      (World st' (set_obj (w_obj w) o (Obj (Some d) (o_coeffs (w_obj w o)))), if ok then Done else Stopped)
  | OCoeffs o _ a =>
      match o_sim (w_obj w o) with
      | None => (w, Raised AttributeError)
      | Some d =>
          match coeffs_writes st d None a with
          | Err x => (w, Raised x)
          | Ok (ws, cd) => let '(st', ok) := perform st ws (snd e) in
              if ok then (World st' (set_obj (w_obj w) o (Obj (o_sim (w_obj w o)) (Some cd))), Dir cd)
              else (World st' (w_obj w), Stopped)
          end
      end
  | ORecon o _ b =>
      match o_coeffs (w_obj w o) with
      | None => (w, Raised ValueError)
      | Some cd =>
          match recon_writes st cd None None b with
          | Err x => (w, Raised x)
          | Ok (ws, (r, cd')) => let '(st', ok) := perform st ws (snd e) in
              if ok then (World st' (set_obj (w_obj w) o (Obj (o_sim (w_obj w o)) (Some cd'))), Rec r cd')
              else (World st' (w_obj w), Stopped)
          end
      end
  | UCoeffs d s a =>
      match coeffs_writes st d s a with
      | Err x => (w, Raised x)
      | Ok (ws, cd) => let '(st', ok) := perform st ws (snd e) in (World st' (w_obj w), if ok then Dir cd else Stopped)
      end
  | URecon cd s f b =>
      match recon_writes st cd s f b with
      | Err x => (w, Raised x)
      | Ok (ws, (r, cd')) => let '(st', ok) := perform st ws (snd e) in (World st' (w_obj w), if ok then Rec r cd' else Stopped)
      end
  end.
Fixpoint run (w : world) (h : list event) : world * list outcome :=
  match h with
  | [] => (w, [])
  | e :: r => let '(w1, x) := step w e in let '(w2, xs) := run w1 r in (w2, x :: xs)
  end.
Definition start : world := World [] (fun _ => Obj None None).
End Session.
Arguments CArr {Arr Pr}. Arguments CNpz {Arr Pr}. Arguments CYaml {Arr Pr}. Arguments CCoeffsYaml {Arr Pr}. Arguments Torn {Arr Pr}.
Arguments Done {Arr}. Arguments Dir {Arr}. Arguments Rec {Arr}. Arguments Raised {Arr}. Arguments Stopped {Arr}.
Arguments OFit {Arr Pr Dat}. Arguments OCoeffs {Arr Pr Dat}. Arguments ORecon {Arr Pr Dat}. Arguments UCoeffs {Arr Pr Dat}. Arguments URecon {Arr Pr Dat}.
