(* Sequences of fits, coefficient computations and reconstructions, by several objects and by the functions of spod.utils,
   over one file system: /repo/pyspod/spod/base.py:515-535 (result folder), 634-660 (object methods), 663-701 (_store_and_save),
   spod/standard.py:229-353 (mode files), spod/utils.py:79-221 (compute_coeffs_op), 441-539 (compute_reconstruction),
   684-723 (_get_required_data, _get_modes), utils/postproc.py:88-121 (get_modes_at_freq).
   The numerical kernels are parameters (modelled in Model_Spod, Model_Coeffs).  A fit is represented by the results it computed, since
   nothing here depends on how they were computed.  File names are constructors (C29 and C65 prove the names distinct).
   A failure while saving (I/O error, process killed) is a number of completed writes and whether another one had begun, which
   leaves a file that cannot be read.  Simplifications: the optional `savedir` and `filename` arguments of the functions are at their default;
   a stored array is a value, so shapes are not checked here except the number of modes; fft block files are in C39, C40. *)
From Coq Require Import QArith String Ascii.
From Verif Require Import Base_List Model_Base Model_Select.
Set Implicit Arguments.
Local Open Scope nat_scope.

(* results folder: savedir and the name built by base.py:517-521 *)
Record folder := Folder { savedir_of : string; name_of : string }.
Inductive path :=
| PParams (d : folder)                     (* params_modes.yaml *)
| PEigs (d : folder)                       (* eigs_freq.npz *)
| PWeights (d : folder)                    (* weights.npy *)
| PLtmModes (d : folder)                   (* ltm_modes.npy *)
| PFreq (d : folder) (f : nat)             (* modes/freq_idx_{f}.npy *)
| PMode (d : folder) (f m : nat)           (* modes/freq_idx_f{f}_m{m}.npy *)
| PPhir (d : folder) (lb ub : nat)         (* coeffs_{lb}_{ub}/modes_r.npy *)
| PLtm (d : folder) (lb ub : nat)          (* coeffs_{lb}_{ub}/ltm.npy *)
| PCoeffs (d : folder) (lb ub : nat)       (* coeffs_{lb}_{ub}/coeffs.npy *)
| PCoeffsParams (d : folder) (lb ub : nat) (* coeffs_{lb}_{ub}/params_coeffs.yaml *)
| PRecon (d : folder) (lb ub : nat).       (* coeffs_{lb}_{ub}/reconstructed.npy *)
Definition folder_of (p : path) : folder :=
  match p with
  | PParams d | PEigs d | PWeights d | PLtmModes d | PFreq d _ | PMode d _ _
  | PPhir d _ _ | PLtm d _ _ | PCoeffs d _ _ | PCoeffsParams d _ _ | PRecon d _ _ => d
  end.
Definition folder_eq_dec (a b : folder) : {a = b} + {a <> b}.
Proof. decide equality; apply string_dec. Defined.
Definition path_eq_dec (a b : path) : {a = b} + {a <> b}.
Proof. decide equality; first [apply Nat.eq_dec | apply folder_eq_dec]. Defined.

Section Session.
(* weights, one spatial mode, time mean, coefficient matrix, reconstruction, data record *)
Variables Wt Md Lm Cf Rc Dat : Type.
Variable zero_mode : Md.
Inductive content :=
| CParams (n_freq n_modes : nat) | CEigs (freq : list Q) | CWeights (w : Wt) | CLtm (m : Lm) | CModes (l : list Md)
| CCoeffs (c : Cf) | CCoeffsParams (modes_idx : option (list nat)) (lb ub : nat) | CRecon (r : Rc) | Torn.
(* newest write first *)
Definition store := list (path * content).
Fixpoint lookup (p : path) (st : store) : option content :=
  match st with [] => None | (q, c) :: r => if path_eq_dec p q then Some c else lookup p r end.

(* ---- what a fit stores ---- *)
Record fit_result := FitResult { r_blocks : nat; r_kind : storage; r_nfreq : nat; r_nmodes : nat; r_freq : list Q;
                                 r_weights : Wt; r_ltm : Lm; r_modes : nat -> list Md }.
(* standard.py:229-353: one file per frequency, one file per mode, or none *)
Definition mode_writes (d : folder) (r : fit_result) : list (path * content) :=
  match r_kind r with
  | NoFiles => []
  | PerFrequency => map (fun f => (PFreq d f, CModes (r_modes r f))) (seq 0 (r_nfreq r))
  | PerMode => flat_map (fun f => map (fun m => (PMode d f m, CModes [nth m (r_modes r f) zero_mode])) (seq 0 (r_nmodes r))) (seq 0 (r_nfreq r))
  end.
(* base.py:684-699, after the modes *)
Definition fit_writes (d : folder) (r : fit_result) : list (path * content) :=
  mode_writes d r ++
  [(PWeights d, CWeights (r_weights r)); (PLtmModes d, CLtm (r_ltm r)); (PParams d, CParams (r_nfreq r) (r_nmodes r)); (PEigs d, CEigs (r_freq r))].

(* ---- reading ---- *)
(* np.load, open_memmap, yaml.load: a missing or unreadable file raises *)
Definition read (st : store) (p : path) : res content :=
  match lookup p st with Some Torn => Err ValueError | Some c => Ok c | None => Err OSError end.
(* postproc.py:104-121.  All mode files of the frequency, in order of their number *)
Definition bound (st : store) : nat :=
  fold_right (fun e n => match fst e with PMode _ _ m => Nat.max (S m) n | _ => n end) 0 st.
Definition mode_numbers (st : store) (d : folder) (f : nat) : list nat :=
  filter (fun m => match lookup (PMode d f m) st with Some _ => true | None => false end) (seq 0 (bound st)).
Fixpoint read_modes (st : store) (d : folder) (f : nat) (ms : list nat) : option (list Md) :=
  match ms with
  | [] => Some []
  | m :: r => match lookup (PMode d f m) st, read_modes st d f r with
              | Some (CModes [x]), Some l => Some (x :: l)
              | _, _ => None
              end
  end.
Definition modes_at (st : store) (d : folder) (f : nat) : option (list Md) :=
  match lookup (PFreq d f) st with
  | Some (CModes l) => Some l
  | Some _ => None
  | None => match mode_numbers st d f with [] => None | ms => read_modes st d f ms end
  end.

(* ---- coefficients, spod/utils.py:79-221 ---- *)
Variable mean_of : Dat -> Lm.
Variable nt_of_data : Dat -> nat.
Variable project : list Md -> Wt -> Dat -> Q (* tol *) -> bool (* svd *) -> res Cf.
Record coeffs_args := CoeffsArgs { a_data : Dat; a_modes_idx : option (list nat); a_tol : Q; a_svd : bool;
                                   a_T_lb : option Q; a_T_ub : option Q; a_freq_idx : option (list nat) }.
(* 684-700: eigs_freq first; any failure to read it is reported as a plain Exception (here: OSError) *)
Definition required (st : store) (d : folder) : res (nat * nat * list Q * Wt) :=
  match read st (PEigs d) with
  | Err _ => Err OSError
  | Ok e => do w <- read st (PWeights d); do p <- read st (PParams d);
            match e, w, p with CEigs fr, CWeights wt, CParams nf nm => Ok (nf, nm, fr, wt) | _, _, _ => Err TypeError end
  end.
(* the writes and the returned folder of the coefficients.  modes_idx is recorded (204) and not used *)
Definition coeffs_writes (st : store) (d : folder) (a : coeffs_args) : res (list (path * content) * (folder * nat * nat)) :=
  do q <- required st d;
  let '(nf, nm, fr, wt) := q in
  do s <- coeffs_modes zero_mode (modes_at st d) fr nf (a_T_lb a) (a_T_ub a) (a_freq_idx a) nm (nt_of_data (a_data a));
  let '(sel, phir) := s in
  let lb := f_idx_lb sel in let ub := f_idx_ub sel in
  do c <- project phir wt (a_data a) (a_tol a) (a_svd a);
  Ok ([(PPhir d lb ub, CModes phir); (PLtm d lb ub, CLtm (mean_of (a_data a))); (PCoeffs d lb ub, CCoeffs c);
       (PCoeffsParams d lb ub, CCoeffsParams (a_modes_idx a) lb ub)], (d, lb, ub)).

(* ---- reconstruction, spod/utils.py:441-539 ---- *)
Variable nt_of : Cf -> nat.
Variable rebuild : list Md -> Lm -> Cf -> list nat -> res Rc.
Definition recon_writes (st : store) (cd : folder * nat * nat) (t : time_sel) : res (list (path * content) * Rc) :=
  let '(d, lb, ub) := cd in
  do m <- read st (PLtm d lb ub); do ph <- read st (PPhir d lb ub); do p <- read st (PCoeffsParams d lb ub);
  do c <- match read st (PCoeffs d lb ub) with Err _ => Err OSError | Ok c => Ok c end;   (* 483-488: plain Exception *)
  match m, ph, p, c with
  | CLtm lm, CModes phir, CCoeffsParams _ _ _, CCoeffs cf =>
      do ts <- selected_times (nt_of cf) t; do r <- rebuild phir lm cf ts;
      Ok ([(PRecon d lb ub, CRecon r)], r)
  | _, _, _, _ => Err TypeError
  end.

(* ---- objects ---- *)
(* what the constructor fixed: savedir, n_dft, n_overlap *)
Record config := Config { c_savedir : string; c_ndft : Z; c_novlp : Z }.
Variable conf : nat -> config.
(* attributes _savedir_sim and _coeffs_dir (set together with _file_coeffs) *)
Record obj := Obj { o_sim : option folder; o_coeffs : option (folder * nat * nat) }.
Definition sim_folder (o : nat) (r : fit_result) : folder :=
  Folder (c_savedir (conf o)) (result_folder (c_ndft (conf o)) (c_novlp (conf o)) (Z.of_nat (r_blocks r))).
Inductive op :=
| OFit (o : nat) (r : fit_result)
| OCoeffs (o : nat) (results_dir : folder) (a : coeffs_args)
| ORecon (o : nat) (coeffs_dir : folder * nat * nat) (t : time_sel)
| UCoeffs (results_dir : folder) (a : coeffs_args)
| URecon (coeffs_dir : folder * nat * nat) (t : time_sel).
(* an operation and the point where it is stopped, if any: number of completed writes, and whether the next one had begun *)
Definition event := (op * option (nat * bool))%type.
Inductive outcome := Done | Dir (cd : folder * nat * nat) | Rec (r : Rc) (cd : folder * nat * nat) | Raised (e : exn) | Stopped.
Record world := World { w_store : store; w_obj : nat -> obj }.
Definition set_obj (w : nat -> obj) (o : nat) (b : obj) : nat -> obj := fun i => if i =? o then b else w i.
(* perform the writes, possibly not all *)
Definition perform (st : store) (ws : list (path * content)) (stop : option (nat * bool)) : store * bool :=
  match stop with
  | None => (rev ws ++ st, true)
  | Some (k, begun) => match nth_error ws k with
              | Some (p, _) => ((if begun then [(p, Torn)] else []) ++ rev (firstn k ws) ++ st, false)
              | None => (rev ws ++ st, true)
              end
  end.
Definition no_freq_idx (a : coeffs_args) : coeffs_args :=
  CoeffsArgs (a_data a) (a_modes_idx a) (a_tol a) (a_svd a) (a_T_lb a) (a_T_ub a) None.
(* base.py:634-646: the method passes self._savedir_sim, whatever results_dir is, and no freq_idx *)
Definition step (w : world) (e : event) : world * outcome :=
  let st := w_store w in
  match fst e with
  | OFit o r =>
      let d := sim_folder o r in
      let '(st', ok) := perform st (fit_writes d r) (snd e) in
      (World st' (set_obj (w_obj w) o (Obj (Some d) (o_coeffs (w_obj w o)))), if ok then Done else Stopped)
  | OCoeffs o _ a =>
      match o_sim (w_obj w o) with
      | None => (w, Raised AttributeError)
      | Some d =>
          match coeffs_writes st d (no_freq_idx a) with
          | Err x => (w, Raised x)
          | Ok (ws, cd) => let '(st', ok) := perform st ws (snd e) in
              if ok then (World st' (set_obj (w_obj w) o (Obj (o_sim (w_obj w o)) (Some cd))), Dir cd)
              else (World st' (w_obj w), Stopped)
          end
      end
  | ORecon o _ t =>                                                (* 649-660 *)
      match o_coeffs (w_obj w o) with
      | None => (w, Raised ValueError)
      | Some cd =>
          match recon_writes st cd t with
          | Err x => (w, Raised x)
          | Ok (ws, r) => let '(st', ok) := perform st ws (snd e) in (World st' (w_obj w), if ok then Rec r cd else Stopped)
          end
      end
  | UCoeffs d a =>
      match coeffs_writes st d a with
      | Err x => (w, Raised x)
      | Ok (ws, cd) => let '(st', ok) := perform st ws (snd e) in (World st' (w_obj w), if ok then Dir cd else Stopped)
      end
  | URecon cd t =>
      match recon_writes st cd t with
      | Err x => (w, Raised x)
      | Ok (ws, r) => let '(st', ok) := perform st ws (snd e) in (World st' (w_obj w), if ok then Rec r cd else Stopped)
      end
  end.
Fixpoint run (w : world) (h : list event) : world * list outcome :=
  match h with
  | [] => (w, [])
  | e :: r => let '(w1, x) := step w e in let '(w2, xs) := run w1 r in (w2, x :: xs)
  end.
Definition start : world := World [] (fun _ => Obj None None).
End Session.
Arguments CParams {Wt Md Lm Cf Rc}. Arguments CEigs {Wt Md Lm Cf Rc}. Arguments CWeights {Wt Md Lm Cf Rc}. Arguments CLtm {Wt Md Lm Cf Rc}.
Arguments CModes {Wt Md Lm Cf Rc}. Arguments CCoeffs {Wt Md Lm Cf Rc}. Arguments CCoeffsParams {Wt Md Lm Cf Rc}.
Arguments CRecon {Wt Md Lm Cf Rc}. Arguments Torn {Wt Md Lm Cf Rc}.
Arguments Done {Rc}. Arguments Dir {Rc}. Arguments Rec {Rc}. Arguments Raised {Rc}. Arguments Stopped {Rc}.
Arguments OFit {Wt Md Lm Dat}. Arguments OCoeffs {Wt Md Lm Dat}. Arguments ORecon {Wt Md Lm Dat}. Arguments UCoeffs {Wt Md Lm Dat}. Arguments URecon {Wt Md Lm Dat}.
