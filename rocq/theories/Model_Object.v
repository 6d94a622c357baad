(* The attributes of a batch SPOD object over a history of fits, some of which raise: /repo/pyspod/spod/base.py:140-386 (getters), 391-548
   (_initialize), 802-812, and /repo/pyspod/spod/standard.py:40-150, 360.
   fit assigns the attributes one after the other; an exception leaves the object with what has been assigned so far.
   Simplification: an attempt is described by what its data determine; a fit is cut into the eleven groups of statements below, and an
   attempt may raise for a reason of its own between two groups (a file that cannot be read, a full disk, an interrupt). *)
From Coq Require Import String QArith.
From Verif Require Import Base_List Model_Reader2 Model_Base.
Set Implicit Arguments.
Local Open Scope nat_scope.

Section Object.
Variables (W E : Type).                (* weights arrays, eigenvalue arrays *)
Variable zeros : nat -> nat -> E.      (* np.zeros([n_freq, n_blocks]), standard.py:138 *)
Variable columns : E -> nat.           (* eigs.shape[-1] *)
(* parameters of the object *)
Record params := Params { p_n_dft : nat; p_n_overlap : nat; p_dt : Q; p_fullspectrum : bool; p_savedir : string; p_disk : bool; p_disk2 : bool }.

(* what one call of fit works with: the data determine the first group, w_full the weights after define_weights, w_local after
   distribution, w_flat after normalisation and flattening, w_saved after _store_and_save *)
Record attempt := Attempt { a_nt : nat; a_xshape : list nat; a_real : bool; w_full : W; w_local : W; w_flat : W; w_saved : W; a_eigs : E;
  a_raises : option nat (* raises before group number k *) }.

Record obj := Obj { o_nt : option nat; o_xshape : option (list nat); o_n_blocks : option Z; o_weights : option W; o_freq : option (list Q);
  o_savedir_sim : option string; o_eigs : option E; o_n_modes : option nat }.
Definition fresh : obj := Obj None None None None None None None None.

Definition blocks (p : params) (a : attempt) : Z := n_blocks_of (Z.of_nat (a_nt a)) (Z.of_nat (p_n_dft p)) (Z.of_nat (p_n_overlap p)).
Definition freq_of (p : params) (a : attempt) : list Q := get_freq_axis (a_real a) (p_fullspectrum p) (p_n_dft p) (p_dt p).
Definition folder_of (p : params) (a : attempt) : string :=
  append (p_savedir p) (append "/" (result_folder (Z.of_nat (p_n_dft p)) (Z.of_nat (p_n_overlap p)) (blocks p a))).
Definition feasible (p : params) (a : attempt) : bool := negb ((p_n_dft p <? 4) || (blocks p a <? 2)%Z).

(* the groups in program order *)
Definition groups (p : params) (a : attempt) : list (obj -> res obj) := [
  (* base.py:414-419 *)
  fun '(Obj nt xs nb w fr sd eg nm) => Ok (Obj (Some (a_nt a)) (Some (a_xshape a)) nb w fr sd eg nm);
  (* 433-435 *)
  fun '(Obj nt xs nb w fr sd eg nm) => Ok (Obj nt xs (Some (blocks p a)) w fr sd eg nm);
  (* 438, 554-571 *)
  fun '(Obj nt xs nb w fr sd eg nm) => Ok (Obj nt xs nb (Some (w_full a)) fr sd eg nm);
  (* 444-457: data read, weights distributed *)
  fun '(Obj nt xs nb w fr sd eg nm) => Ok (Obj nt xs nb (Some (w_local a)) fr sd eg nm);
  (* 465-466 *)
  fun o => if feasible p a then Ok o else Err ValueError;
  (* 468-501: mean, weights normalised and flattened *)
  fun '(Obj nt xs nb w fr sd eg nm) => Ok (Obj nt xs nb (Some (w_flat a)) fr sd eg nm);
  (* 508 *)
  fun '(Obj nt xs nb w fr sd eg nm) => Ok (Obj nt xs nb w (Some (freq_of p a)) sd eg nm);
  (* 516-530: folders *)
  fun '(Obj nt xs nb w fr sd eg nm) => Ok (Obj nt xs nb w fr (Some (folder_of p a)) eg nm);
  (* standard.py:50-139: blocks, then an array of zeros *)
  fun '(Obj nt xs nb w fr sd eg nm) => Ok (Obj nt xs nb w fr sd
                   (Some (zeros (length (freq_of p a)) (Z.to_nat (blocks p a)))) nm);
  (* standard.py:142, 195-364: modes computed and written, then eigenvalues *)
  fun '(Obj nt xs nb w fr sd eg nm) => Ok (Obj nt xs nb w fr sd (Some (a_eigs a)) nm);
  (* standard.py:145, base.py:662-704 *)
  fun '(Obj nt xs nb w fr sd eg nm) => Ok (Obj nt xs nb (Some (w_saved a)) fr sd eg (Some (columns (a_eigs a))))
].
Fixpoint exec (gs : list (obj -> res obj)) (stop : option nat) (o : obj) : obj * bool :=
  match gs with
  | [] => (o, true)
  | g :: gs' =>
      match stop with
      | Some 0 => (o, false)
      | _ => match g o with Ok o' => exec gs' (option_map pred stop) o' | Err _ => (o, false) end
      end
  end.
(* the object after the call, and whether the call returned *)
Definition fit (p : params) (o : obj) (a : attempt) : obj * bool := exec (groups p a) (a_raises a) o.
Definition history (p : params) (l : list attempt) : obj := fold_left (fun o a => fst (fit p o a)) l fresh.

(* 802-812: the method get_modes_at_freq; the folder that is read, or None *)
Definition get_modes_at_freq (p : params) (o : obj) : res (option string) :=
  if p_disk p || p_disk2 p
  then match o_savedir_sim o with None => Err AttributeError | Some d => Ok (Some d) end   (* 808: _modes_dir is set by 526, never to None *)
  else Ok None.
End Object.
