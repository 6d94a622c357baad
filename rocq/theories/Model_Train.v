(* Training and loading the networks of the emulation, /repo/pyspod/emulation/neural_nets.py:120-171, 188-237, as a session of objects that
   share one folder.  Keras is modelled by its contract: model.fit runs the epochs one after the other on the current network and
   reports a loss after each; ModelCheckpoint(monitor='loss', mode='min', save_best_only=True, save_weights_only=True) writes the
   weights after an epoch iff the reported loss is less than all losses seen by this callback (np.inf at first; NaN is never less);
   load_weights replaces the weights of the network.
   Simplifications: losses are rationals, with None for nan and inf; the sequences of C72 are given as one value D per data array;
   the folder is writable; names other than lstm and array shapes are left out. *)
From Coq Require Import String QArith.
From Verif Require Import Base_List Model_Base.
Set Implicit Arguments.
Local Open Scope nat_scope.

Section Train.
Variables N W D : Type.   (* a network with its optimizer; its weights; the sequences of one data array *)
Variable fit_epoch : N -> D -> N * option Q.
Variable weights : N -> W.
Variable load_weights : N -> W -> N.
Variable epochs : nat.    (* params 'epochs' *)

(* 142, 144, 170, 184: name + '.weights.h5' *)
Definition weight_file (part : string) (idx : Z) : string := append (append part (py_str idx)) ".weights.h5".

(* ModelCheckpoint.on_epoch_end: monitor_op(current, best) *)
Definition improves (x : Q) (best : option Q) : bool := match best with None => true | Some b => negb (Qle_bool b x) end.
(* 205-237: fit with the checkpoint; the network after all epochs and the content of the file *)
Fixpoint fit (n : nat) (net : N) (d : D) (best : option Q) (file : option W) : N * option W :=
  match n with
  | 0 => (net, file)
  | S n =>
      let (net', l) := fit_epoch net d in
      match l with
      | Some x => if improves x best then fit n net' d (Some x) (Some (weights net')) else fit n net' d best file
      | None => fit n net' d best file
      end
  end.

(* the objects' current networks (self.model) and the weight files of the folder *)
Record st := St { nets : nat -> option N; folder : string -> option W }.
Inductive event :=
| Initialize (o : nat) (net : N)                            (* model_initialize: a newly built network *)
| Train (o : nat) (idx : Z) (re : D) (im : option D)        (* model_train; im = None if the training data are real (143) *)
| Infer (o : nat) (idx : Z) (complex : bool).               (* model_inference; complex: some input entry is not real (182) *)
Definition put {A} (f : nat -> option A) (o : nat) (x : A) : nat -> option A := fun k => if k =? o then Some x else f k.
Definition write (f : string -> option W) (name : string) (x : option W) : string -> option W :=
  fun n => if String.eqb n name then x else f n.

(* 205-237 for one part *)
Definition train_part (s : st) (o : nat) (part : string) (idx : Z) (d : D) : res st :=
  match nets s o with
  | None => Err AttributeError
  | Some net =>
      let name := weight_file part idx in
      let (net', w) := fit epochs net d None (folder s name) in
      Ok (St (put (nets s) o net') (write (folder s) name w))
  end.
(* 138-144 *)
Definition model_train (s : st) (o : nat) (idx : Z) (re : D) (im : option D) : res st :=
  do s1 <- train_part s o "real" idx re;
  match im with None => Ok s1 | Some d => train_part s1 o "imag" idx d end.
(* 170-171, 182-186: the weights the predictions are made with; load_weights changes the object's network *)
Definition load (s : st) (o : nat) (part : string) (idx : Z) : res (st * W) :=
  match nets s o with
  | None => Err AttributeError
  | Some net =>
      match folder s (weight_file part idx) with
      | None => Err OSError
      | Some w => Ok (St (put (nets s) o (load_weights net w)) (folder s), w)
      end
  end.
Definition model_inference (s : st) (o : nat) (idx : Z) (complex : bool) : res (st * (W * option W)) :=
  do r <- load s o "real" idx;
  if complex then do i <- load (fst r) o "imag" idx; Ok (fst i, (snd r, Some (snd i)))
  else Ok (fst r, (snd r, None)).
(* a history goes on after an exception; if the second load raises, the first one has taken effect *)
Definition step (s : st) (e : event) : st :=
  match e with
  | Initialize o net => St (put (nets s) o net) (folder s)
  | Train o idx re im => match model_train s o idx re im with Ok s' => s' | Err _ => s end
  | Infer o idx complex =>
      match load s o "real" idx with
      | Err _ => s
      | Ok r => if complex then match load (fst r) o "imag" idx with Ok i => fst i | Err _ => fst r end else fst r
      end
  end.
Definition run (s : st) (evs : list event) : st := fold_left step evs s.
End Train.
Arguments Initialize {N D}. Arguments Train {N D}. Arguments Infer {N D}.
