(* Vocabulary for statements about parallel runs (Model_Spmd): nothing here refers to how the programs are built. *)
From Coq Require Import String Bool Arith List.
From Verif Require Import Model_Spmd.
Import ListNotations.
Set Implicit Arguments.
Definition finished (s : state) (r : nat) : Prop := todo (procs s r) = Ret /\ waiting (procs s r) = false.
Definition raised (s : state) (r : nat) : Prop := todo (procs s r) = Raise.
Definition can_step (size : nat) (s : state) : Prop := exists r s', step size s r s'.
(* the collective calls of any two processes agree as far as both have got *)
Definition matched (size : nat) (s : state) : Prop :=
  forall q r i c c', q < size -> r < size -> nth_error (calls (hist (procs s q))) i = Some c -> nth_error (calls (hist (procs s r))) i = Some c' -> c = c'.
Definition opening (e : entry) (v : ev) : bool :=
  match v with Did (OpenW d f) | Did (Coll (FOpen d f)) => if entry_eq_dec e (File d f) then true else false | _ => false end.
Definition closing (e : entry) (v : ev) : bool :=
  match v with Did (CloseW d f) | Did (Coll (FClose d f)) => if entry_eq_dec e (File d f) then true else false | _ => false end.
Definition opens (e : entry) (h : list ev) : nat := length (filter (opening e) h).
Definition closes (e : entry) (h : list ev) : nat := length (filter (closing e) h).
(* process r is about to read the file *)
Definition reading (s : state) (r : nat) (d : folder) (f : fname) : Prop :=
  waiting (procs s r) = false /\ exists k, todo (procs s r) = Act (Read d f) k.
(* process q has opened the file for writing and not closed it yet *)
Definition writing (s : state) (q : nat) (d : folder) (f : fname) : Prop :=
  closes (File d f) (hist (procs s q)) < opens (File d f) (hist (procs s q)).
(* the files looked for and whether they were there, in order *)
Definition tests (h : list ev) : list ev := filter (fun v => match v with Saw _ _ _ => true | _ => false end) h.
(* any two processes have looked for the same files with the same results as far as both have got *)
Definition same_tests (size : nat) (s : state) : Prop :=
  forall q r i v v', q < size -> r < size -> nth_error (tests (hist (procs s q))) i = Some v -> nth_error (tests (hist (procs s r))) i = Some v' -> v = v'.

(* what a call leaves on the disk; the number of processes does not occur *)
Definition leaves (c : cmd) : list entry :=
  match c with
  | CFit c =>
      [Dir (f_dir c); Dir (modes_dir (f_dir c))]
      ++ (if f_savefft c then Dir (blocks_dir (f_dir c)) :: map (fun bf => File (blocks_dir (f_dir c)) (Block (fst bf) (snd bf))) (list_prod (seq 0 (f_nb c)) (seq 0 (f_nf c))) else [])
      ++ match f_store c with
         | NoModes => []
         | PerFreq => map (fun f => File (modes_dir (f_dir c)) (Mode f)) (seq 0 (f_nf c))
         | PerMode => map (fun fm => File (modes_dir (f_dir c)) (ModePart (fst fm) (snd fm))) (list_prod (seq 0 (f_nf c)) (seq 0 (f_nm c)))
         end
      ++ map (File (f_dir c)) [Weights; LtmModes; ParamsModes; EigsFreq]
  | CStream c _ =>
      [Dir (f_dir c); Dir (modes_dir (f_dir c))] ++ (if f_savefft c then [Dir (blocks_dir (f_dir c))] else [])
      ++ map (fun f => File (modes_dir (f_dir c)) (Mode f)) (seq 0 (f_nf c)) ++ map (File (f_dir c)) [Weights; LtmModes; ParamsModes; EigsFreq]
  | CCoeffs c => Dir (c_dir c) :: map (File (c_dir c)) [ModesR; Ltm; CoeffsNpy; ParamsCoeffs]
  | CRec c => [Dir (r_out c); File (r_out c) (Recon (r_name c))]
  | CPod d _ _ => Dir d :: map (File d) [PodModes; Weights; ParamsModes; Eigs]
  | CPodCoeffs _ dir => Dir dir :: map (File dir) [CoeffsNpy; ModesR; Ltm; ParamsCoeffs]
  end.
(* what a call needs on the disk *)
Definition needs (D : disk) (c : cmd) : Prop :=
  match c with
  | CCoeffs c =>
      (forall f, In f [EigsFreq; Weights; ParamsModes] -> D (File (c_res c) f) = true)
      /\ forall f, In f (c_freqs c) -> D (File (modes_dir (c_res c)) (Mode f)) = true
           \/ exists m, m < c_bound c /\ D (File (modes_dir (c_res c)) (ModePart f m)) = true
  | CRec c => forall f, In f [Ltm; ModesR; ParamsCoeffs; CoeffsNpy] -> D (File (r_dir c) f) = true
  | CPodCoeffs res _ => forall f, In f [Weights; PodModes; Eigs; ParamsModes] -> D (File res f) = true
  | _ => True
  end.
(* every call of a session finds what it needs in what was there and what the calls before it leave *)
Fixpoint provided (D : disk) (cs : list cmd) : Prop :=
  match cs with [] => True | c :: cs => needs D c /\ provided (add D (leaves c)) cs end.
(* a program that raises after m operations, if it has not come to its end *)
Fixpoint fail_after (m : nat) (p : prog) {struct p} : prog :=
  match p with
  | Ret => Ret
  | Raise => Raise
  | Act a k => match m with 0 => Raise | S m => Act a (fail_after m k) end
  | Test d f k => match m with 0 => Raise | S m => Test d f (fun b => fail_after m (k b)) end
  end.
(* the same session, but process q raises after m operations *)
Definition one_fails (q m : nat) (P : nat -> prog) : nat -> prog := fun r => if r =? q then fail_after m (P r) else P r.
