(* The processes of a parallel run as an interleaving transition system: collective calls, folders and files.
   What is modelled: which collective calls each process makes and in which order, which folders and files it creates, tests, reads and
   writes, and when. What is not: the data (see Model_Spod, Model_Parallel), and local computations, which take no step here.
   Collective calls are as weak as the MPI standard allows: a call only waits for the processes whose contribution it needs. *)
From Coq Require Import String Bool Arith Lia List.
Import ListNotations.
Set Implicit Arguments.

(* folders as lists of path components; names of files (how they are spelled is the subject of C65) *)
Definition folder := list string.
Inductive fname :=
| Weights | LtmModes | ParamsModes | EigsFreq | Eigs | PodModes           (* base.py 672-675, pod/base.py 408-410, pod/standard.py 62 *)
| Block (blk f : nat) | Mode (f : nat) | ModePart (f m : nat)             (* standard.py 106, 239, 345 *)
| ModesR | Ltm | CoeffsNpy | ParamsCoeffs | Recon (name : string).        (* spod/utils.py 180-181, 197, 213, 525 *)
Inductive entry := Dir (d : folder) | File (d : folder) (f : fname).
Definition entry_eq_dec (a b : entry) : {a = b} + {a <> b}.
Proof. repeat decide equality. Defined.
Global Arguments entry_eq_dec : simpl never.
Definition disk := entry -> bool.
Definition mem (e : entry) (l : list entry) : bool := if in_dec entry_eq_dec e l then true else false.
Definition add (D : disk) (l : list entry) : disk := fun e => D e || mem e l.

(* collective calls *)
Inductive call :=
| Barrier | Allreduce | Allgather | Exchange      (* Exchange: the sends and receives of one round, see Model_Mpi *)
| Reduce | Bcast | Scan                            (* to / from process 0; prefix sums *)
| FOpen (d : folder) (f : fname) | FSetSize | FSetView | FWrite | FSync | FClose (d : folder) (f : fname).
(* whether process r has to wait in the call until process q has arrived in it too *)
Definition waits_for (c : call) (r q : nat) : bool :=
  match c with
  | Barrier | Allreduce | Allgather | Exchange => true
  | Reduce => r =? 0
  | Bcast => q =? 0
  | Scan => q <=? r
  | _ => false
  end.

Inductive act :=
| Coll (c : call)
| Makedirs (d : folder)
| OpenW (d : folder) (f : fname) | CloseW (d : folder) (f : fname)  (* one process writes a file *)
| Read (d : folder) (f : fname).
Inductive prog :=
| Ret
| Raise
| Act (a : act) (k : prog)
| Test (d : folder) (f : fname) (k : bool -> prog).
(* what a process has done *)
Inductive ev := Did (a : act) | Saw (d : folder) (f : fname) (b : bool).
Record pst := Proc { todo : prog; hist : list ev; waiting : bool }.
Record state := St { dsk : disk; procs : nat -> pst }.

(* a file can only be opened for writing in a folder that exists, and only read if it exists; otherwise the process raises *)
Definition permitted (D : disk) (a : act) : bool :=
  match a with
  | Coll (FOpen d f) | OpenW d f => D (Dir d)
  | Read d f => D (File d f)
  | _ => true
  end.
Definition creates (a : act) : list entry :=
  match a with
  | Makedirs d => [Dir d]
  | Coll (FOpen d f) | OpenW d f => [File d f]
  | _ => []
  end.
Definition is_coll (a : act) : bool := match a with Coll _ => true | _ => false end.
Definition calls (h : list ev) : list call := flat_map (fun e => match e with Did (Coll c) => [c] | _ => [] end) h.
Definition upd (f : nat -> pst) (r : nat) (p : pst) : nat -> pst := fun q => if q =? r then p else f q.

(* one step of process r out of size *)
Inductive step (size : nat) (s : state) : nat -> state -> Prop :=
| step_test : forall r d f k, r < size -> waiting (procs s r) = false -> todo (procs s r) = Test d f k ->
    step size s r (St (dsk s) (upd (procs s) r (Proc (k (dsk s (File d f))) (hist (procs s r) ++ [Saw d f (dsk s (File d f))]) false)))
| step_act : forall r a k, r < size -> waiting (procs s r) = false -> todo (procs s r) = Act a k -> permitted (dsk s) a = true ->
    step size s r (St (add (dsk s) (creates a)) (upd (procs s) r (Proc k (hist (procs s r) ++ [Did a]) (is_coll a))))
| step_fail : forall r a k, r < size -> waiting (procs s r) = false -> todo (procs s r) = Act a k -> permitted (dsk s) a = false ->
    step size s r (St (dsk s) (upd (procs s) r (Proc Raise (hist (procs s r)) false)))
| step_leave : forall r c h, r < size -> waiting (procs s r) = true -> calls (hist (procs s r)) = h ++ [c] ->
    (forall q, q < size -> waits_for c r q = true -> length h < length (calls (hist (procs s q)))) ->
    step size s r (St (dsk s) (upd (procs s) r (Proc (todo (procs s r)) (hist (procs s r)) false))).
Inductive steps (size : nat) : state -> nat -> state -> Prop :=
| steps_0 : forall s, steps size s 0 s
| steps_S : forall s n r s' s'', steps size s n s' -> step size s' r s'' -> steps size s (S n) s''.
Definition start (D : disk) (P : nat -> prog) : state := St D (fun r => Proc (P r) [] false).

(* ------------------------------------------------------------------------------------------------------------------------ *)
(* the programs *)
Fixpoint does (l : list act) (k : prog) : prog := match l with [] => k | a :: l => Act a (does l k) end.
Definition rank0 (r : nat) (l : list act) : list act := if r =? 0 then l else [].
(* parallel.py 164-168 *)
Definition allreduce : list act := [Coll Barrier; Coll Allreduce].
(* parallel.py 100, 126, 148: distribute, distribute_data, distribute_dimension *)
Definition distribute : list act := [Coll Barrier].
(* parallel.py 186-248 *)
Definition npy_save (d : folder) (f : fname) : list act :=
  [Coll Allreduce; Coll Scan; Coll (FOpen d f); Coll FSetSize; Coll Bcast; Coll FSetView; Coll FWrite; Coll FSync; Coll (FClose d f)].
(* np.save, np.savez, yaml.dump: one process writes a file *)
Definition write (d : folder) (f : fname) : list act := [OpenW d f; CloseW d f].

(* where the data come from: nd arrays in memory; files read in so many chunks *)
Inductive source := Arrays (nd : nat) | NetCDF (chunks : nat) | Matlab (chunks : nat).
Inductive storage := NoModes | PerFreq | PerMode.
Record fitcfg := Fit {
  f_dir : folder;              (* base.py 516-520 *)
  f_nb : nat; f_nf : nat; f_nm : nat;
  f_savefft : bool; f_reuse : bool;
  f_store : storage;
  f_src : source;
  f_norm : option nat          (* number of variables if normalize_weights *) }.
Definition modes_dir (d : folder) : folder := d ++ ["modes"%string].   (* base.py 526 *)
Definition blocks_dir (d : folder) : folder := d ++ ["blocks"%string]. (* base.py 533 *)
Definition reps (n : nat) (l : list act) : list act := flat_map (fun _ => l) (seq 0 n).
(* reader.py 214-227, 509-523 *)
Definition reader_init (s : source) : list act :=
  match s with Arrays _ => [] | NetCDF _ => reps 4 [Coll Bcast] | Matlab _ => reps 3 [Coll Bcast] end.
(* reader.py 79-86; 294-332 and 587-625 for every chunk (the padded variant always fails, C18), 411, 703 *)
Definition get_data (s : source) : list act :=
  match s with
  | Arrays nd => reps nd distribute
  | NetCDF n | Matlab n => reps n [Coll Allreduce; Coll Exchange] ++ [Coll Reduce]
  end.
(* base.py 391-551; streaming reads the first snapshot instead of the record *)
Definition initialize (c : fitcfg) (streaming : bool) (r : nat) : list act :=
  reader_init (f_src c) ++ (if streaming then distribute else get_data (f_src c)) ++ distribute
  ++ match f_norm c with Some nv => reps nv [Coll Allreduce] | None => [] end
  ++ rank0 r ([Makedirs (f_dir c); Makedirs (modes_dir (f_dir c))] ++ if f_savefft c then [Makedirs (blocks_dir (f_dir c))] else [])
  ++ reps 3 [Coll Allreduce] ++ [Coll Barrier].
(* base.py 838-858: counts the blocks of which all frequencies are there *)
Fixpoint freqs_present (d : folder) (blk : nat) (fs : list nat) (cnt : nat) (k : nat -> prog) : prog :=
  match fs with
  | [] => k cnt
  | f :: fs => Test d (Block blk f) (fun b => freqs_present d blk fs (if b then S cnt else cnt) k)
  end.
Fixpoint blocks_present (d : folder) (nf : nat) (blks : list nat) (cnt : nat) (k : nat -> prog) : prog :=
  match blks with
  | [] => k cnt
  | b :: blks => freqs_present d b (seq 0 nf) 0 (fun n => blocks_present d nf blks (if n =? nf then S cnt else cnt) k)
  end.
(* standard.py 66-83: load the blocks, distribute them *)
Definition load_blocks (c : fitcfg) : list act :=
  flat_map (fun b => map (fun f => Read (blocks_dir (f_dir c)) (Block b f)) (seq 0 (f_nf c))) (seq 0 (f_nb c)) ++ reps (f_nf c) distribute.
(* standard.py 93-116 *)
Definition compute_blocks (c : fitcfg) : list act :=
  flat_map (fun b => if f_savefft c then flat_map (fun f => npy_save (blocks_dir (f_dir c)) (Block b f)) (seq 0 (f_nf c)) else [])
           (seq 0 (f_nb c)).
(* standard.py 303-348: the writer of file i stores it in round i / size *)
Definition mode_rounds (c : fitcfg) (size r : nat) : list act :=
  let total := f_nf c * f_nm c in
  flat_map (fun ipass => Coll Exchange ::
    flat_map (fun i => if i mod size =? r then write (modes_dir (f_dir c)) (ModePart (i / f_nm c) (i mod f_nm c)) else [])
             (seq (ipass * size) (Nat.min ((ipass + 1) * size) total - ipass * size)))
    (seq 0 ((total + size - 1) / size)).
Definition save_modes (c : fitcfg) (size r : nat) : list act :=
  match f_store c with
  | NoModes => []
  | PerFreq => flat_map (fun f => npy_save (modes_dir (f_dir c)) (Mode f)) (seq 0 (f_nf c))   (* standard.py 236-247 *)
  | PerMode => [Coll Allreduce; Coll Allgather] ++ mode_rounds c size r                         (* standard.py 292-348 *)
  end.
(* base.py 684-704 *)
Definition store_and_save (c : fitcfg) (r : nat) : list act :=
  npy_save (f_dir c) Weights ++ npy_save (f_dir c) LtmModes
  ++ rank0 r (write (f_dir c) ParamsModes ++ write (f_dir c) EigsFreq) ++ [Coll Barrier].
(* standard.py 131, 202, 153 *)
Definition after_blocks (c : fitcfg) (size r : nat) : list act :=
  [Coll Barrier] ++ allreduce ++ save_modes c size r ++ store_and_save c r ++ [Coll Barrier].
(* standard.py 30-154 *)
Definition spod_fit (c : fitcfg) (size r : nat) (k : prog) : prog :=
  does (initialize c false r)
    (let go (present : bool) := does (if present then load_blocks c else compute_blocks c) (does (after_blocks c size r) k) in
     if f_reuse c then blocks_present (blocks_dir (f_dir c)) (f_nf c) (seq 0 (f_nb c)) 0 (fun n => go (n =? f_nb c)) else go false).
(* streaming.py: completed i tells whether a block is complete after snapshot i *)
Definition stream_steps (c : fitcfg) (completed : list bool) : list act :=
  flat_map (fun ib : nat * bool => (if fst ib =? 0 then [] else distribute) ++ (if snd ib then reps (f_nf c) (allreduce ++ allreduce) else []))
           (combine (seq 0 (length completed)) completed).
Definition stream_fit (c : fitcfg) (completed : list bool) (r : nat) (k : prog) : prog :=
  does (initialize c true r ++ distribute ++ stream_steps c completed
        ++ flat_map (fun f => npy_save (modes_dir (f_dir c)) (Mode f)) (seq 0 (f_nf c))
        ++ store_and_save c r ++ [Coll Barrier]) k.
(* postproc.py 104-121 (get_modes_at_freq) and spod/utils.py 697-699, 322-325: the file of the frequency, else all its files per mode found by
   glob.glob; bound: a number above all mode numbers in the folder. Without any file `m` is unbound. *)
Fixpoint find_parts (d : folder) (f : nat) (ms found : list nat) (k : list nat -> prog) : prog :=
  match ms with
  | [] => k found
  | m :: ms => Test d (ModePart f m) (fun b => find_parts d f ms (if b then found ++ [m] else found) k)
  end.
Fixpoint get_modes (d : folder) (bound : nat) (freqs : list nat) (k : prog) : prog :=
  match freqs with
  | [] => k
  | f :: fs =>
      Test d (Mode f) (fun b =>
        if b then does (Read d (Mode f) :: distribute) (get_modes d bound fs k)
        else find_parts d f (seq 0 bound) [] (fun found =>
               match found with
               | [] => Raise
               | _ => does (map (fun m => Read d (ModePart f m)) found ++ distribute) (get_modes d bound fs k)
               end))
  end.
Record coefcfg := Coef {
  c_res : folder;             (* results folder *)
  c_dir : folder;             (* coefficient folder, utils.py 166-167 *)
  c_freqs : list nat;         (* frequencies used *)
  c_bound : nat;
  c_conv : bool }.
(* spod/utils.py 81-220 (projection), 224-438 (convolution) *)
Definition spod_coeffs (c : coefcfg) (r : nat) (k : prog) : prog :=
  does ([Read (c_res c) EigsFreq; Read (c_res c) Weights; Read (c_res c) ParamsModes] ++ distribute ++ distribute)
    (get_modes (modes_dir (c_res c)) (c_bound c) (c_freqs c)
      (does (rank0 r [Makedirs (c_dir c)] ++ [Coll Barrier]
        ++ (if c_conv c then [] else allreduce ++ allreduce) ++ [Coll Barrier]
        ++ npy_save (c_dir c) ModesR ++ npy_save (c_dir c) Ltm ++ [Coll Barrier]
        ++ rank0 r (write (c_dir c) CoeffsNpy) ++ [Coll Barrier]
        ++ write (c_dir c) ParamsCoeffs ++ [Coll Barrier]) k)).
(* spod/utils.py 441-537, pod/utils.py 132-225: out is the folder of the reconstruction *)
Record reccfg := Rec { r_dir : folder; r_out : folder; r_name : string }.
Definition reconstruct (c : reccfg) (r : nat) (k : prog) : prog :=
  does ([Read (r_dir c) Ltm; Read (r_dir c) ModesR; Read (r_dir c) ParamsCoeffs; Read (r_dir c) CoeffsNpy]
        ++ distribute ++ distribute ++ rank0 r [Makedirs (r_out c)] ++ [Coll Barrier]
        ++ npy_save (r_out c) (Recon (r_name c)) ++ [Coll Barrier]) k.
(* pod/base.py 209-315, 402-428, pod/standard.py 30-72 *)
Definition pod_fit (d : folder) (nd : nat) (norm : option nat) (r : nat) (k : prog) : prog :=
  does (reps nd distribute ++ distribute ++ match norm with Some nv => reps nv [Coll Allreduce] | None => [] end
        ++ rank0 r [Makedirs d] ++ [Coll Barrier] ++ allreduce ++ npy_save d PodModes
        ++ npy_save d Weights ++ rank0 r (write d ParamsModes ++ write d Eigs) ++ [Coll Barrier]) k.
(* pod/utils.py 17-129 *)
Definition pod_coeffs (res dir : folder) (r : nat) (k : prog) : prog :=
  does ([Read res Weights; Read res PodModes; Read res Eigs; Read res ParamsModes]
        ++ distribute ++ distribute ++ distribute ++ allreduce ++ rank0 r [Makedirs dir] ++ [Coll Barrier]
        ++ rank0 r (write dir CoeffsNpy) ++ npy_save dir ModesR ++ npy_save dir Ltm
        ++ write dir ParamsCoeffs ++ [Coll Barrier]) k.
(* a session: calls made one after the other by all processes *)
Inductive cmd :=
| CFit (c : fitcfg) | CStream (c : fitcfg) (completed : list bool) | CCoeffs (c : coefcfg) | CRec (c : reccfg)
| CPod (d : folder) (nd : nat) (norm : option nat) | CPodCoeffs (res dir : folder).
Fixpoint session (size : nat) (cs : list cmd) (r : nat) : prog :=
  match cs with
  | [] => Ret
  | CFit c :: cs => spod_fit c size r (session size cs r)
  | CStream c l :: cs => stream_fit c l r (session size cs r)
  | CCoeffs c :: cs => spod_coeffs c r (session size cs r)
  | CRec c :: cs => reconstruct c r (session size cs r)
  | CPod d nd norm :: cs => pod_fit d nd norm r (session size cs r)
  | CPodCoeffs res dir :: cs => pod_coeffs res dir r (session size cs r)
  end.
