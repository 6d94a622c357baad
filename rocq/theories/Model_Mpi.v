(* Point-to-point exchange in rounds, as an interleaving of processes: the redistribution of the file readers
   (/repo/pyspod/utils/reader.py:300-333 = 593-626, one round per chunk: Irecv from every rank, Isend to every rank, Waitall) and the
   assembly of mode files (/repo/pyspod/spod/standard.py:289-353, one round per pass: Isend to every writer of the pass, the writer
   posts its Irecv's, Waitall of the sends, Waitall of the receives).
   MPI: a process posts requests in program order and goes on; the k-th message sent by s to d is matched with the k-th receive
   posted by d for s (non-overtaking, no tags, one communicator); a matched message arrives at an arbitrary later time, in any order
   between pairs; a send may be completed early by buffering, or not before its message has arrived (rendezvous).
   Simplifications: requests are waited for until every one posted so far is complete (those of earlier rounds already are); Waitall
   of sends and receives together is Waitall of the sends, then of the receives; errors of the transport are not modelled. *)
From Verif Require Import Base_List Model_Parallel Model_Reader2 Model_Standard.
Set Implicit Arguments.
Local Open Scope nat_scope.

Section Engine.
Variable M : Type.     (* contents of a message *)
Inductive post := Send (dst : nat) (x : M) | Recv (src : nat).
Definition sends_to (d : nat) (l : list post) : list M :=
  flat_map (fun p => match p with Send d' x => if d' =? d then [x] else [] | Recv _ => [] end) l.
Definition recvs_from (s : nat) (l : list post) : nat :=
  length (filter (fun p => match p with Recv s' => s' =? s | Send _ _ => false end) l).

(* size processes, R rounds, prog r a: the requests process r posts in round a, in order *)
Variables (size R : nat) (prog : nat -> nat -> list post).
(* pos: current round and number of instructions done in it (the posts, Waitall of sends, Waitall of receives);
   dl s d k: message k from s to d has arrived; bf s d k: its send was completed by buffering;
   log d: arrivals of the current round in order (source, number, contents); out d: arrivals of each finished round *)
Record state := State { pos : nat -> nat * nat; dl : nat -> nat -> nat -> bool; bf : nat -> nat -> nat -> bool;
                        log : nat -> list (nat * nat * M); out : nat -> list (list (nat * M)) }.
Definition before (r a : nat) : list post := concat (map (prog r) (seq 0 a)).
(* everything r has posted *)
Definition posted (st : state) (r : nat) : list post := before r (fst (pos st r)) ++ firstn (snd (pos st r)) (prog r (fst (pos st r))).
Definition upd {X} (f : nat -> X) (r : nat) (x : X) : nat -> X := fun i => if i =? r then x else f i.
Definition upd3 (f : nat -> nat -> nat -> bool) (s d k : nat) : nat -> nat -> nat -> bool :=
  fun s' d' k' => if (s' =? s) && (d' =? d) && (k' =? k) then true else f s' d' k'.
Definition start : state := State (fun _ => (0, 0)) (fun _ _ _ => false) (fun _ _ _ => false) (fun _ => []) (fun _ => []).

Inductive label := Do (r : nat) | Arrive (s d k : nat) | Buffer (s d k : nat).
Inductive step : state -> label -> state -> Prop :=
| SPost st r a j : r < size -> pos st r = (a, j) -> a < R -> j < length (prog r a) ->
    step st (Do r) (State (upd (pos st) r (a, S j)) (dl st) (bf st) (log st) (out st))
| SWaitSends st r a : r < size -> pos st r = (a, length (prog r a)) -> a < R ->
    (forall d k, k < length (sends_to d (posted st r)) -> dl st r d k = true \/ bf st r d k = true) ->
    step st (Do r) (State (upd (pos st) r (a, S (length (prog r a)))) (dl st) (bf st) (log st) (out st))
| SWaitRecvs st r a : r < size -> pos st r = (a, S (length (prog r a))) -> a < R ->
    (forall s k, k < recvs_from s (posted st r) -> dl st s r k = true) ->
    step st (Do r) (State (upd (pos st) r (S a, 0)) (dl st) (bf st) (upd (log st) r [])
                          (upd (out st) r (out st r ++ [map (fun m => (fst (fst m), snd m)) (log st r)])))
| SArrive st s d k x : s < size -> d < size -> nth_error (sends_to d (posted st s)) k = Some x -> k < recvs_from s (posted st d) ->
    dl st s d k = false ->
    step st (Arrive s d k) (State (pos st) (upd3 (dl st) s d k) (bf st) (upd (log st) d (log st d ++ [(s, k, x)])) (out st))
| SBuffer st s d k : s < size -> d < size -> k < length (sends_to d (posted st s)) -> dl st s d k = false -> bf st s d k = false ->
    step st (Buffer s d k) (State (pos st) (dl st) (upd3 (bf st) s d k) (log st) (out st)).
(* executions *)
Inductive steps : nat -> state -> Prop :=
| Steps0 : steps 0 start
| StepsS n st l st' : steps n st -> step st l st' -> steps (S n) st'.
Definition finished (st : state) : Prop := forall r, r < size -> pos st r = (R, 0).
End Engine.
Arguments Send {M}. Arguments Recv {M}.

(* ---- the two exchanges ---- *)
(* reader.py:320-330: round = chunk; msg c s d: the slice of d in what s read for chunk c *)
Definition reader_prog {M} (size : nat) (msg : nat -> nat -> nat -> M) (r c : nat) : list (post M) :=
  map Recv (seq 0 size) ++ map (fun d => Send d (msg c r d)) (seq 0 size).
(* standard.py:301-325: round = pass, file i is sent to rank i mod size; col r i: file i's column on rank r *)
Definition modes_prog {M} (size total : nat) (col : nat -> nat -> M) (r ipass : nat) : list (post M) :=
  flat_map (fun i => Send (i mod size) (col r i) :: (if r =? i mod size then map Recv (seq 0 size) else []))
           (seq (ipass * size) (Nat.min ((ipass + 1) * size) total - ipass * size)).

(* ---- where the arrivals go ---- *)
(* messages (source, contents) put in a zero buffer in order of arrival, at the place of their source *)
Definition place_all {A} (zero : A) (len : nat) (place : nat -> nat) (arrivals : list (nat * list A)) : list A :=
  fold_left (fun data m => put data (place (fst m)) (snd m)) arrivals (repeat zero len).
(* reader.py:319-321: data has (te-ts) x local points x variables entries, the receive from irank is posted at data[offset[irank]:] *)
Definition chunk_data {A} (zero : A) (size nreaders nxyz nv m dst : nat) (arrivals : list (nat * list A)) : list A :=
  let n := fst (blockdist nxyz size dst) in
  place_all zero (m * (n * nv)) (fun q => offset nreaders m q * (n * nv)) arrivals.
(* standard.py:300, 317-319, 331-340: the buffer of a pass, the receive from irank posted at data[phi0_max*irank:], then the padding removed *)
Definition mode_data {A} (zero : A) (size : nat) (phi : nat -> nat -> nat -> list A) (arrivals : list (nat * list A)) : list A :=
  firstn (sum (counts size phi)) (unpad size phi
    (place_all zero (phi0_max size phi * size) (fun q => phi0_max size phi * q) arrivals)).
