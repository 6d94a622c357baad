(* Model of the non-numerical part of /repo/pyspod/spod/base.py and of the block layout of
   /repo/pyspod/spod/standard.py. *)
From Coq Require Import QArith Qround DecimalString Decimal String Ascii.
From Verif Require Import Base_List Model_Parallel Model_Reader2.
Local Open Scope nat_scope.
Set Implicit Arguments.

(* ---------- construction ---------- *)
(* base.py:115-117: n_overlap = int(ceil(n_dft * overlap / 100)), rejected when > n_dft - 1.
   overlap is an exact rational here (a float in the code); it may be negative. *)
Definition n_overlap_of (n_dft : Z) (overlap : Q) : Z := Qceiling (inject_Z n_dft * overlap / 100).
Definition check_overlap (n_dft : Z) (overlap : Q) : res Z :=
  let o := n_overlap_of n_dft overlap in
  if (n_dft - 1 <? o)%Z then Err ValueError else Ok o.

(* base.py:119-123, 404-405 and standard.py:260: storage options *)
Record options := Options { o_disk : bool; o_disk2 : bool; o_comm : bool (* communicator given *);
                            o_flat : bool (* file-based data *) }.
Definition check_construct (o : options) : res unit :=
  if o_disk2 o && negb (o_comm o) then Err AssertionError          (* 119-120 *)
  else if o_disk o && o_disk2 o then Err AssertionError            (* 122-123 *)
  else Ok tt.
Definition check_initialize (o : options) : res unit :=
  if o_flat o && negb (o_comm o) then Err AssertionError           (* reader.py:167 and 474: the file readers need a communicator *)
  else if o_flat o && o_disk o then Err AssertionError             (* base.py:404-405 *)
  else Ok tt.
(* standard.py:229-353: what the fit writes: nothing, one file per frequency, one file per mode *)
Inductive storage := NoFiles | PerFrequency | PerMode.
Definition save_modes (o : options) : res storage :=
  if o_disk2 o then (if o_flat o then Ok PerMode else Err AssertionError)
  else if o_disk o then Ok PerFrequency else Ok NoFiles.
Definition fit_storage (o : options) : res storage :=
  do _ <- check_construct o; do _ <- check_initialize o; save_modes o.

(* ---------- block layout ---------- *)
(* base.py:433-435: Python's // is floor division (Z.div) *)
Definition n_blocks_of (nt n_dft n_overlap : Z) : Z := ((nt - n_overlap) / (n_dft - n_overlap))%Z.
(* base.py:465-466 *)
Definition check_feasible (nt n_dft n_overlap : Z) : res Z :=
  let nb := n_blocks_of nt n_dft n_overlap in
  if (n_dft <? 4)%Z || (nb <? 2)%Z then Err ValueError else Ok nb.
(* standard.py:160-161 *)
Definition block_offset (nt n_dft n_overlap i : Z) : Z :=
  (Z.min (i * (n_dft - n_overlap) + n_dft) nt - n_dft)%Z.
(* standard.py:404 on an in-memory record: data[start:end].copy() *)
Definition get_block_array {A} (data : list A) (start end_ : nat) : list A := window start (end_ - start) data.

(* ---------- long-time mean, base.py:589-617 ---------- *)
Section Mean.
Context {V : Type}.
Variables (zero : V) (add : V -> V -> V).
(* np.sum(d, axis=0) over the rows of d; any bracketing is equal in exact arithmetic *)
Definition sum_rows (d : list V) : V := fold_left add d zero.
(* 601-613: in-memory record; nt = self.nt need not be the number of rows passed *)
Definition long_t_sum (nt n_blocks : nat) (data : list V) : V :=
  let split_block := nt / n_blocks in
  let split_res := nt mod n_blocks in
  let t_sum := fold_left (fun t i =>
      let lb := i * split_block in
      let ub := lb + split_block in
      add t (sum_rows (window lb (ub - lb) data))) (seq 0 n_blocks) zero in
  if 0 <? split_res
  then add t_sum (sum_rows (window (nt - split_res) (nt - (nt - split_res)) data))
  else t_sum.
(* 591-600: chunked store *)
Definition long_t_sum_dict (st : list (nat * block V)) : V :=
  fold_left (fun t kb => add t (sum_rows (b_v (snd kb)))) st zero.
(* 614: t_sum / nt *)
Variable divn : V -> nat -> V.
Definition long_t_mean (nt n_blocks : nat) (data : list V) : V := divn (long_t_sum nt n_blocks data) nt.
Definition long_t_mean_dict (nt : nat) (st : list (nat * block V)) : V := divn (long_t_sum_dict st) nt.
End Mean.

(* ---------- frequency axis, base.py:620-631, exact rationals ---------- *)
Definition qn (n : nat) : Q := inject_Z (Z.of_nat n).
Definition freq_full (n_dft : nat) (dt : Q) : list Q := map (fun k => (qn k / dt) / qn n_dft)%Q (seq 0 n_dft).
(* freq[j:] = freq[j:] - 1/dt *)
Definition shift_from (j : nat) (dt : Q) (f : list Q) : list Q :=
  firstn j f ++ map (fun x => x - 1 / dt)%Q (skipn j f).
Definition get_freq_axis (isrealx fullspectrum : bool) (n_dft : nat) (dt : Q) : list Q :=
  if fullspectrum then freq_full n_dft dt
  else if isrealx then map (fun k => (qn k / qn n_dft) / dt)%Q (seq 0 (n_dft / 2 + 1))
  else if n_dft mod 2 =? 0 then shift_from (n_dft / 2 + 1) dt (freq_full n_dft dt)
  else shift_from ((n_dft + 1) / 2 + 1) dt (freq_full n_dft dt).

(* ---------- weights, base.py:554-571 ---------- *)
(* what the user passes as weights: nothing, a dictionary with the array under 'weights', or the array *)
Inductive weights_arg (A : Type) := NoWeights | WeightsDict (w : nd A) | WeightsArray (w : nd A).
Arguments NoWeights {A}. Arguments WeightsDict {A} _. Arguments WeightsArray {A} _.
Definition define_weights {A} (one : A) (user : weights_arg A) (xshape : list nat) (nv : nat) : res (nd A) :=
  let nx := prod xshape in
  match user with
  | WeightsDict w => if length (flat w) =? nx * nv then Ok w else Err ValueError
  | _ => Ok (Nd (xshape ++ [nv]) (repeat one (prod (xshape ++ [nv]))))   (* 565-571 *)
  end.
(* base.py:443-444: only for file-based data: reshape(-1, nv) *)
Definition flatten_weights {A} (flattened : bool) (nv : nat) (w : nd A) : nd A :=
  if flattened then Nd [length (flat w) / nv; nv] (flat w) else w.
(* base.py:456-457, 482-495: distribution, then reshape to one column per local entry *)
Definition local_weights {A} (w : nd A) (max_axis : nat) (c : comm) (xvsize : nat) : res (list A) :=
  do w' <- distribute_dimension w max_axis c;
  if length (flat w') =? xvsize then Ok (flat w') else Err ValueError.

(* base.py:437-457, 482-495: the weights used by a fit without normalisation *)
Definition initialize_weights {A} (one : A) (user : weights_arg A) (xshape : list nat) (nv : nat) (flattened : bool)
    (max_axis : nat) (c : comm) (xvsize : nat) : res (list A) :=
  do w <- define_weights one user xshape nv;
  local_weights (flatten_weights flattened nv w) max_axis c xvsize.

(* ---------- number of saved modes over a history, base.py:500-501, 670 ---------- *)
(* state: the attribute _n_modes_save of the current object, and params['n_modes_save'] *)
Record modes_state := ModesState { ms_attr : nat; ms_params : nat }.
Inductive modes_op := Fit (n_blocks : nat) | NewObject.
Definition modes_step (s : modes_state) (o : modes_op) : modes_state :=
  match o with
  | Fit nb => let a := if nb <? ms_attr s then nb else ms_attr s in ModesState a a
  | NewObject => ModesState (ms_params s) (ms_params s)
  end.
Definition modes_run (requested : nat) (h : list modes_op) : modes_state :=
  fold_left modes_step h (ModesState requested requested).

(* ---------- names ---------- *)
Local Open Scope string_scope.
(* str(n) of a Python int *)
Definition py_str (z : Z) : string := NilZero.string_of_int (Z.to_int z).
(* base.py:517-521 *)
Definition result_folder (n_dft n_overlap n_blocks : Z) : string :=
  "nfft" ++ py_str n_dft ++ "_novlp" ++ py_str n_overlap ++ "_nblks" ++ py_str n_blocks.
(* '{:08d}'.format(n) of a non-negative int *)
Definition pad8 (n : nat) : string :=
  let d := NilZero.string_of_uint (Nat.to_uint n) in
  append (string_of_list_ascii (repeat "0"%char (8 - String.length d))) d.
(* standard.py:124 and base.py:845 *)
Definition block_file (i_blk i_freq : nat) : string := "fft_block" ++ pad8 i_blk ++ "_freq" ++ pad8 i_freq ++ ".npy".
(* standard.py:239 *)
Definition freq_file (f : nat) : string := "freq_idx_" ++ pad8 f ++ ".npy".
(* standard.py:345 *)
Definition mode_file (f m : nat) : string := "freq_idx_f" ++ pad8 f ++ "_m" ++ pad8 m ++ ".npy".
