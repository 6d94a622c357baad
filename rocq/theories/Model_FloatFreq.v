(* The frequency axis and the choice of a frequency in double precision: spod/base.py 620-631 (get_freq_axis), utils/postproc.py 41-54
   (find_nearest_freq).  numpy converts the integers exactly; dt and the requested frequency are doubles.
   Simplification: no overflow and no NaN. *)
From Coq Require Import Reals List PeanoNat.
From Verif Require Import Model_Float.
Import ListNotations.
Local Open Scope R_scope.
Local Open Scope list_scope.
Set Implicit Arguments.

(* 622: (np.arange(0, n_dft, 1) / dt) / n_dft *)
Definition f_freq_full (n_dft : nat) (dt : R) : list R := map (fun k => fdiv (fdiv (INR k) dt) (INR n_dft)) (seq 0 n_dft).
(* 628, 630: freq[j:] = freq[j:] - 1 / dt *)
Definition f_shift_from (j : nat) (dt : R) (f : list R) : list R := firstn j f ++ map (fun x => fl (x - fdiv 1 dt)) (skipn j f).
(* 622-630 *)
Definition f_freq_axis (isrealx fullspectrum : bool) (n_dft : nat) (dt : R) : list R :=
  if fullspectrum then f_freq_full n_dft dt
  else if isrealx then map (fun k => fdiv (fdiv (INR k) (INR n_dft)) dt) (seq 0 (n_dft / 2 + 1))
  else if (n_dft mod 2 =? 0)%nat then f_shift_from (n_dft / 2 + 1) dt (f_freq_full n_dft dt)
  else f_shift_from ((n_dft + 1) / 2 + 1) dt (f_freq_full n_dft dt).

(* numpy's argmin: the first smallest *)
Fixpoint argmin_from (best : R) (at_ i : nat) (l : list R) : nat :=
  match l with
  | [] => at_
  | x :: r => if Rlt_dec x best then argmin_from x i (S i) r else argmin_from best at_ (S i) r
  end.
Definition argmin (l : list R) : option nat := match l with [] => None | x :: r => Some (argmin_from x 0 1 r) end.
(* postproc.py 53-54: idx = (np.abs(freq - freq_req)).argmin(); the index (None: argmin of an empty sequence raises ValueError) *)
Definition f_nearest (freq_req : R) (freq : list R) : option nat := argmin (map (fun x => Rabs (fl (x - freq_req))) freq).
