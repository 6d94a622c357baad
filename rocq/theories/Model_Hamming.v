(* /repo/pyspod/spod/utils.py:648-654 (_hamming_window), spod/base.py:107-110, 503-505 (window and win_weight),
   spod/standard.py:181-187 (window applied, scaled FFT of a block). Real numbers, no rounding; a complex number is a pair. *)
From Coq Require Import List Arith Reals.
Import ListNotations.
Local Open Scope R_scope.

Definition rsum (l : list R) : R := fold_right Rplus 0 l.
(* spod/utils.py:652-654: x = np.arange(0,N,1); window = 0.54 - 0.46*cos(2*pi*x/(N-1)) *)
Definition hamming_window (N : nat) : list R :=
  map (fun x => 54/100 - 46/100 * cos (2 * PI * INR x / (INR N - 1))) (seq 0 N).
(* np.mean *)
Definition mean (l : list R) : R := rsum l / INR (length l).
(* spod/base.py:504 *)
Definition win_weight (window : list R) : R := 1 / mean window.
(* numpy.fft.fft: sum over t of x_t exp(-2 pi i k t / n), real and imaginary parts *)
Definition fft (block : list (R * R)) (k : nat) : R * R :=
  let n := length block in
  let arg t := 2 * PI * INR k * INR t / INR n in
  (rsum (map (fun p => fst (snd p) * cos (arg (fst p)) + snd (snd p) * sin (arg (fst p))) (combine (seq 0 n) block)),
   rsum (map (fun p => snd (snd p) * cos (arg (fst p)) - fst (snd p) * sin (arg (fst p))) (combine (seq 0 n) block))).
(* spod/standard.py:181-187, one spatial entry: coefficient k of the windowed block *)
Definition block_coeff (block : list (R * R)) (k : nat) : R * R :=
  let n := length block in
  let w := hamming_window n in
  let windowed := map (fun p => (fst (fst p) * snd p, snd (fst p) * snd p)) (combine block w) in
  let f := fft windowed k in
  (win_weight w / INR n * fst f, win_weight w / INR n * snd f).
