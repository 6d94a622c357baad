(* Integers that the code derives through floating-point arithmetic: spod/base.py 115 (overlap), spod/standard.py 301 (passes), spod/streaming.py 47
   (blocks updated in parallel), utils/reader.py 220-224 (chunks), 520 (chunks at most), spod/utils.py 333 and 354 (half a block), spod/streaming.py 84.
   A double is a real number of the binary64 format; every operation is the exact one rounded to nearest, ties to even (IEEE 754).
   Simplification: no overflow and no NaN; Python's division of integers and numpy's of doubles are both correctly rounded. *)
From Coq Require Import ZArith Reals.
From Flocq Require Import Core.
Local Open Scope R_scope.

Definition fexp : Z -> Z := FLT_exp (-1074) 53.
Definition double (x : R) : Prop := generic_format radix2 fexp x.
Definition fl (x : R) : R := round radix2 fexp ZnearestE x.
Definition fmul (x y : R) : R := fl (x * y).
Definition fdiv (x y : R) : R := fl (x / y).
Definition fadd (x y : R) : R := fl (x + y).

(* spod/base.py 115: int(np.ceil(self._n_dft * self._overlap / 100)) *)
Definition f_overlap (n_dft : Z) (overlap : R) : Z := Zceil (fdiv (fmul (IZR n_dft) overlap) 100).
(* standard.py 301: math.ceil(total_files / comm.size); reader.py 520: math.ceil(nt / comm.size); streaming.py 47: int(np.ceil(n_dft / dn));
   spod/utils.py 333, 354: int(np.ceil(n_dft / 2)) *)
Definition f_ceil_div (a b : Z) : Z := Zceil (fdiv (IZR a) (IZR b)).
(* streaming.py 84: int(n_dft/2 + 1) *)
Definition f_half_plus_one (n : Z) : Z := Ztrunc (fadd (fdiv (IZR n) 2) 1).
(* reader.py 222-224: size_per_ts = np.prod(shape[1:])*item_size/1024/1024; nchunks = int((nt*size_per_ts)/comm.size/256); max(nchunks, 1) *)
Definition f_chunks (nt values item_size size : Z) : Z :=
  let size_per_ts := fdiv (fdiv (IZR (values * item_size)) 1024) 1024 in
  Z.max (Ztrunc (fdiv (fdiv (fmul (IZR nt) size_per_ts) (IZR size)) 256)) 1.
