(* The problem sizes printed at the beginning of a fit: spod/base.py 42, 446-449, 538-546, 719-724, 756-770 and pod/base.py 21, 269-282, 306-308.
   A size of numpy is the number of elements; the products with nbytes and B2GB are exact rationals here. *)
From Coq Require Import QArith.
From Verif Require Import Base_List Model_Parallel Model_Reader1 Model_Reader2.
Local Open Scope nat_scope.
Set Implicit Arguments.

(* spod/base.py 765: self.data.size of an array given by its rows *)
Definition data_size {B} (rows : list (list B)) : nat := sum (map (@length B) rows).
(* spod/base.py 760-763: the sum of v['v'].size over the dictionary of blocks *)
Definition store_size {B} (st : list (nat * block (list B))) : nat := sum (map (fun kb => data_size (b_v (snd kb))) st).

(* allreduce with MPI.MIN, MPI.MAX, MPI.SUM of one integer per process *)
Definition all_min (l : list nat) : nat := match l with [] => 0 | x :: l => fold_left Nat.min l x end.
Definition all_max (l : list nat) : nat := match l with [] => 0 | x :: l => fold_left Nat.max l x end.

(* spod/base.py 756-770: mine = the size on this process, all = the sizes on all processes of the communicator *)
Definition get_sizes (c : comm) (mine : nat) (all : list nat) : nat * nat * nat :=
  match c with
  | None => (mine, mine, mine)
  | Some _ => (all_min all, all_max all, sum all)
  end.

(* spod/base.py 42, pod/base.py 21 *)
Definition B2GB : Q := 93132257461548 # 100000000000000000000000.
(* spod/base.py 540-546: size * nbytes * B2GB *)
Definition gigabytes (n nbytes : nat) : Q := (inject_Z (Z.of_nat (n * nbytes)) * B2GB)%Q.

(* pod/base.py 272-279: data = np.zeros((nt,) + d.shape[1:]) with d the distributed first dataset; then 307: size * data.size *)
Definition pod_size {A} (ds : list (nd A)) (nt : nat) (c : comm) : res nat :=
  match ds with
  | [] => Err IndexError
  | d :: _ =>
      do (d', _, _) <- distribute_data d c;
      Ok ((match c with None => 1 | Some (size, _) => size end) * (nt * prod (tl (shape d'))))
  end.
