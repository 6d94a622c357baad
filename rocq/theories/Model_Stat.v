(* Model of pvar, /repo/pyspod/utils/parallel.py:27-46, over exact rationals.
   NaN is None (numpy: NaN absorbs every arithmetic operation). *)
From Verif Require Import Base_List.
From Coq Require Import QArith.
Local Open Scope Q_scope.

Definition qlen {A} (l : list A) : Q := inject_Z (Z.of_nat (length l)).
Definition qsum (l : list Q) : Q := fold_right Qplus 0 l.

Record stat := Stat { s_n : Q; s_m : option Q; s_v : option Q }.

(* lines 31-35: n = size, m = mean, d = (data-m)^2, v = sum(d)/n; an empty array gives NaN *)
Definition local_stat (data : list Q) : stat :=
  match data with
  | [] => Stat 0 None None
  | _ =>
    let n := qlen data in
    let m := qsum data / n in
    let d := map (fun x => (x - m) * (x - m)) data in
    Stat n (Some m) (Some (qsum d / n))
  end.

(* lines 37-43 *)
Definition op_stat (a b : stat) : stat :=
  let n := s_n a + s_n b in
  match s_m a, s_m b, s_v a, s_v b with
  | Some ma, Some mb, Some va, Some vb =>
      let na := s_n a in let nb := s_n b in
      Stat n (Some ((na * ma + nb * mb) / n))
             (Some ((na * va + nb * vb + na * nb * ((ma - mb) * (ma - mb)) / n) / n))
  | _, _, _, _ => Stat n None None
  end.

(* line 45: MPI may bracket the reduction in any way *)
Inductive rtree (A : Type) := Leaf (a : A) | Node (l r : rtree A).
Arguments Leaf {A} _.
Arguments Node {A} _ _.
Fixpoint leaves {A} (t : rtree A) : list A :=
  match t with Leaf a => [a] | Node l r => leaves l ++ leaves r end.
Fixpoint reduce (t : rtree (list Q)) : stat :=
  match t with Leaf a => local_stat a | Node l r => op_stat (reduce l) (reduce r) end.

(* lines 27-46: pvar returns v, m, n *)
Definition pvar (t : rtree (list Q)) : option Q * option Q * Q :=
  let s := reduce t in (s_v s, s_m s, s_n s).
