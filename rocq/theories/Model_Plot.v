(* /repo/pyspod/utils/postproc.py: plot_2d_modes_at_frequency (341-535), the part that prepares what is drawn, and the effect
   on the caller's coordinate array. Not modelled: axes, colours, files; reading modes (394-395).
   A mode is stored in the file on axes 0 and 1; coordinates are rationals, exact. *)
From Coq Require Import QArith.
From Verif Require Import Base_List.
Set Implicit Arguments.
Local Open Scope nat_scope.

Section Plot.
Variable A : Type.
Variable a0 : A.
(* modes[:,:,var,mode] for given var and mode: n0 rows of n1 entries *)
Record modes_file := Modes { m_n0 : nat; m_n1 : nat; m_nv : nat; m_nm : nat; m_at : nat -> nat -> nat -> nat -> A }.
Definition mat := list (list A).
Definition n_cols (m : mat) : nat := match m with [] => 0 | r :: _ => length r end.
Definition transpose (m : mat) : mat := map (fun j => map (fun r => nth j r a0) m) (seq 0 (n_cols m)).
(* slice(start, stop) of a sequence; None = to the end *)
Definition cut {X} (lim : nat * option nat) (l : list X) : list X :=
  window (fst lim) (match snd lim with Some e => e | None => length l end - fst lim) l.
(* 428-429: np.hstack((mode[:,half:], mode[:,:half])) *)
Definition swap_halves {X} (r : list X) : list X := skipn (length r / 2) r ++ firstn (length r / 2) r.
(* 436-437: np.fft.fftshift along axis 1 *)
Definition fft_shift {X} (r : list X) : list X := skipn (length r - length r / 2) r ++ firstn (length r - length r / 2) r.

Record figure := Figure { f_x1 : list Q; f_x2 : list Q; f_mode : mat }.
(* 413-452 for one variable and mode: nothing (mode not saved), an exception, or a figure. x1, x2: cut coordinates;
   len1, len2: lengths before cutting. *)
Definition draw_one (M : modes_file) (shift180 fftshift : bool) (lim1 lim2 : nat * option nat) (x1 x2 : list Q) (len1 len2 : nat)
    (var mode : nat) : res (option figure) :=
  if m_nm M <=? mode then Ok None
  else if m_nv M <=? var then Err IndexError
  else if (m_n0 M =? 1) || (m_n1 M =? 1) then Err (if shift180 then IndexError else ValueError)   (* squeezed to fewer axes *)
  else
    let m := map (fun i => map (fun j => m_at M i j var mode) (seq 0 (m_n1 M))) (seq 0 (m_n0 M)) in
    let m := if shift180 then map swap_halves m else m in
    let m := if fftshift then map fft_shift m else m in
    let m := if negb (len1 =? n_cols m) || negb (len2 =? length m) then transpose m else m in
    let m := map (cut lim1) (cut lim2 m) in
    if negb (length x1 * length x2 =? length m * n_cols m) then Err ValueError
    else if negb (length x1 =? n_cols m) || negb (length x2 =? length m) then Err TypeError      (* contourf *)
    else Ok (Some (Figure x1 x2 m)).
Fixpoint draw_all (d : nat -> nat -> res (option figure)) (jobs : list (nat * nat)) : res (list figure) :=
  match jobs with
  | [] => Ok []
  | (v, m) :: r =>
      do f <- d v m;
      do fs <- draw_all d r;
      Ok (match f with Some x => x :: fs | None => fs end)
  end.
(* 399-412, 534-535: x1[limits] is a view, so the shift acts on the caller's array; it is undone at the end only.
   Result: what was drawn, and the caller's array after the call. *)
Definition shift_cut (lim : nat * option nat) (q : Q) (l : list Q) : list Q :=
  firstn (fst lim) l ++ map (fun x => (x + q)%Q) (cut lim l) ++ skipn (fst lim + length (cut lim l)) l.
Definition plot_2d_modes (M : modes_file) (vars modes : list nat) (x1 x2 : list Q) (lim1 lim2 : nat * option nat)
    (shift180 fftshift : bool) : res (list figure) * list Q :=
  let x1a := if shift180 then shift_cut lim1 (-180) x1 else x1 in
  let jobs := concat (map (fun v => map (fun m => (v, m)) modes) vars) in
  let r := draw_all (draw_one M shift180 fftshift lim1 lim2 (cut lim1 x1a) (cut lim2 x2) (length x1) (length x2)) jobs in
  match r with
  | Ok figs => (Ok figs, if shift180 then shift_cut lim1 180 x1a else x1a)
  | Err e => (Err e, x1a)
  end.
End Plot.
