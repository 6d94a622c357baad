(* Property theorem C61: which records POD accepts. *)
From Verif Require Import Base_List Model_PodShape.
Lemma size_app a b : size_of (a ++ b) = size_of a * size_of b.
Proof. induction a; unfold size_of in *; simpl; [lia|]. rewrite IHa. lia. Qed.
Lemma size_pos a : Forall (fun d => 1 <= d) a -> 1 <= size_of a.
Proof. induction 1; unfold size_of in *; simpl; [lia|nia]. Qed.
Lemma length_removelast {A} (l : list A) : length (removelast l) = length l - 1.
Proof. induction l as [|a [|b l] IH]; simpl in *; lia. Qed.
Lemma removelast_neq {A} (l : list A) : l <> [] -> l <> removelast l.
Proof. intros H E. apply (f_equal (@length A)) in E. rewrite length_removelast in E. destruct l; [congruence|simpl in E; lia]. Qed.
Lemma xshape_one nv xdim nt xs : nv = 1 -> length xs <> xdim + 1 -> pod_xshape nv xdim (nt :: xs) = Ok xs.
Proof.
intros -> H. assert (Ec : x_tmp_shape 1 xdim (nt :: xs) = (1 :: xs) ++ [1]).
{ unfold x_tmp_shape. change (tl (nt :: xs)) with xs. destruct (Nat.eqb_spec (length (1 :: xs)) (xdim + 2)) as [E|E]; [simpl in E; lia|reflexivity]. }
unfold pod_xshape. rewrite Ec.
destruct (Nat.ltb_spec (length ((1 :: xs) ++ [1])) 2) as [H2|H2]; [rewrite app_length in H2; simpl in H2; lia|].
rewrite last_last. change (tl ((1 :: xs) ++ [1])) with (xs ++ [1]). now rewrite removelast_last.
Qed.
Lemma xshape_many nv xdim nt xs sh : nv <> 1 \/ length xs = xdim + 1 -> pod_xshape nv xdim (nt :: xs) = Ok sh -> sh = removelast xs /\ xs <> [].
Proof.
intros H. unfold pod_xshape, x_tmp_shape. cbn [tl length].
replace ((nv =? 1) && negb (S (length xs) =? xdim + 2)) with false.
- destruct (Nat.ltb_spec (length (1 :: xs)) 2); [discriminate|]. destruct (last (1 :: xs) 1 =? 0); [discriminate|].
  intro E. injection E as <-. split; [reflexivity|]. intros ->. simpl in *. lia.
- destruct (Nat.eqb_spec nv 1); [|reflexivity]. destruct (Nat.eqb_spec (S (length xs)) (xdim + 2)); [reflexivity|lia].
Qed.
(* fit completes exactly for one variable, stored without a variable axis, records of equal shape, and an explicit
   number of modes not above the number of snapshots *)
Theorem C61_accepted : forall nv xdim nt xs rest k,
  Forall (fun d => 1 <= d) xs ->
  ((exists sh, pod_fit_shape nv xdim ((nt :: xs) :: rest) k = Ok sh) <->
   nv = 1 /\ length xs <> xdim + 1 /\ Forall (fun s => tl s = xs) rest /\
   exists m, k = Int m /\ m <= nt + fold_right Nat.add 0 (map (fun s => hd 0 s) rest)).
Proof.
intros nv xdim nt xs rest k Hp. unfold pod_fit_shape.
destruct (Nat.eq_dec nv 1) as [Hv|Hv]; [destruct (Nat.eq_dec (length xs) (xdim + 1)) as [Hl|Hl]|].
- split; [|intros (_ & H & _); lia]. intros [sh E]. exfalso.
  destruct (pod_xshape nv xdim (nt :: xs)) as [xsh|] eqn:Ex; cbn [bind] in E; [|discriminate].
  apply xshape_many in Ex; [|lia]. destruct Ex as [-> Hne]. unfold pod_check in E. cbn [forallb tl] in E.
  destruct (list_eq_dec Nat.eq_dec xs (removelast xs)) as [Ee|]; [now apply removelast_neq in Ee|discriminate].
- rewrite (xshape_one nv xdim nt xs Hv Hl). cbn [bind]. unfold pod_check. cbn [forallb tl map hd fold_right].
  destruct (list_eq_dec Nat.eq_dec xs xs) as [_|]; [|congruence]. cbn [andb].
  destruct (forallb _ rest) eqn:Ef; cbn [bind].
  + assert (HF : Forall (fun s => tl s = xs) rest).
    { apply Forall_forall. intros s Hs. rewrite forallb_forall in Ef. specialize (Ef s Hs). destruct (list_eq_dec Nat.eq_dec (tl s) xs); congruence. }
    unfold pod_save_shape. destruct k as [|m].
    * split; [intros [sh E]; discriminate|intros (_ & _ & _ & m & E & _); discriminate].
    * rewrite size_app. pose proof (size_pos xs Hp) as Hs. set (N := nt + _). subst nv.
      change (size_of [1; m]) with (1 * (m * 1)).
      destruct (Nat.eqb_spec (size_of xs * Nat.min m N) (size_of xs * (1 * (m * 1)))) as [E|E].
      -- split; [intros _|intros; eexists; reflexivity]. repeat split; auto. exists m. split; [reflexivity|]. nia.
      -- split; [intros [sh E']; discriminate|]. intros (_ & _ & _ & m' & Em & Hm). injection Em as <-. exfalso. apply E.
         rewrite Nat.min_l by exact Hm. lia.
  + split; [intros [sh E]; discriminate|]. intros (_ & _ & HF & _). exfalso.
    rewrite (proj2 (forallb_forall _ rest)) in Ef; [discriminate|]. intros s Hs. rewrite Forall_forall in HF. rewrite (HF s Hs).
    destruct (list_eq_dec Nat.eq_dec xs xs); congruence.
- split; [|intros (H & _); lia]. intros [sh E]. exfalso.
  destruct (pod_xshape nv xdim (nt :: xs)) as [xsh|] eqn:Ex; cbn [bind] in E; [|discriminate].
  apply xshape_many in Ex; [|lia]. destruct Ex as [-> Hne]. unfold pod_check in E. cbn [forallb tl] in E.
  destruct (list_eq_dec Nat.eq_dec xs (removelast xs)) as [Ee|]; [now apply removelast_neq in Ee|discriminate].
Qed.
Print Assumptions C61_accepted.
(* a record with a variable axis (documented: time, space..., variables) always fails the assertion *)
Theorem C61_variable_axis_refuted : forall nv xdim nt space rest k,
  1 <= nv -> length space = xdim -> pod_fit_shape nv xdim ((nt :: space ++ [nv]) :: rest) k = Err AssertionError.
Proof.
intros nv xdim nt space rest k Hv Hl. unfold pod_fit_shape, pod_xshape, x_tmp_shape. cbn [tl length].
rewrite app_length. cbn [length].
replace (negb (S (length space + 1) =? xdim + 2)) with false by (destruct (Nat.eqb_spec (S (length space + 1)) (xdim + 2)); [reflexivity|lia]).
rewrite andb_false_r. cbn [length]. rewrite app_length. cbn [length].
destruct (Nat.ltb_spec (S (length space + 1)) 2); [lia|].
replace (last (1 :: space ++ [nv]) 1) with nv by (change (1 :: space ++ [nv]) with ((1 :: space) ++ [nv]); now rewrite last_last).
destruct (Nat.eqb_spec nv 0); [lia|]. cbn [bind tl]. rewrite removelast_last. unfold pod_check. cbn [forallb tl].
destruct (list_eq_dec Nat.eq_dec (space ++ [nv]) space) as [E|]; [|reflexivity].
apply (f_equal (@length nat)) in E. rewrite app_length in E. simpl in E. lia.
Qed.
Print Assumptions C61_variable_axis_refuted.
(* number of modes left at its default: never completes, whatever the record *)
Theorem C61_default_modes_refuted : forall nv xdim nt xs rest, Forall (fun d => 1 <= d) xs ->
  forall sh, pod_fit_shape nv xdim ((nt :: xs) :: rest) Default <> Ok sh.
Proof.
intros nv xdim nt xs rest Hp sh E. assert (H : exists sh, pod_fit_shape nv xdim ((nt :: xs) :: rest) Default = Ok sh) by eauto.
apply (C61_accepted nv xdim nt xs rest Default Hp) in H. destruct H as (_ & _ & _ & m & H & _). discriminate.
Qed.
Print Assumptions C61_default_modes_refuted.
Example C61_nonvacuous : pod_fit_shape 1 2 [[10; 4; 3]; [5; 4; 3]] (Int 7) = Ok [4; 3; 1; 7] /\
  pod_fit_shape 2 2 [[10; 4; 3; 2]] (Int 7) = Err AssertionError /\ pod_fit_shape 1 2 [[10; 4; 3]] Default = Err TypeError /\
  pod_fit_shape 1 2 [[10; 4; 3]] (Int 11) = Err ValueError.
Proof. repeat split. Qed.
