(* Concrete histories meeting the hypotheses of C84 and C96-C99. *)
From Coq Require Import QArith String.
From Verif Require Import Base_List Model_Base Model_Select Model_Session Proof_Session Prop_Session Prop_Session2 Prop_Session3 Prop_Session4 Prop_Session5.
Set Implicit Arguments.
Local Open Scope nat_scope.

(* weights, modes, means, coefficients and data are numbers; a reconstruction records what it was computed from *)
Definition ex_project (phir : list nat) (w d : nat) (_ : Q) (_ : bool) : res nat := Ok (fold_right Nat.add 0 phir * w + d).
Definition ex_rebuild (phir : list nat) (lm c : nat) (ts : list nat) : res (list nat * nat * nat * list nat) := Ok (phir, lm, c, ts).
(* objects 0 and 1: same configuration; object 2: another savedir *)
Definition ex_conf (o : nat) : config := Config (if o <? 2 then "out" else "other") 8 4.
Definition ex_step := @step nat nat nat nat (list nat * nat * nat * list nat) nat 0 (fun d => d) (fun _ => 3) ex_project (fun _ => 3) ex_rebuild ex_conf.
Definition ex_run := @run nat nat nat nat (list nat * nat * nat * list nat) nat 0 (fun d => d) (fun _ => 3) ex_project (fun _ => 3) ex_rebuild ex_conf.
Definition ex_start := @start nat nat nat nat (list nat * nat * nat * list nat).
Definition ex_fit (kind : storage) (nm s : nat) : fit_result nat nat nat :=
  FitResult 4 kind 2 nm [0; 1 # 4]%Q s 0 (fun f => map (fun m => s + 10 * f + m) (seq 0 nm)).
Definition ex_args (d : nat) (mi : option (list nat)) : coeffs_args nat := CoeffsArgs d mi (1 # 1000) true None None None.
Definition ex_dir : folder := Folder "out" (result_folder 8 4 4).

Example Ex_consistent : forall kind nm s, 1 <= nm -> consistent (ex_fit kind nm s).
Proof. intros. repeat split; cbn; try lia. intros f _. now rewrite map_length, seq_length. Qed.
Definition ex_all : time_sel := TStr "all".
(* two objects with the same configuration: the folder is shared, so the reconstruction of object 0 is that of object 1's data *)
Definition ex_shared : list (event nat nat nat nat) :=
  [(OFit 0 (ex_fit PerFrequency 2 30), None); (OCoeffs 0 ex_dir (ex_args 5 None), None);
   (OFit 1 (ex_fit PerFrequency 2 60), None)].
Example Ex_C97_shared : last_coeffs_dir 0 ex_shared (snd (ex_run ex_start ex_shared)) = Some (ex_dir, 0, 1) /\
  snd (ex_step (fst (ex_run ex_start ex_shared)) (OCoeffs 1 ex_dir (ex_args 6 None), None)) = Dir (ex_dir, 0, 1).
Proof. split; vm_compute; reflexivity. Qed.
Definition ex_values (l : list (outcome (list nat * nat * nat * list nat))) :=
  map (fun x => match x with Rec r _ => Some r | _ => None end) l.
Example Ex_C97_value :
  ex_values (skipn 3 (snd (ex_run ex_start (ex_shared ++
    [(ORecon 0 (ex_dir, 0, 1) ex_all, None); (OCoeffs 1 ex_dir (ex_args 6 None), None); (ORecon 0 (ex_dir, 0, 1) ex_all, None)])))) =
  [Some ([30; 31; 40; 41], 5, 142 * 30 + 5, [0; 1; 2]); None; Some ([60; 61; 70; 71], 6, 262 * 60 + 6, [0; 1; 2])].
Proof. vm_compute. reflexivity. Qed.
(* C84: the object used with the folder of another savedir, and refitted elsewhere *)
Example Ex_C84 : last_fit_folder ex_conf 0 ex_shared = Some ex_dir /\
  last_fit_folder ex_conf 0 (ex_shared ++ [(OFit 0 (FitResult 5 PerFrequency 2 2 [0; 1 # 4]%Q 1 0 (fun _ => [1; 2])), None)]) <> Some ex_dir.
Proof. split; [vm_compute; reflexivity|]. intros E. vm_compute in E. discriminate E. Qed.
(* C96: two histories that differ in the requested modes *)
Example Ex_C96 :
  Forall2 (fun e e' : event nat nat nat nat => same_but_modes (fst e) (fst e') /\ snd e = snd e')
    [(OFit 0 (ex_fit PerFrequency 2 30), None); (OCoeffs 0 ex_dir (ex_args 5 None), None); (ORecon 0 (ex_dir, 0, 1) ex_all, None)]
    [(OFit 0 (ex_fit PerFrequency 2 30), None); (OCoeffs 0 ex_dir (ex_args 5 (Some [1])), None); (ORecon 0 (ex_dir, 0, 1) ex_all, None)].
Proof. repeat constructor. Qed.
(* C97_isolation: the operations of object 2 do not touch the folder of the others *)
Example Ex_C97_isolation :
  let h := ex_shared ++ [(OFit 2 (ex_fit PerMode 3 90), None); (OCoeffs 2 ex_dir (ex_args 9 None), None)] in
  filter (uses ex_conf "out") h = ex_shared /\ snd (ex_run ex_start h) = [Done; Dir (ex_dir, 0, 1); Done; Done; Dir (Folder "other" (result_folder 8 4 4), 0, 1)].
Proof. split; vm_compute; reflexivity. Qed.
(* C98: a computation stopped after two files in a folder that held a complete one is reconstructed as a mixture: the modes and
   mean of the second one, the coefficients of the first *)
Example Ex_C98 :
  let w := fst (ex_run ex_start (ex_shared ++ [(OCoeffs 1 ex_dir (ex_args 6 None), Some (2, false))])) in
  ex_values [snd (ex_step w (URecon (ex_dir, 0, 1) ex_all, None))] = [Some ([60; 61; 70; 71], 6, 142 * 30 + 5, [0; 1; 2])].
Proof. vm_compute. reflexivity. Qed.
Example Ex_C98_fresh :
  let h := [(OFit 0 (ex_fit PerFrequency 2 30), None); (OCoeffs 0 ex_dir (ex_args 5 None), Some (3, true))] in
  snd (ex_step (fst (ex_run ex_start h)) (URecon (ex_dir, 0, 1) ex_all, None)) = Raised ValueError.
Proof. vm_compute. reflexivity. Qed.
(* C99: shadowed modes, and stale files of extra modes *)
Example Ex_C99_shadowed :
  ex_values (snd (ex_run ex_start [(OFit 0 (ex_fit PerFrequency 2 30), None); (OFit 0 (ex_fit PerMode 2 60), None);
    (OCoeffs 0 ex_dir (ex_args 5 None), None); (ORecon 0 (ex_dir, 0, 1) ex_all, None)])) = [None; None; None; Some ([30; 31; 40; 41], 5, 142 * 60 + 5, [0; 1; 2])].
Proof. vm_compute. reflexivity. Qed.
Example Ex_C99_more :
  snd (ex_run ex_start [(OFit 0 (ex_fit PerMode 3 30), None); (OFit 0 (ex_fit PerMode 2 60), None); (OCoeffs 0 ex_dir (ex_args 5 None), None)]) =
  [Done; Done; Raised ValueError].
Proof. vm_compute. reflexivity. Qed.
