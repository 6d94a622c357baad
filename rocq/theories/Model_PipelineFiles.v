(* Reading back the modes of a fit that wrote one file per mode: /repo/pyspod/utils/postproc.py:104-121 (get_modes_at_freq, when there is no file for the
   whole frequency), and the folder such a fit leaves for the coefficients (spod/base.py:662-698).
   Simplification: the files of a frequency, sorted by name (113), are sorted by the number of the mode, which is the same below 10^8 (see C57, Model_ModeFiles). *)
From Coq Require Import QArith.
From Verif Require Import Base_List Model_Parallel Model_Reader1 Model_Reader2 Model_Base Model_Pipeline Spec_Array.
From mathcomp Require Import all_ssreflect all_algebra.
From Verif Require Import Model_Spod Model_PipelineNum Model_PipelineCoef.
Set Implicit Arguments.
Unset Strict Implicit.
Unset Printing Implicit Defensive.

Section Stack.
Variables (T : Type) (zero : T).
Variable files : list (nat * nat * list T).
Definition mode_of (f m : nat) : option (list T) := option_map snd (List.find (fun e => Nat.eqb e.1.1 f && Nat.eqb e.1.2 m) files).
Definition bound : nat := List.fold_right (fun e n => Nat.max (S e.1.2) n) 0%N files.
Definition numbers (f : nat) : list nat := List.filter (fun m => if mode_of f m is Some _ then true else false) (List.seq 0%N bound).
(* 112-121: the files of all modes of the frequency along a new last axis; m stays unbound without any file *)
Definition stacked (sh : list nat) (f : nat) : option (nd T) :=
  match numbers f with
  | nil => None
  | ms => Some (Nd (List.app sh (cons (length ms) nil))
      (List.flat_map (fun i => List.map (fun m => List.nth i (if mode_of f m is Some x then x else nil) zero) ms) (List.seq 0%N (Base_List.prod sh))))
  end.
End Stack.
(* base.py:662-698: what a fit of netCDF files with one file per mode leaves for later calls; weights.npy is w *)
Definition folder_of_files (C : numClosedFieldType) (s : settings C) (c : config C) (xs : list nat) (nv : nat) (w : nd C) (files : list (nat * nat * list C)) : folder C :=
  Folder (length xs) nv (get_freq_axis (isrealx c) (s_full s) (s_ndft s) (s_dt s)) (n_freq c) (n_modes_save c) w (stacked 0%R files (List.app xs (cons nv nil))).
