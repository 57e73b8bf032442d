(** Small vocabulary for joint observations: positions of the participants in the stacked state. *)
From Coq Require Import ZArith List.
From mathcomp Require Import all_ssreflect all_algebra.
From Verif Require Import Outcome DMat BeliefModel.
Set Implicit Arguments. Unset Strict Implicit. Unset Printing Implicit Defensive.

(** dimensions [ds] of the participants; the k-th starts at the sum of the first k dimensions *)
Definition dim_k (ds : seq nat) (k : nat) : nat := nth 0%N ds k.
Definition off (ds : seq nat) (k : nat) : nat := sumn (take k ds).
(** the block of a stacked matrix belonging to participants k (rows) and l (columns) *)
Definition blk (F : realFieldType) (ds : seq nat) (A : dmat F) (k l : nat) : outcome (dmat F) :=
  dblock A (off ds k) (off ds l) (dim_k ds k) (dim_k ds l).
