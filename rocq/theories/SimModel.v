(** The measurements the delay example feeds to the handler.
    Sources: /repo/source/examples/ikf_delay_cmd/main.cpp (DM) and include/SimInstanceDelay.hpp (SD).
    Simplification: a measurement is given by its type, the instances and the indices of its sample and of its arrival; the values are
    those of the arrays at the sample's index.  Printing and plotting are not modelled. *)
From Coq Require Import ZArith List Bool Arith.
From Verif Require Import MeasModel.
Import ListNotations.

(** [s_sample]: the index into the trajectory arrays the measurement is read from (t_m); [s_now]: that of its arrival (t_p) *)
Record sim_meas := Sim { s_ty : obs_type; s_id : nat; s_peer : option nat; s_sample : nat; s_now : nat }.

(** the constructor's conversion of the int delays to size_t (SD 28-33, 196-197) *)
Definition size_of_int (d : Z) : Z := (d mod 2 ^ 64)%Z.
(** the tests "idx > delay" (SD 116, 142) and "idx - delay" (SD 118, 145) on size_t *)
Definition late (d : Z) (idx : nat) : bool := (size_of_int d <? Z.of_nat idx)%Z.
Definition sample_of (d : Z) (idx : nat) : nat := Z.to_nat (Z.of_nat idx - size_of_int d).

(** SD 96-112: propagate_idx *)
Definition propagate_idx (i idx : nat) : sim_meas := Sim PROPAGATION i None idx idx.
(** SD 114-172: update_idx of an instance whose perform_private is [priv] and whose map of relative positions has the keys [peers] *)
Definition update_idx (dp dj : Z) (priv : bool) (peers : list nat) (i idx : nat) : list sim_meas :=
  (if priv && late dp idx then [Sim PRIVATE i None (sample_of dp idx) idx] else [])
  ++ (if late dj idx then map (fun j => Sim JOINT i (Some j) (sample_of dj idx) idx) peers else []).
(** DM 149-155: the partners given by generate_rel_meas *)
Definition peers_of (joint : bool) (N i : nat) : list nat := if joint && Nat.ltb 1 N then [Nat.modulo (i + 1) N] else [].
(** DM 140-147: who processes private measurements *)
Definition private_of (first_only : bool) (i : nat) : bool := negb (first_only && Nat.ltb 0 i).
(** DM 157-166: the main loop over [K] samples and [N] instances *)
Definition sim_step (dp dj : Z) (first_only joint : bool) (N idx : nat) : list sim_meas :=
  map (fun i => propagate_idx i idx) (seq 0 N)
  ++ flat_map (fun i => update_idx dp dj (private_of first_only i) (peers_of joint N i) i idx) (seq 0 N).
Definition simulation (dp dj : Z) (first_only joint : bool) (N K : nat) : list sim_meas :=
  flat_map (sim_step dp dj first_only joint N) (seq 1 (K - 1)).
