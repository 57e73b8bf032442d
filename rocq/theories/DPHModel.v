(** DecoupledPropagationHandler: the joint observation given by a measurement function.
    Source: /repo/source/ikf/source/EstimatorHandler/DecoupledPropagationHandler.cpp (DP); the inherited process_observation is
    [process_observation_gen] of HObsModel.v, run with this class's override of stack_H (DP 30-57); get_dict_bel over a vector of IDs
    and stack_mean, stack_Sigma are not overridden. *)
From Coq Require Import ZArith List Bool Arith.
From mathcomp Require Import all_ssreflect all_algebra.
From Verif Require Import Outcome DoubleModel BufModel HorizonModel MeasModel HandlerModel DMat KFModel BeliefModel IsoModel DPModel HObsModel.
Set Implicit Arguments. Unset Strict Implicit. Unset Printing Implicit Defensive.
Import GRing.Theory Num.Theory.
Local Open Scope outcome_scope.

Section DPH.
Variable F : realFieldType.
Variable junk : forall n, 'M[F]_n -> 'M[F]_n.
Notation dmat := (dmat F).
Notation belief := (belief F).
Notation inst := (inst belief dmat).
Notation dict := (dict belief dmat).
Notation bels := (list (nat * belief)).
Variable is_psd : dmat -> bool.
Variable nearest : dmat -> dmat.
Variable predict : nat -> Z -> inst -> outcome (inst * bool).
Variable eps0 : F.
Variable h : bels -> list nat -> dmat -> list (nat * dmat) * dmat.
Variable plus_jacobian : belief -> dmat -> dmat.
Variable num_iter : nat.
Variable tol : F.
(** DP 141-161: apply_observation(R, z, t, h, IDs, cfg); delta_mean is the zero vector set by process_observation (IKH 505-509), the
    moved means are already in the collected beliefs; as in apply_observation_h the model stores mean and covariance together *)
Definition dp_apply_h (R z : dmat) (t : Z) (IDs : list nat) (cfg : corr_cfg F) (d : dict) : outcome (dict * obs_res F) :=
  let! (d, o) := process_observation_gen junk is_psd nearest predict eps0 h plus_jacobian num_iter tol (fun d dH => dp_stack_H dH d) R z t IDs cfg d in
  match o with
  | inl r => Ok (d, r)
  | inr (Sp, bs, es, r) =>
      let! d := split_right_upper Sp bs t d in
      let! d := correct_beliefs Sp (dzero F es 1) bs t d in
      Ok (d, ObsRes PROCESSED (Some r))
  end.
End DPH.
