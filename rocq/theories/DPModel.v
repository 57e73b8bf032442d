(** DecoupledPropagationHandler: every observation is an update of the stacked state of all registered instances.
    Source: /repo/source/ikf/source/EstimatorHandler/DecoupledPropagationHandler.cpp (DP); the inherited parts are in
    IsoModel.v, with the same parameters and simplifications. *)
From Coq Require Import ZArith List Bool Arith.
From mathcomp Require Import all_ssreflect all_algebra.
From Verif Require Import Outcome DoubleModel BufModel HorizonModel MeasModel HandlerModel DMat KFModel BeliefModel IsoModel.
Set Implicit Arguments. Unset Strict Implicit. Unset Printing Implicit Defensive.
Import GRing.Theory Num.Theory.
Local Open Scope outcome_scope.

(** std::map::find *)
Fixpoint smap_find {V} (k : nat) (l : list (nat * V)) : option V :=
  match l with nil => None | (x, v) :: r => if (x =? k)%nat then Some v else smap_find k r end.

Section DP.
Variable F : realFieldType.
Variable junk : forall n, 'M[F]_n -> 'M[F]_n.
Notation dmat := (dmat F).
Notation belief := (belief F).
Notation inst := (inst belief dmat).
Notation dict := (dict belief dmat).
Notation correction_step := (correction_step junk).
Variable is_psd : dmat -> bool.
Variable nearest : dmat -> dmat.
Variable predict : nat -> Z -> inst -> outcome (inst * bool).
Variable eps0 : F.

(** DP 37-43: the dimension of every registered instance, from current_belief() (IKF 106-113: the latest belief or a null pointer);
    state_dim and dict_dim *)
Definition dp_dims (d : dict) : outcome (nat * list (nat * nat)) :=
  ofold (fun s e => match get_latest (i_bel (snd e)) with
                    | Some (_, b) => Ok ((fst s + bel_dim b)%nat, smap_insert (fst e) (bel_dim b) (snd s))
                    | None => UB NullDeref
                    end) (0%nat, nil) d.
(** DP 30-57: stack_H *)
Definition dp_stack_H (dH : list (nat * dmat)) (d : dict) : outcome dmat :=
  let rows := List.fold_left (fun s e => drows (snd e)) dH 0%nat in
  let! (n, dims) := dp_dims d in
  let! (H, _) := ofold (fun s e =>
      let! H := (match smap_find (fst e) dH with Some X => dset_block (fst s) 0 (snd s) rows (snd e) X | None => Ok (fst s) end) in
      Ok (H, (snd s + snd e)%nat)) (dzero F rows n, 0%nat) dims in
  Ok H.
(** DP 59-71: get_dict_bel; RTV_EXPECT_TRUE_THROW throws when a belief cannot be obtained *)
Fixpoint dp_get_dict_bel (ids : list nat) (t : Z) (d : dict) (acc : list (nat * belief)) : outcome (dict * list (nat * belief)) :=
  match ids with
  | nil => Ok (d, acc)
  | id :: r =>
      at_inst id d (fun i =>
        let! (i', ob) := belief_or_predict predict id t i in
        match ob with
        | Some b => dp_get_dict_bel r t (d_upd id i' d) (smap_insert id b acc)
        | None => Abort RTVerificationFailed
        end)
  end.
(** DP 84-103 and 119-138: from the stacked covariance on *)
Definition dp_update (H R r : dmat) (bs : list (nat * belief)) (S : dmat) (t : Z) (cfg : corr_cfg F) (d : dict) : outcome (dict * bool) :=
  let! Sg := stabilize_covariance S eps0 in
  let! res := correction_step H R r Sg cfg in
  if ~~ rejected res then
    let Sp := if is_psd (Sigma_apos res) then Sigma_apos res else nearest (Sigma_apos res) in
    let! d := split_right_upper Sp bs t d in
    let! d := correct_beliefs Sp (delta_mean res) bs t d in
    Ok (d, true)
  else Ok (d, false).
(** DP 73-104: apply_observation(dict_H, R, r, t, cfg) *)
Definition dp_apply_r (dH : list (nat * dmat)) (R r : dmat) (t : Z) (cfg : corr_cfg F) (d : dict) : outcome (dict * bool) :=
  let! H := dp_stack_H dH d in
  let! (d, bs) := dp_get_dict_bel (List.map fst d) t d nil in
  let! Sg := stack_Sigma bs t d in
  dp_update H R r bs Sg t cfg d.
(** DP 106-139: apply_observation(dict_H, z, R, t, cfg) *)
Definition dp_apply_z (dH : list (nat * dmat)) (z R : dmat) (t : Z) (cfg : corr_cfg F) (d : dict) : outcome (dict * bool) :=
  let! H := dp_stack_H dH d in
  let! (d, bs) := dp_get_dict_bel (List.map fst d) t d nil in
  let! m := stack_mean bs in
  let! Sg := stack_Sigma bs t d in
  let! hm := dmul H m in
  let! r := dsub z hm in
  dp_update H R r bs Sg t cfg d.
End DP.
