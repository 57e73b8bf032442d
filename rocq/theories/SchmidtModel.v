(** The Schmidt-Kalman filter handler: joint observations that correct only the essential participants.
    Source: /repo/source/ikf/source/EstimatorHandler/SchmidtKalmanFilterHandler.cpp (SKF); stacking, splitting and the registry are those
    of IsoModel.v (IsolatedKalmanFilterHandler.cpp, IKH).
    Simplifications: as in IsoModel.v; logging (RTV_EXPECT_TRUE_MSG) is dropped; the measurement function h is a pure function of
    the beliefs, the IDs and the measurement. *)
From Coq Require Import ZArith List Bool Arith.
From mathcomp Require Import all_ssreflect all_algebra.
From Verif Require Import Outcome DoubleModel BufModel HorizonModel MeasModel HandlerModel DMat KFModel BeliefModel EigenModel IsoModel.
Set Implicit Arguments. Unset Strict Implicit. Unset Printing Implicit Defensive.
Import GRing.Theory Num.Theory.
Local Open Scope outcome_scope.

Section Schmidt.
Variable F : realFieldType.
Variable junk : forall n, 'M[F]_n -> 'M[F]_n.
Notation dmat := (dmat F).
Notation belief := (belief F).
Notation inst := (inst belief dmat).
Notation dict := (dict belief dmat).
Variable is_psd : dmat -> bool.                     (* utils::is_positive_semidefinite *)
Variable nearest : dmat -> dmat.                    (* utils::nearest_covariance(_, 1e-6) *)
Variable predict : nat -> Z -> inst -> outcome (inst * bool).   (* the user's predict_to(t) *)
Variable eps0 : F.                                  (* default eps of stabilize_covariance: 1e-12 *)

(** SKF 211-223: the Schmidt gain: the rows of the Kalman gain for essential participants, zero for the others.  The loop runs over
    all participants, also the fixed ones, which are not part of the stacked covariance. *)
Definition skf_gain (K : dmat) (m : nat) (bs : list (nat * belief)) : outcome dmat :=
  let! (KS, _) := ofold (fun s e =>
      let dim := bel_dim (snd e) in
      let! KS := (if b_ess (snd e) then let! B := dblock K (snd s) 0 dim m in dset_block (fst s) (snd s) 0 dim m B else Ok (fst s)) in
      Ok (KS, (snd s + dim)%nat)) (dzero F (drows K) (dcols K), 0%nat) bs in
  Ok KS.
(** SKF 192-235: correction_step *)
Definition skf_correction_step (t : Z) (H R r : dmat) (bs : list (nat * belief)) (cfg : corr_cfg F) (d : dict) : outcome (corr_result F) :=
  let! Sg := stack_Sigma bs t d in
  if check_dim_meas H R r Sg then
    let dim := drows Sg in
    let! a := dmul H Sg in
    let! b := dmul a (dtr H) in
    let! Sm := dadd b R in
    let! Sm := stabilize_covariance Sm (cfg_eps cfg) in
    let! rej := (if use_outlier_rejection cfg then omap negb (check_NIS junk Sm r (confidence_interval cfg)) else Ok false) in
    let! p := dmul Sg (dtr H) in
    let! Si := dinv junk Sm in
    let! K := dmul p Si in
    let! KS := skf_gain K (drows H) bs in
    let! delta := dmul KS r in
    let! KH := dmul KS H in
    let! U := dsub (deye F dim dim) KH in
    let! u := dmul U Sg in
    let! v := dmul u (dtr U) in
    let! w := dmul KS R in
    let! x := dmul w (dtr KS) in
    let! Sp := dadd v x in
    let! Sp := symmetrize_covariance Sp in
    Ok (CorrRes Sp delta U rej)
  else Ok (corr_default F).
(** SKF 237-248: correct_beliefs_implace; the row advances over every participant *)
Definition skf_correct_beliefs (S dx : dmat) (bs : list (nat * belief)) (t : Z) (d : dict) : outcome dict :=
  let! (d, _) := ofold (fun s e =>
      let di := bel_dim (snd e) in
      let! d := (if b_ess (snd e) then
          let! Sii := dblock S (snd s) (snd s) di di in
          let! v := dblock dx (snd s) 0 di 1 in
          let! b' := bel_correct v Sii (snd e) in
          mod_inst (fst e) (fun i => Ok (with_bel (hb_insert t b' (i_bel i)) i)) (fst s)
        else Ok (fst s)) in
      Ok (d, (snd s + di)%nat)) (d, 0%nat) bs in
  Ok d.
(** SKF 57-74, 100-117, 165-182: from the result on *)
Definition skf_finish (res : corr_result F) (bs : list (nat * belief)) (t : Z) (d : dict) : outcome (dict * bool) :=
  if ~~ rejected res then
    let S := if is_psd (Sigma_apos res) then Sigma_apos res else nearest (Sigma_apos res) in
    let! d := apply_corrections junk S bs t d in
    let! d := split_right_upper S bs t d in
    let! d := skf_correct_beliefs S (delta_mean res) bs t d in
    Ok (d, true)
  else Ok (d, false).
(** SKF 33-79: apply_observation(dict_H, R, r, t, cfg); the stacked covariance is computed here and again in correction_step *)
Definition skf_observation_r (dH : list (nat * dmat)) (R r : dmat) (t : Z) (cfg : corr_cfg F) (d : dict) : outcome (dict * bool) :=
  let! H := stack_H dH in
  let! (d, bs) := get_dict_bel predict (List.map fst dH) t d in
  if bs is nil then Ok (d, false) else
  let! _ := stack_Sigma bs t d in
  let! res := skf_correction_step t H R r bs cfg d in
  skf_finish res bs t d.
(** SKF 81-123: apply_observation(dict_H, z, R, t, cfg) *)
Definition skf_observation_z (dH : list (nat * dmat)) (z R : dmat) (t : Z) (cfg : corr_cfg F) (d : dict) : outcome (dict * bool) :=
  let! H := stack_H dH in
  let! (d, bs) := get_dict_bel predict (List.map fst dH) t d in
  if bs is nil then Ok (d, false) else
  let! mean := stack_mean bs in
  let! Sg := stack_Sigma bs t d in
  let! hm := dmul H mean in
  let! r := dsub z hm in
  let! _ := stabilize_covariance Sg eps0 in
  let! res := skf_correction_step t H R r bs cfg d in
  skf_finish res bs t d.
(** SKF 125-190: apply_observation(R, z, t, h, IDs, cfg); the answer is PROCESSED (true) also if the correction was rejected, OUTOFORDER
    (false) if a belief is missing *)
Definition skf_observation_h (h : list (nat * belief) -> list nat -> dmat -> list (nat * dmat) * dmat)
    (R z : dmat) (ids : list nat) (t : Z) (cfg : corr_cfg F) (d : dict) : outcome (dict * bool) :=
  let! (d, bs) := get_dict_bel predict ids t d in
  if bs is nil then Ok (d, false) else
  let! _ := stack_mean bs in
  let! Sg := stack_Sigma bs t d in
  let (dH, r) := h bs ids z in
  let fixed := fun id => List.existsb (fun e => (fst e =? id)%nat && b_fixed (snd e)) bs in
  let! H := stack_H (List.filter (fun e => ~~ fixed (fst e)) dH) in
  let! _ := stabilize_covariance Sg eps0 in
  let! res := skf_correction_step t H R r bs cfg d in
  let! (d, _) := skf_finish res bs t d in
  Ok (d, true).
End Schmidt.
