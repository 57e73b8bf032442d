(** The collaborative isolated Kalman filter handler C_IKF_Handler.
    Sources: /repo/source/ikf/source/EstimatorHandler/C_IKF_Handler.cpp (CIK), ICSE_IKF_Handler.cpp (CSE),
    Estimator/IIsolatedKalmanFilter.cpp (IIKF).  The inherited parts, parameters and simplifications are those of AgentModel.v:
    the agent handler's methods are supplied by the user, so their answers are parameters, and what is sent to the other
    agents is part of the result.  The handler's mutex is always obtained; logging is omitted. *)
From Coq Require Import ZArith List Bool Arith.
From mathcomp Require Import all_ssreflect all_algebra.
From Verif Require Import Outcome DoubleModel BufModel HorizonModel MeasModel HandlerModel DMat KFModel BeliefModel IsoModel DPModel HObsModel AgentModel.
Set Implicit Arguments. Unset Strict Implicit. Unset Printing Implicit Defensive.
Import GRing.Theory Num.Theory.
Local Open Scope outcome_scope.

(** CIK's header 27-31: eRedoUpdateStrategy *)
Inductive redo_strategy := RS_EXACT | RS_POSTCORRELATED | RS_DISCARD.

Section Collab.
Variable F : realFieldType.
Variable junk : forall n, 'M[F]_n -> 'M[F]_n.
Notation dmat := (dmat F).
Notation belief := (belief F).
Notation inst := (inst belief dmat).
Notation dict := (dict belief dmat).
Notation bels := (list (nat * belief)).
Notation fccs := (list (nat * list (nat * dmat))).

(** ** who is correlated *)
(** CIK 152-165: get_correlated_IDs_after_t *)
Definition c_correlated_after (t : Z) (d : dict) : list nat :=
  List.fold_left (fun s e => List.fold_left (fun s j => sset_insert j s) (ccf_ids_after t (i_ccf (snd e))) s) d nil.
(** CIK 167-181: get_remote_correlated_IDs_after_t *)
Definition c_remote_after (t : Z) (d : dict) : list nat :=
  List.fold_left (fun s j => if ~~ local j d then sset_insert j s else s) (c_correlated_after t d) nil.
(** CIK 410-430: discard_measurement *)
Definition c_discard (strat : redo_strategy) (t_m : Z) (d : dict) : bool :=
  match strat with RS_DISCARD => if c_remote_after t_m d is nil then false else true | _ => false end.
(** CSE 157-170: IDs_to_Agent_IDs *)
Definition c_agents_of {T} (a : agents T) (ids : list nat) (d : dict) : list nat :=
  List.fold_left (fun s j => if ~~ local j d then sset_insert (estimatorID2agentID j a) s else s) ids nil.
(** CIK 386-408, 432-453: the agents asked to redo their updates, before the inherited redo_updates_after_t/_from_t runs *)
Definition c_redo_agents {T} (strat : redo_strategy) (a : agents T) (t : Z) (d : dict) : list nat :=
  match strat with RS_POSTCORRELATED => c_agents_of a (c_remote_after t d) d | _ => nil end.

(** ** cross-covariances between estimators of different agents *)
(** CIK 72-98: get_Sigma_IJ_at_t; [far] is the answer of the agent handler's get_CrossCovFact_IJ_at_t *)
Definition c_get_Sigma (far : nat -> nat -> Z -> dmat) (I J : nat) (t : Z) (d : dict) : outcome dmat :=
  let fact a b := match d_find a d with Some i => ccf_get b t (i_ccf i) | None => far a b t end in
  let fij := fact I J in let fji := fact J I in
  if (dsize fij != 0%N) && (dsize fji != 0%N) then
    if (I <? J)%nat then dmul fij (dtr fji)
    else let! s := dmul fji (dtr fij) in Ok (dtr s)
  else Ok (dempty F).
(** CIK 101-129: set_Sigma_IJ_at_t; the factors sent to other agents (set_CrossCovFact_IJ_at_t) are returned in order *)
Definition c_set_fact (a b : nat) (m : dmat) (t : Z) (s : dict * list (nat * nat * dmat)) : outcome (dict * list (nat * nat * dmat)) :=
  match d_find a (fst s) with
  | Some i => Ok (d_upd a (with_ccf (ccf_set b t m (i_ccf i)) i) (fst s), snd s)
  | None => Ok (fst s, snd s ++ [:: (a, b, m)])
  end.
Definition c_set_Sigma (I J : nat) (S : dmat) (t : Z) (d : dict) : outcome (dict * list (nat * nat * dmat)) :=
  if (I <? J)%nat then let! s := c_set_fact I J S t (d, nil) in c_set_fact J I (deye F (dcols S) (dcols S)) t s
  else let S' := dtr S in let! s := c_set_fact J I S' t (d, nil) in c_set_fact I J (deye F (dcols S') (dcols S')) t s.

(** ** the inter-agent observation *)
Variable is_psd : dmat -> bool.
Variable nearest : dmat -> dmat.
Variable predict : nat -> Z -> inst -> outcome (inst * bool).
Variable eps0 : F.
(** CIK 131-150: apply_corrections_at_t(Sigma_apos, dict_bel, t, only_local_beliefs = true) *)
Definition c_corrections (S : dmat) (bs : bels) (t : Z) (d : dict) : outcome dict :=
  let! (d, _) := ofold (fun s e =>
      let di := bel_dim (snd e) in
      let! Sii := dblock S (snd s) (snd s) di di in
      let! d := (if local (fst e) (fst s) then
                   mod_inst (fst e) (fun i => let! c := ccf_correct junk t (b_Sigma (snd e)) Sii (i_ccf i) in Ok (with_ccf c i)) (fst s)
                 else Ok (fst s)) in
      Ok (d, (snd s + di)%nat)) (d, 0%nat) bs in
  Ok d.
(** CIK 676-685 (and 522-527 with [keep] always true): the rows of the local estimators are stored *)
Definition c_store_rows (keep : nat -> bool) (ids : list nat) (m : fccs) (t : Z) (d : dict) : outcome dict :=
  ofold (fun d id =>
    if keep id then
      match smap_find id m with
      | Some row => ofold (fun d e => if keep (fst e) then mod_inst id (fun i => Ok (with_ccf (ccf_set (fst e) t (snd e) (i_ccf i)) i)) d else Ok d) d row
      | None => Abort OutOfRangeException
      end
    else Ok d) d ids.
(** IKH 203-216: correct_beliefs_implace.  A pointer of dict_bel is the one stored at t in the local estimator if the ID is
    in the local dictionary [lb], and otherwise the one in the remote dictionary, which is sent back afterwards *)
Definition c_correct (lb : bels) (S dx : dmat) (bs : bels) (t : Z) (d : dict) (rb : bels) : outcome (dict * bels) :=
  let! (s, _) := ofold (fun s e => if ~~ b_fixed (snd e) then
      let di := bel_dim (snd e) in
      let! Sii := dblock S (snd s) (snd s) di di in
      let! v := dblock dx (snd s) 0 di 1 in
      let! b' := bel_correct v Sii (snd e) in
      let! s' := (if smap_find (fst e) lb is Some _ then
                    let! d := mod_inst (fst e) (fun i => Ok (with_bel (hb_insert t b' (i_bel i)) i)) (fst (fst s)) in Ok (d, snd (fst s))
                  else Ok (fst (fst s), List.map (fun x => if (fst x =? fst e)%nat then (fst x, b') else x) (snd (fst s)))) in
      Ok (s', (snd s + di)%nat)
    else Ok s) ((d, rb), 0%nat) bs in
  Ok s.
(** CIK 697-702 (and 538-541): the rows sent *)
Definition c_sent_rows (keep : nat -> bool) (ids : list nat) (m : fccs) : fccs :=
  List.fold_left (fun r id => if keep id then smap_set id (match smap_find id m with Some row => row | None => nil end) r else r) ids nil.
(** CIK 664-702 (515-541): the write phases; the message for the other agent is returned *)
Definition c_write (keep : nat -> bool) (S dx : dmat) (bs lb rb : bels) (local_IDs remote_IDs : list nat) (t : Z) (d : dict) : outcome (dict * (bels * fccs)) :=
  let! d := c_corrections S bs t d in
  let! m := split_Sigma_locally S bs in
  let! d := c_store_rows keep local_IDs m t d in
  let! (d, rb) := c_correct lb S dx bs t d rb in
  Ok (d, (rb, c_sent_rows keep remote_IDs m)).
(** CIK 637-702 (496-541): from the stacked covariance on; None: rejected, nothing sent *)
Definition c_update (keep : nat -> bool) (H R r : dmat) (bs lb rb : bels) (fcc : fccs) (local_IDs remote_IDs : list nat) (t : Z) (cfg : corr_cfg F) (d : dict)
    : outcome (dict * option (bels * fccs)) :=
  let! Sg := stack_Sigma_locally bs fcc in
  let! Sg := correct_covariance is_psd nearest eps0 Sg in
  let! res := correction_step junk H R r Sg cfg in
  if ~~ rejected res then
    let Sp := if is_psd (Sigma_apos res) then Sigma_apos res else nearest (Sigma_apos res) in
    let! (d, ms) := c_write keep Sp (delta_mean res) bs lb rb local_IDs remote_IDs t d in Ok (d, Some ms)
  else Ok (d, None).
(** the agent handler's get_beliefs_and_FCC_at_t(remote_IDs, participants, t, ...) and set_beliefs_and_FCC_at_t(t, ...) *)
Variable remote : list nat -> list nat -> Z -> bool * (bels * fccs).
Variable accepts : Z -> bels -> fccs -> bool.
(** std::map::insert of a range *)
Definition c_join {V} (l r : list (nat * V)) : list (nat * V) := List.fold_left (fun m e => smap_insert (fst e) (snd e) m) r l.
Definition kept (bs : bels) (id : nat) : bool := match smap_find id bs with Some b => ~~ b_fixed b | None => false end.
(** CIK 565-720: apply_inter_agent_observation(R, z, t, h, ...) *)
Variable h : bels -> list nat -> dmat -> list (nat * dmat) * dmat.
Definition c_observation (R z : dmat) (t : Z) (IDs : list nat) (cfg : corr_cfg F) (remote_IDs local_IDs : list nat) (d : dict)
    : outcome (dict * option (bels * fccs) * obs_res F) :=
  let parts := (remote_IDs ++ local_IDs)%list in
  let! (d, ol) := get_local predict local_IDs parts t d in
  match ol with
  | None => Ok (d, None, ObsRes OUTOFORDER None)
  | Some (lb, lf) =>
      if lb is nil then Ok (d, None, ObsRes OUTOFORDER None) else
      let (got, rr) := remote remote_IDs parts t in let (rb, rf) := rr in
      if ~~ got then Ok (d, None, ObsRes OUTOFORDER None) else
      if rb is nil then Ok (d, None, ObsRes OUTOFORDER None) else
      let bs := c_join lb rb in let fcc := c_join lf rf in
      let (dH, r) := h bs IDs z in
      let us := unfix bs in
      let! H := stack_H (drop_fixed bs dH) in
      let! (d, om) := c_update (kept us) H R r us lb rb (drop_rows bs fcc) local_IDs remote_IDs t cfg d in
      match om with
      | None => Ok (d, None, ObsRes REJECTED (Some r))
      | Some ms => Ok (d, Some ms, if accepts t (fst ms) (snd ms) then ObsRes PROCESSED (Some r) else ObsRes OUTOFORDER None)
      end
  end.
(** CIK 455-563: apply_inter_agent_observation(dict_H, R, r, t, ...): nothing is removed for fixed beliefs, and a rejected
    correction also returns true *)
Definition c_observation_H (dH : list (nat * dmat)) (R r : dmat) (t : Z) (cfg : corr_cfg F) (remote_IDs local_IDs : list nat) (d : dict)
    : outcome (dict * option (bels * fccs) * bool) :=
  let parts := (remote_IDs ++ local_IDs)%list in
  let! H := stack_H dH in
  let! (d, ol) := get_local predict local_IDs parts t d in
  match ol with
  | None => Ok (d, None, false)
  | Some (lb, lf) =>
      if lb is nil then Ok (d, None, false) else
      let (got, rr) := remote remote_IDs parts t in let (rb, rf) := rr in
      if ~~ got then Ok (d, None, false) else
      if rb is nil then Ok (d, None, false) else
      let bs := c_join lb rb in let fcc := c_join lf rf in
      let! (d, om) := c_update (fun _ => true) H R r bs lb rb fcc local_IDs remote_IDs t cfg d in
      match om with
      | None => Ok (d, None, true)
      | Some ms => Ok (d, Some ms, accepts t (fst ms) (snd ms))
      end
  end.
End Collab.
