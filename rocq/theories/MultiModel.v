(** Access to single estimators through the handler, and the collaborative handler's observations whose participants
    belong to several agents.
    Sources (under /repo/source/ikf/source/EstimatorHandler): IDICOHandler.cpp (HDL), C_IKF_Handler.cpp (CIK),
    ICSE_IKF_Handler.cpp (CSE), IsolatedKalmanFilterHandler.cpp (IKH).  Parameters and simplifications are those of IsoModel.v
    and CollabModel.v.  The agent handler is an object of the user's class with a state [W] of its own; each of its methods is
    a parameter that may change this state. *)
From Coq Require Import ZArith List Bool Arith.
From mathcomp Require Import all_ssreflect all_algebra.
From Verif Require Import Outcome DoubleModel BufModel HorizonModel MeasModel HandlerModel DMat KFModel BeliefModel IsoModel DPModel HObsModel AgentModel CollabModel.
Set Implicit Arguments. Unset Strict Implicit. Unset Printing Implicit Defensive.
Import GRing.Theory Num.Theory.
Local Open Scope outcome_scope.

(** ** one estimator, addressed by its ID *)
Section Access.
Variable F : realFieldType.
Notation dmat := (dmat F).
Notation belief := (belief F).
Notation inst := (inst belief dmat).
Notation dict := (dict belief dmat).
(** HDL 468-479: set_belief_at_t (IKF 201-203: HistBelief.insert) *)
Definition acc_set_bel (id : nat) (b : belief) (t : Z) (d : dict) : dict * bool :=
  match d_find id d with Some i => (d_upd id (with_bel (hb_insert t b (i_bel i)) i) d, true) | None => (d, false) end.
(** HDL 481-491: get_belief_at_t with the strategy PREDICT_BELIEF; a null instance answers false *)
Definition acc_get_bel (predict : nat -> Z -> inst -> outcome (inst * bool)) (id : nat) (t : Z) (d : dict) : outcome (dict * option belief) :=
  match d_find id d with
  | Some i => let! (i', ob) := belief_or_predict predict id t i in Ok (d_upd id i' d, ob)
  | None => Ok (d, None)
  end.
(** HDL 493-504: get_latest_belief (IKF 106-113: current_belief) *)
Definition acc_latest (id : nat) (d : dict) : option belief :=
  match d_find id d with Some i => option_map snd (get_latest (i_bel i)) | None => None end.
(** HDL 529-541: get_CrossCovFact_at_t *)
Definition acc_get_fact (I : nat) (t : Z) (J : nat) (d : dict) : dmat :=
  match d_find I d with Some i => ccf_get J t (i_ccf i) | None => dempty F end.
(** HDL 543-555: set_CrossCovFact_at_t *)
Definition acc_set_fact (I : nat) (t : Z) (J : nat) (m : dmat) (d : dict) : dict * bool :=
  match d_find I d with Some i => (d_upd I (with_ccf (ccf_set J t m (i_ccf i)) i) d, true) | None => (d, false) end.
(** HDL 557-567: apply_correction_at_t(ID, t, Factor) (IIKF 180-191) *)
Definition acc_correct (id : nat) (t : Z) (M : dmat) (d : dict) : outcome (dict * bool) :=
  match d_find id d with
  | Some i => let! c := ccf_scale t t M (i_ccf i) in Ok (d_upd id (with_ccf c i) d, true)
  | None => Ok (d, false)
  end.
End Access.

(** ** observations with participants of any number of agents *)
Section Multi.
Variable F : realFieldType.
Variable junk : forall n, 'M[F]_n -> 'M[F]_n.
Notation dmat := (dmat F).
Notation belief := (belief F).
Notation inst := (inst belief dmat).
Notation dict := (dict belief dmat).
Notation bels := (list (nat * belief)).
Variable is_psd : dmat -> bool.
Variable nearest : dmat -> dmat.
Variable predict : nat -> Z -> inst -> outcome (inst * bool).
Variable eps0 : F.
(** the agent handler's methods, in the order of IMultiAgentHandler.hpp 54-91 *)
Variable W : Type.
Variable far_bel : nat -> Z -> W -> outcome (W * option belief).          (* get_belief_at_t(ID, t, bel, PREDICT_BELIEF) *)
Variable far_set_bel : nat -> Z -> belief -> W -> outcome W.              (* set_belief_at_t *)
Variable far_fact : W -> nat -> nat -> Z -> dmat.                         (* get_CrossCovFact_IJ_at_t *)
Variable far_set_fact : nat -> nat -> dmat -> Z -> W -> outcome W.        (* set_CrossCovFact_IJ_at_t *)
Variable far_correct : nat -> Z -> dmat -> dmat -> W -> outcome W.        (* apply_correction_at_t *)
Variable far_redo : nat -> Z -> W -> outcome W.                           (* redo_updates_after_t; a failure is only logged *)
Notation state := (dict * W)%type.

(** CSE 172-198: get_dict_bel; CIK 62-70 collects the IDs of dict_H *)
Fixpoint m_beliefs (ids : list nat) (t : Z) (s : state) (acc : bels) : outcome (state * bels) :=
  match ids with
  | nil => Ok (s, acc)
  | id :: r =>
      let! (s, ob) := (match d_find id (fst s) with
                       | Some i => let! (i', ob) := belief_or_predict predict id t i in Ok ((d_upd id i' (fst s), snd s), ob)
                       | None => let! (w, ob) := far_bel id t (snd s) in Ok ((fst s, w), ob)
                       end) in
      match ob with
      | Some b => m_beliefs r t s (smap_insert id b acc)
      | None => Ok (s, nil)
      end
  end.
(** IKH 121-159: stack_Sigma, with the overridden get_Sigma_IJ_at_t (CIK 72-98) *)
Definition m_stack_Sigma (bs : bels) (t : Z) (s : state) : outcome dmat :=
  let n := get_dim bs in
  let! (Sg, _) := ofold (fun a ei =>
      let di := bel_dim (snd ei) in let row := snd a in
      if ~~ b_fixed (snd ei) then
        let! (Sg, _) := ofold (fun a' ej =>
            let dj := bel_dim (snd ej) in let col := snd a' in
            if ~~ b_fixed (snd ej) then
              let! Sg := (if (fst ei =? fst ej)%nat then dset_block (fst a') row col di dj (b_Sigma (snd ei))
                         else if (fst ei <? fst ej)%nat then
                           let! Sij := c_get_Sigma (far_fact (snd s)) (fst ei) (fst ej) t (fst s) in
                           if dsize Sij != 0%N then
                             let! Sg := dset_block (fst a') row col di dj Sij in dset_block Sg col row dj di (dtr Sij)
                           else Ok (fst a')
                         else Ok (fst a')) in
              Ok (Sg, (col + dj)%nat)
            else Ok a') (fst a, 0%nat) bs in
        Ok (Sg, (row + di)%nat)
      else Ok a) (dzero F n n, 0%nat) bs in
  symmetrize_covariance Sg.
(** CIK 131-150: apply_corrections_at_t(Sigma_apos, dict_bel, t, false); fixed beliefs are not skipped *)
Definition m_corrections (S : dmat) (bs : bels) (t : Z) (s : state) : outcome state :=
  let! (s, _) := ofold (fun a e =>
      let di := bel_dim (snd e) in
      let! Sii := dblock S (snd a) (snd a) di di in
      let s := fst a in
      let! s := (if local (fst e) (fst s) then
                   let! d := mod_inst (fst e) (fun i => let! c := ccf_correct junk t (b_Sigma (snd e)) Sii (i_ccf i) in Ok (with_ccf c i)) (fst s) in Ok (d, snd s)
                 else let! w := far_correct (fst e) t (b_Sigma (snd e)) Sii (snd s) in Ok (fst s, w)) in
      Ok (s, (snd a + di)%nat)) (s, 0%nat) bs in
  Ok s.
(** CIK 101-129: set_Sigma_IJ_at_t; the factors of other agents' estimators are sent in order *)
Definition m_set_Sigma (I J : nat) (S : dmat) (t : Z) (s : state) : outcome state :=
  let! (d, sent) := c_set_Sigma I J S t (fst s) in
  let! w := ofold (fun w m => let '(a, b, X) := m in far_set_fact a b X t w) (snd s) sent in
  Ok (d, w).
(** IKH 176-201: split_right_upper_covariance *)
Fixpoint m_split_row (S : dmat) (I di row col : nat) (rest : bels) (t : Z) (s : state) : outcome state :=
  match rest with
  | nil => Ok s
  | (J, b) :: r =>
      let! Sij := dblock S row col di (bel_dim b) in
      let! s := m_set_Sigma I J Sij t s in
      m_split_row S I di row (col + bel_dim b) r t s
  end.
Fixpoint m_split_rows (S : dmat) (row : nat) (us : bels) (t : Z) (s : state) : outcome state :=
  match us with
  | nil => Abort OutOfRangeException
  | [:: _] => Ok s
  | (Ia, b) :: r => let! s := m_split_row S Ia (bel_dim b) row (row + bel_dim b) r t s in m_split_rows S (row + bel_dim b) r t s
  end.
Definition m_split (S : dmat) (bs : bels) (t : Z) (s : state) : outcome state :=
  m_split_rows S 0 (List.filter (fun e => ~~ b_fixed (snd e)) bs) t s.
(** IKH 203-216: correct_beliefs_implace; the objects of local estimators are those stored at t, the others are the copies
    got from the agent handler.  The second component is the dictionary afterwards *)
Definition m_correct (S dx : dmat) (bs : bels) (t : Z) (d : dict) : outcome (dict * bels) :=
  let! (s, _) := ofold (fun s e =>
      if ~~ b_fixed (snd e) then
        let di := bel_dim (snd e) in
        let! Sii := dblock S (snd s) (snd s) di di in
        let! v := dblock dx (snd s) 0 di 1 in
        let! b' := bel_correct v Sii (snd e) in
        let! d := (if local (fst e) (fst (fst s)) then mod_inst (fst e) (fun i => Ok (with_bel (hb_insert t b' (i_bel i)) i)) (fst (fst s)) else Ok (fst (fst s))) in
        Ok ((d, snd (fst s) ++ [:: (fst e, b')]), (snd s + di)%nat)
      else Ok ((fst (fst s), snd (fst s) ++ [:: e]), snd s)) ((d, nil), 0%nat) bs in
  Ok s.
(** CIK 296-298, 374-376: the corrected beliefs are sent back *)
Definition m_send (remote_IDs : list nat) (t : Z) (bs : bels) (w : W) : outcome W :=
  ofold (fun w id => match smap_find id bs with Some b => far_set_bel id t b w | None => Abort OutOfRangeException end) w remote_IDs.
(** CIK 262-308 (345-378 with [agents] empty): from the stacked covariance on *)
Definition m_update (H R r : dmat) (bs : bels) (Sg : dmat) (remote_IDs agents : list nat) (t : Z) (cfg : corr_cfg F) (s : state) : outcome (state * bool) :=
  let! Sg := stabilize_covariance Sg eps0 in
  let Sg := if is_psd Sg then Sg else nearest Sg in
  let! res := correction_step junk H R r Sg cfg in
  if ~~ rejected res then
    let Sp := if is_psd (Sigma_apos res) then Sigma_apos res else nearest (Sigma_apos res) in
    let! s := m_corrections Sp bs t s in
    let! s := m_split Sp bs t s in
    let! (d, bs') := m_correct Sp (delta_mean res) bs t (fst s) in
    let! w := m_send remote_IDs t bs' (snd s) in
    let! w := ofold (fun w a => far_redo a t w) w agents in
    Ok ((d, w), true)
  else Ok (s, false).
(** IKH 247-279 on an object of this class: apply_corrections_at_t with three arguments is the inherited one, set_Sigma_IJ_at_t
    is overridden *)
Definition m_base_update (H R r : dmat) (bs : bels) (Sg : dmat) (t : Z) (cfg : corr_cfg F) (s : state) : outcome (state * bool) :=
  let! Sg := stabilize_covariance Sg eps0 in
  let! res := correction_step junk H R r Sg cfg in
  if ~~ rejected res then
    let Sp := if is_psd (Sigma_apos res) then Sigma_apos res else nearest (Sigma_apos res) in
    let! d := apply_corrections junk Sp bs t (fst s) in
    let! s := m_split Sp bs t (d, snd s) in
    let! (d, _) := m_correct Sp (delta_mean res) bs t (fst s) in
    Ok ((d, snd s), true)
  else Ok (s, false).
(** IKH 238-282, 284-329: the inherited apply_observation on an object of this class *)
Definition m_base_r (dH : list (nat * dmat)) (R r : dmat) (t : Z) (cfg : corr_cfg F) (s : state) : outcome (state * bool) :=
  let! H := stack_H dH in
  let! (s, bs) := m_beliefs (List.map fst dH) t s nil in
  if bs is nil then Ok (s, false) else
  let! Sg := m_stack_Sigma bs t s in
  m_base_update H R r bs Sg t cfg s.
Definition m_base_z (dH : list (nat * dmat)) (z R : dmat) (t : Z) (cfg : corr_cfg F) (s : state) : outcome (state * bool) :=
  let! H := stack_H dH in
  let! (s, bs) := m_beliefs (List.map fst dH) t s nil in
  if bs is nil then Ok (s, false) else
  let! m := stack_mean bs in
  let! Sg := m_stack_Sigma bs t s in
  let! hm := dmul H m in
  let! r := dsub z hm in
  m_base_update H R r bs Sg t cfg s.
(** CIK 225-235: the agents owning the estimators that are not registered here *)
Definition m_remote (IDs : list nat) (d : dict) : list nat := List.filter (fun id => ~~ local id d) IDs.
Definition m_agents {T} (a : agents T) (IDs : list nat) (d : dict) : list nat :=
  List.fold_left (fun s id => if ~~ local id d then sset_insert (estimatorID2agentID id a) s else s) IDs nil.
(** CIK 218-316: apply_observation(dict_H, R, r, t, cfg); [inter] is the update with one other agent (c_observation_H) *)
Definition m_observation_r {T} (inter : list nat -> list nat -> state -> outcome (state * bool))
    (a : agents T) (dH : list (nat * dmat)) (R r : dmat) (t : Z) (cfg : corr_cfg F) (s : state) : outcome (state * bool) :=
  let IDs := List.map fst dH in
  let remote_IDs := m_remote IDs (fst s) in let ag := m_agents a IDs (fst s) in
  if remote_IDs is nil then m_base_r dH R r t cfg s
  else if (seq.size ag == 1)%N then inter remote_IDs (List.filter (fun id => local id (fst s)) IDs) s
  else
    let! H := stack_H dH in
    let! (s, bs) := m_beliefs IDs t s nil in
    if bs is nil then Ok (s, false) else
    let! Sg := m_stack_Sigma bs t s in
    m_update H R r bs Sg remote_IDs ag t cfg s.
(** CIK 317-385: apply_observation(dict_H, z, R, t, cfg): no special case for one agent, no request to redo updates *)
Definition m_observation_z (dH : list (nat * dmat)) (z R : dmat) (t : Z) (cfg : corr_cfg F) (s : state)
    : outcome (state * bool) :=
  let IDs := List.map fst dH in
  let remote_IDs := m_remote IDs (fst s) in
  if remote_IDs is nil then m_base_z dH z R t cfg s
  else
    let! H := stack_H dH in
    let! (s, bs) := m_beliefs IDs t s nil in
    if bs is nil then Ok (s, false) else
    let! m := stack_mean bs in
    let! Sg := m_stack_Sigma bs t s in
    let! hm := dmul H m in
    let! r := dsub z hm in
    m_update H R r bs Sg remote_IDs nil t cfg s.
End Multi.
