(** Multi-agent handlers: lookup tables, routing, stacking of the covariances of one agent, and the inter-agent update by
    covariance intersection.
    Sources (under /repo/source/ikf/source/EstimatorHandler): IMultiAgentHandler.cpp (MA), ICSE_IKF_Handler.cpp (CSE),
    DCI_IKF_Handler.cpp (DCI).  The inherited parts, parameters and simplifications are those of IsoModel.v and HObsModel.v.
    The methods of the agent handler that a user must supply (pure virtual in MA's header: get_beliefs_at_t,
    get_beliefs_and_FCC_at_t, ...) are parameters: they may answer anything.  The handler's mutex is always obtained. *)
From Coq Require Import ZArith List Bool Arith.
From mathcomp Require Import all_ssreflect all_algebra.
From Verif Require Import Outcome DoubleModel BufModel HorizonModel MeasModel HandlerModel DMat KFModel BeliefModel IsoModel DPModel HObsModel.
Set Implicit Arguments. Unset Strict Implicit. Unset Printing Implicit Defensive.
Import GRing.Theory Num.Theory.
Local Open Scope outcome_scope.

(** std::map::operator[] followed by an assignment *)
Fixpoint smap_set {V} (k : nat) (v : V) (l : list (nat * V)) : list (nat * V) :=
  match l with
  | nil => [:: (k, v)]
  | (x, w) :: r => if (k <? x)%nat then (k, v) :: (x, w) :: r else if (k =? x)%nat then (k, v) :: r else (x, w) :: smap_set k v r
  end.
(** std::set::insert *)
Fixpoint sset_insert (k : nat) (l : list nat) : list nat :=
  match l with
  | nil => [:: k]
  | x :: r => if (k <? x)%nat then k :: x :: r else if (k =? x)%nat then x :: r else x :: sset_insert k r
  end.

(** ** IMultiAgentHandler: agents and their estimators *)
Section Agents.
Variable T : Type.   (** std::string *)
Variable nostring : T. (** "" *)
(** MA's header 31-34, 93-94: dict_agents_ids (agent ID to a vector of (ID, type)) and dict_ID2Agent *)
Record agents := Agents { a_ids : list (nat * list (nat * T)); a_of : list (nat * nat) }.
(** MA 22-30 *)
Definition get_estimator_IDs (a : agents) : list nat :=
  List.fold_left (fun s e => List.fold_left (fun s i => sset_insert (fst i) s) (snd e) s) (a_ids a) nil.
(** MA 32-39 *)
Definition get_agent_IDs (a : agents) : list nat := List.map fst (a_ids a).
(** MA 41-49 *)
Definition get_types (a : agents) : list (nat * T) :=
  List.fold_left (fun m e => List.fold_left (fun m i => smap_set (fst i) (snd i) m) (snd e) m) (a_ids a) nil.
(** MA 51-57 *)
Definition ma_type_by_ID (id : nat) (a : agents) : T := match smap_find id (get_types a) with Some s => s | None => nostring end.
(** MA 59-64 *)
Definition estimatorID2agentID (id : nat) (a : agents) : nat := match smap_find id (a_of a) with Some x => x | None => 0%nat end.
(** MA 66-72 *)
Definition ma_exists (id : nat) (a : agents) : bool := List.existsb (Nat.eqb id) (get_estimator_IDs a).
End Agents.

Section ICSE.
Variable F : realFieldType.
Variable junk : forall n, 'M[F]_n -> 'M[F]_n.
Notation dmat := (dmat F).
Notation belief := (belief F).
Notation inst := (inst belief dmat).
Notation dict := (dict belief dmat).
Notation bels := (list (nat * belief)).
(** std::map<size_t, std::map<size_t, MatrixXd>> *)
Notation fccs := (list (nat * list (nat * dmat))).
Variable is_psd : dmat -> bool.
Variable nearest : dmat -> dmat.
Variable predict : nat -> Z -> inst -> outcome (inst * bool).
Variable eps0 : F.

(** HDL 58-66: exists *)
Definition local (id : nat) (d : dict) : bool := match d_find id d with Some _ => true | None => false end.
(** CSE 23-37: get_propagation_sensor_ID; [own] is m_PropSensor_ID, [ask] the agent handler's request *)
Definition icse_prop_sensor (own : nat) (ask : nat -> nat) (id : nat) (d : dict) : nat :=
  if (id =? 0)%nat || local id d then own else ask id.
(** CSE 39-52: get_type_by_ID; [own] is m_type of the instances (HDL 457-466: "" for a null pointer) *)
Definition icse_type_by_ID {T} (nostring : T) (own : nat -> T) (a : agents T) (id : nat) (d : dict) : T :=
  if (id =? 0)%nat || local id d then (if local id d then own id else nostring) else ma_type_by_ID nostring id a.

(** reading one belief with a strategy: IKF 140-199 (FilterModel.get_belief_at_t), possibly storing a prediction *)
Section Read.
Variable strategy : Type.
Variable read : nat -> Z -> strategy -> inst -> outcome (inst * option belief).
(** HDL 506-527 (on local estimators only): successes are inserted, the result is the conjunction *)
Fixpoint hdl_get_beliefs (ids : list (nat * strategy)) (t : Z) (d : dict) (acc : bels) (res : bool) : outcome (dict * bels * bool) :=
  match ids with
  | nil => Ok (d, acc, res)
  | (id, ty) :: r =>
      match d_find id d with
      | Some i =>
          let! (i', ob) := read id t ty i in
          match ob with
          | Some b => hdl_get_beliefs r t (d_upd id i' d) (smap_insert id b acc) res
          | None => hdl_get_beliefs r t (d_upd id i' d) acc false
          end
      | None => hdl_get_beliefs r t d acc false
      end
  end.
(** CSE 77-112: get_beliefs_at_t; types.at(idx) throws when there are fewer strategies than IDs *)
Variable remote_beliefs : list (nat * strategy) -> Z -> bool * bels.
Fixpoint pair_types (ids : list nat) (tys : list strategy) : outcome (list (nat * strategy)) :=
  match ids, tys with
  | nil, _ => Ok nil
  | id :: r, ty :: s => let! l := pair_types r s in Ok ((id, ty) :: l)
  | _ :: _, nil => Abort OutOfRangeException
  end.
Definition icse_get_beliefs (ids : list nat) (tys : list strategy) (t : Z) (d : dict) : outcome (dict * bels * bool) :=
  let! l := pair_types ids tys in
  let here := List.filter (fun e => local (fst e) d) l in
  let there := List.filter (fun e => ~~ local (fst e) d) l in
  let! (d', lb, r1) := (if here is nil then Ok (d, nil, true) else hdl_get_beliefs here t d nil true) in
  let (r2, rb) := if there is nil then (true, nil) else remote_beliefs there t in
  Ok (d', List.fold_left (fun m e => smap_insert (fst e) (snd e) m) rb lb, r1 && r2).
End Read.

(** CSE 196-250: get_local_beliefs_and_FCC_at_t; None when it returns false *)
Fixpoint local_beliefs (ids : list nat) (t : Z) (d : dict) (acc : bels) : outcome (dict * option bels) :=
  match ids with
  | nil => Ok (d, Some acc)
  | id :: r =>
      match d_find id d with
      | Some i =>
          let! (i', ob) := belief_or_predict predict id t i in
          match ob with
          | Some b => local_beliefs r t (d_upd id i' d) (smap_insert id b acc)
          | None => Ok (d_upd id i' d, None)
          end
      | None => Ok (d, None)
      end
  end.
(** CSE 225-240: the row of one estimator; the factor is an empty matrix when none is stored *)
Definition fcc_add (id j : nat) (X : dmat) (m : fccs) : fccs :=
  let row := match smap_find id m with Some r => r | None => nil end in smap_set id (smap_insert j X row) m.
Definition local_fcc (ids parts : list nat) (t : Z) (d : dict) : fccs :=
  List.fold_left (fun m id => List.fold_left (fun m j =>
      if (id =? j)%nat then m else
      match d_find id d with Some i => fcc_add id j (ccf_get j t (i_ccf i)) m | None => m end) parts m) ids nil.
Definition get_local (ids parts : list nat) (t : Z) (d : dict) : outcome (dict * option (bels * fccs)) :=
  let! (d', ob) := local_beliefs ids t d nil in
  Ok (d', match ob with Some bs => Some (bs, local_fcc ids parts t d') | None => None end).

(** .at on a map of maps *)
Definition fcc_at (i j : nat) (m : fccs) : outcome dmat :=
  match smap_find i m with
  | Some r => match smap_find j r with Some X => Ok X | None => Abort OutOfRangeException end
  | None => Abort OutOfRangeException
  end.
(** CSE 253-302: stack_Sigma_locally.  (dict_FFC[id_row] in the second check adds an empty row when there is none; with two or
    more beliefs the check then throws, with one nothing reads it, so the addition is not modelled.) *)
Definition stack_Sigma_locally (bs : bels) (fcc : fccs) : outcome dmat :=
  let n := List.fold_left (fun s e => (s + bel_dim (snd e))%nat) bs 0%nat in
  if ~~ (List.length fcc =? List.length bs)%nat then Abort RTVerificationFailed else
  let! (Sg, _) := ofold (fun s ei =>
      let di := bel_dim (snd ei) in let row := snd s in
      let cols := match smap_find (fst ei) fcc with Some r => List.length r | None => 0%nat end in
      if ~~ (List.length bs - 1 <=? cols)%nat then Abort RTVerificationFailed else
      let! (Sg, _) := ofold (fun s' ej =>
          let dj := bel_dim (snd ej) in let col := snd s' in
          let! Sg := (if (fst ei =? fst ej)%nat then dset_block (fst s') row col di dj (b_Sigma (snd ei))
                     else if (fst ei <? fst ej)%nat then
                       let! Fij := fcc_at (fst ei) (fst ej) fcc in
                       let! Fji := fcc_at (fst ej) (fst ei) fcc in
                       let! Sij := (if (dsize Fij != 0%N) && (dsize Fji != 0%N) then dmul Fij (dtr Fji) else Ok (dempty F)) in
                       if dsize Sij != 0%N then
                         let! Sg := dset_block (fst s') row col di dj Sij in dset_block Sg col row dj di (dtr Sij)
                       else Ok (fst s')
                     else Ok (fst s')) in
          Ok (Sg, (col + dj)%nat)) (fst s, 0%nat) bs in
      Ok (Sg, (row + di)%nat)) (dzero F n n, 0%nat) bs in
  Ok Sg.
(** CSE 304-344: split_Sigma_locally; with no belief IDs.size() - 1 wraps around and IDs.at(0) throws *)
Fixpoint split_row_locally (S : dmat) (I di row col : nat) (rest : bels) (m : fccs) : outcome fccs :=
  match rest with
  | nil => Ok m
  | (J, b) :: r =>
      let! Sij := dblock S row col di (bel_dim b) in
      let (Fij, Fji) := if (I <? J)%nat then (Sij, deye F (dcols Sij) (dcols Sij))
                        else (deye F (dcols (dtr Sij)) (dcols (dtr Sij)), dtr Sij) in
      split_row_locally S I di row (col + bel_dim b) r (fcc_add J I Fji (fcc_add I J Fij m))
  end.
Fixpoint split_rows_locally (S : dmat) (row : nat) (bs : bels) (m : fccs) : outcome fccs :=
  match bs with
  | nil => Abort OutOfRangeException
  | [:: _] => Ok m
  | (Ia, b) :: r => let! m := split_row_locally S Ia (bel_dim b) row (row + bel_dim b) r m in split_rows_locally S (row + bel_dim b) r m
  end.
Definition split_Sigma_locally (S : dmat) (bs : bels) : outcome fccs := split_rows_locally S 0 bs nil.

(** eigen_utils.cpp 274-283: correct_covariance (called inside RTV_EXPECT_TRUE_MSG, which evaluates it and only logs) *)
Definition correct_covariance (S : dmat) : outcome dmat :=
  let! S := stabilize_covariance S eps0 in Ok (if is_psd S then S else nearest S).

(** ** DCI_IKF_Handler *)
Variable h : bels -> list nat -> dmat -> list (nat * dmat) * dmat.
(** the reply of the agent handler's get_beliefs_and_FCC_at_t(remote_IDs, remote_IDs, t, ...) *)
Variable remote : list nat -> Z -> bool * (bels * fccs).
(** DCI 75-87: the Jacobians of the listed estimators *)
Definition pick_H (ids : list nat) (dH : list (nat * dmat)) : list (nat * dmat) :=
  List.fold_left (fun m id => match smap_find id dH with Some X => smap_set id X m | None => m end) ids nil.
(** DCI 88-107: the fixed beliefs' Jacobians and rows are removed, and they themselves *)
Definition drop_rows (bs : bels) (m : fccs) : fccs :=
  List.fold_left (fun m e => if b_fixed (snd e) then smap_erase (fst e) m else m) bs m.
Definition unfix (bs : bels) : bels := List.filter (fun e => ~~ b_fixed (snd e)) bs.
(** DCI 121: omega_i = 0.995 *)
Definition omega : F := (199%:R / 200%:R)%R.
(** DCI 38-160: apply_inter_agent_observation *)
Definition dci_observation (R z : dmat) (t : Z) (IDs : list nat) (cfg : corr_cfg F) (remote_IDs local_IDs : list nat) (d : dict)
    : outcome (dict * obs_res F) :=
  let! (d, ol) := get_local local_IDs local_IDs t d in
  match ol with
  | None => Ok (d, ObsRes OUTOFORDER None)
  | Some (lb, lf) =>
      if lb is nil then Ok (d, ObsRes OUTOFORDER None) else
      let (got, rr) := remote remote_IDs t in let (rb, rf) := rr in
      if ~~ got then Ok (d, ObsRes OUTOFORDER None) else
      if rb is nil then Ok (d, ObsRes OUTOFORDER None) else
      let bs := List.fold_left (fun m e => smap_insert (fst e) (snd e) m) rb lb in
      let (dH, r) := h bs IDs z in
      let! Hi := stack_H (drop_fixed lb (pick_H local_IDs dH)) in
      let! Hj := stack_H (drop_fixed rb (pick_H remote_IDs dH)) in
      let! Si := stack_Sigma_locally (unfix lb) (drop_rows lb lf) in
      let! Sj := stack_Sigma_locally (unfix rb) (drop_rows rb rf) in
      let! Si := correct_covariance Si in
      let! Sj := correct_covariance Sj in
      let! res := covariance_intersection_correction junk Hi Hj R r Si Sj omega cfg in
      if ~~ rejected res then
        let Sp := if is_psd (Sigma_apos res) then Sigma_apos res else nearest (Sigma_apos res) in
        let! d := write_joint junk Sp (delta_mean res) (unfix lb) t d in
        Ok (d, ObsRes PROCESSED (Some r))
      else Ok (d, ObsRes REJECTED (Some r))
  end.

(** CSE 114-155: apply_observation(R, z, t, h, IDs, cfg); [inter] is the derived class's apply_inter_agent_observation *)
Variable T : Type.
Definition agents_of (ids : list nat) (a : agents T) (d : dict) : list nat :=
  List.fold_left (fun s id => if ~~ local id d then sset_insert (estimatorID2agentID id a) s else s) ids nil.
Definition icse_observation (inter : list nat -> list nat -> dict -> outcome (dict * obs_res F)) (base : dict -> outcome (dict * obs_res F))
    (IDs : list nat) (a : agents T) (d : dict) : outcome (dict * obs_res F) :=
  let there := List.filter (fun id => ~~ local id d) IDs in
  let here := List.filter (fun id => local id d) IDs in
  if there is nil then base d
  else if (List.length (agents_of IDs a d) =? 1)%nat then inter there here d
  else Ok (d, ObsRes DISCARED None).
End ICSE.
