(** Isolated filter instances and the joint update of IsolatedKalmanFilterHandler.
    Sources under /repo/source/ikf/source: Estimator/IIsolatedKalmanFilter.cpp (IIKF), Estimator/IKalmanFilter.cpp (IKF),
    EstimatorHandler/IsolatedKalmanFilterHandler.cpp (IKH), EstimatorHandler/IDICOHandler.cpp (HDL).
    An instance is [inst] of HandlerModel.v with beliefs as values (justified by C66) and factors as matrices; the
    handler's registry is [dict].  HistCrossCovFactors (std::unordered_map) is an association list in iteration order;
    std::map<size_t, T> is a list in ascending ID order.
    Simplifications: is_positive_semidefinite and nearest_covariance (Eigen's eigenvalue solver) and the user's predict_to
    are parameters; RTV_EXPECT_TRUE_MSG only logs; every mutex acquisition succeeds; the instance's own HistMeas stays
    empty (measurements go to the handler); instances are of the eager class IIsolatedKalmanFilter (CorrModel.v has the
    lazy one). *)
From Coq Require Import ZArith List Bool Arith.
From mathcomp Require Import all_ssreflect all_algebra.
From Verif Require Import Outcome DoubleModel BufModel HorizonModel MeasModel HandlerModel DMat KFModel BeliefModel.
Set Implicit Arguments. Unset Strict Implicit. Unset Printing Implicit Defensive.
Import GRing.Theory Num.Theory.
Local Open Scope outcome_scope.

(** a loop whose body may fail *)
Fixpoint ofold {S A} (f : S -> A -> outcome S) (s : S) (l : list A) : outcome S :=
  match l with nil => Ok s | a :: r => let! s' := f s a in ofold f s' r end.
(** std::map<size_t, V>::insert keeps an existing element *)
Fixpoint smap_insert {V} (k : nat) (v : V) (l : list (nat * V)) : list (nat * V) :=
  match l with
  | nil => [:: (k, v)]
  | (x, w) :: r => if (k <? x)%nat then (k, v) :: (x, w) :: r else if (k =? x)%nat then (x, w) :: r else (x, w) :: smap_insert k v r
  end.

Section Iso.
Variable F : realFieldType.
Variable junk : forall n, 'M[F]_n -> 'M[F]_n.
Notation dmat := (dmat F).
Notation belief := (belief F).
Notation inst := (inst belief dmat).
Notation dict := (dict belief dmat).
Notation correction_step := (correction_step junk).
Notation dinv := (dinv junk).
(** IKalmanFilter.hpp: max_time_horizon_sec of the instances (HDL 28-42: add sets the handler's) *)
Variable hor : double.

(** ** one instance *)
(** HistCrossCovFactors.find *)
Fixpoint ccf_find (j : nat) (c : list (nat * buf dmat)) : option (buf dmat) :=
  match c with nil => None | (k, b) :: r => if (k =? j)%nat then Some b else ccf_find j r end.
(** IIKF 91-98: get_CrossCovFact_at_t; an empty matrix when there is none *)
Definition ccf_get (j : nat) (t : Z) (c : list (nat * buf dmat)) : dmat :=
  match ccf_find j c with
  | Some b => match get_at_t t b with Some m => m | None => dempty F end
  | None => dempty F
  end.
(** IIKF 100-110: get_CrossCovFact_before_t *)
Definition ccf_get_before (j : nat) (t : Z) (c : list (nat * buf dmat)) : dmat :=
  match ccf_find j c with
  | Some b => match get_before_t t b with Some (_, m) => m | None => dempty F end
  | None => dempty F
  end.
(** IIKF 112-120: set_CrossCovFact_at_t *)
Fixpoint ccf_set (j : nat) (t : Z) (m : dmat) (c : list (nat * buf dmat)) : list (nat * buf dmat) :=
  match c with
  | nil => [:: (j, hb_insert t m nil)]
  | (k, b) :: r => if (k =? j)%nat then (k, hb_insert t m b) :: r else (k, b) :: ccf_set j t m r
  end.
(** IIKF 50-57, 59-68, 70-79: get_correlated_IDs, _at_t, _after_t *)
Definition ccf_ids (c : list (nat * buf dmat)) : list nat := List.map fst c.
Definition ccf_ids_at (t : Z) (c : list (nat * buf dmat)) : list nat := List.map fst (List.filter (fun e => exist_at_t t (snd e)) c).
Definition ccf_ids_after (t : Z) (c : list (nat * buf dmat)) : list nat := List.map fst (List.filter (fun e => exist_after_t t (snd e)) c).
(** IIKF 122-130 propagate_CrossCovFact, 167-178 add_correction_at_t(t_a, t_b, M), and with t_a = t_b 180-191
    apply_correction_at_t(t, M) *)
Fixpoint ccf_scale (ta tb : Z) (M : dmat) (c : list (nat * buf dmat)) : outcome (list (nat * buf dmat)) :=
  match c with
  | nil => Ok nil
  | (k, b) :: r =>
      let! b' := (match get_at_t ta b with Some m => let! p := dmul M m in Ok (hb_insert tb p b) | None => Ok b end) in
      let! r' := ccf_scale ta tb M r in Ok ((k, b') :: r')
  end.
(** IIKF 194-197: apply_correction_at_t(t, Sigma_apri, Sigma_apos) *)
Definition ccf_correct (t : Z) (Sapri Sapos : dmat) (c : list (nat * buf dmat)) : outcome (list (nat * buf dmat)) :=
  let! i := dinv Sapri in let! L := dmul Sapos i in ccf_scale t t L c.
(** IIKF 156-164: check_horizon *)
Fixpoint ccf_trim (c : list (nat * buf dmat)) : outcome (list (nat * buf dmat)) :=
  match c with
  | nil => Ok nil
  | (k, b) :: r => let! b' := check_horizon_restricted hor 4 b in let! r' := ccf_trim r in Ok ((k, b') :: r')
  end.
Definition iso_check_horizon (i : inst) : outcome inst :=
  let! l := check_horizon_restricted hor 4 (i_bel i) in let! c := ccf_trim (i_ccf i) in Ok (Inst (i_enabled i) l c).
Definition with_bel (l : buf belief) (i : inst) : inst := Inst (i_enabled i) l (i_ccf i).
Definition with_ccf (c : list (nat * buf dmat)) (i : inst) : inst := Inst (i_enabled i) (i_bel i) c.
(** the common second half of IIKF 228-274: add_correction_at_t, then check_horizon *)
Definition iso_factors (Phi : dmat) (ta tb : Z) (i : inst) : outcome inst :=
  let! c := ccf_scale ta tb Phi (i_ccf i) in iso_check_horizon (with_ccf c i).
(** IIKF 245-259: apply_propagation(bel_a, mean_b, Phi, Q, t_a, t_b) *)
Definition iso_propagate_bel (ba : belief) (mean_b Phi Q : dmat) (ta tb : Z) (i : inst) : outcome (inst * bool) :=
  let! (l, ok) := kf_propagate_bel ba mean_b Phi Q tb (i_bel i) in
  if ok then let! i' := iso_factors Phi ta tb (with_bel l i) in Ok (i', true) else Ok (i, false).
(** IIKF 228-242: apply_propagation(Phi, Q, t_a, t_b) calls IKF 327-340, which calls the virtual method above, so the
    factors are propagated and the horizon checked twice. *)
Definition iso_propagate (Phi Q : dmat) (ta tb : Z) (i : inst) : outcome (inst * bool) :=
  match get_at_t ta (i_bel i) with
  | Some ba =>
      if check_dim_mean (b_mean ba) Phi then
        let! mb := dmul Phi (b_mean ba) in
        let! (i1, ok) := iso_propagate_bel ba mb Phi Q ta tb i in
        if ok then let! i2 := iso_factors Phi ta tb i1 in Ok (i2, true) else Ok (i1, false)
      else Ok (i, false)
  | None => Ok (i, false)
  end.
(** IIKF 261-274: apply_propagation(bel_b, Phi, t_a, t_b) *)
Definition iso_propagate_store (bb : belief) (Phi : dmat) (ta tb : Z) (i : inst) : outcome (inst * bool) :=
  let! (l, ok) := kf_propagate_store bb Phi tb (i_bel i) in
  if ok then let! i' := iso_factors Phi ta tb (with_bel l i) in Ok (i', true) else Ok (i, false).
(** IIKF 289-312: apply_private_observation(bel, H, R, r, cfg) where the pointer [bel] is the one stored at key [t]; the
    factors are corrected at the belief's own time stamp *)
Definition iso_private_bel (t : Z) (ba : belief) (H R r : dmat) (cfg : corr_cfg F) (i : inst) : outcome (inst * bool) :=
  let! res := correction_step H R r (b_Sigma ba) cfg in
  if ~~ rejected res then
    let! c := ccf_scale (b_t ba) (b_t ba) (res_U res) (i_ccf i) in
    let! b' := bel_correct (delta_mean res) (Sigma_apos res) ba in
    Ok (with_bel (hb_insert t b' (i_bel i)) (with_ccf c i), true)
  else Ok (i, false).
(** IIKF 277-287: apply_private_observation(H, R, z, t, cfg) *)
Definition iso_private (H R z : dmat) (t : Z) (cfg : corr_cfg F) (i : inst) : outcome (inst * bool) :=
  match get_at_t t (i_bel i) with
  | Some ba => let! hm := dmul H (b_mean ba) in let! r := dsub z hm in iso_private_bel t ba H R r cfg i
  | None => Ok (i, false)
  end.

(** ** the registry: get(ID)-> on a missing instance dereferences a null pointer (HDL 427-438) *)
Definition at_inst {A} (id : nat) (d : dict) (f : inst -> outcome A) : outcome A :=
  match d_find id d with Some i => f i | None => UB NullDeref end.
(** the instance registered under [id] is modified *)
Fixpoint d_upd (id : nat) (i : inst) (d : dict) : dict :=
  match d with nil => nil | (k, x) :: r => if (k =? id)%nat then (k, i) :: r else (k, x) :: d_upd id i r end.
Definition mod_inst (id : nat) (f : inst -> outcome inst) (d : dict) : outcome dict :=
  at_inst id d (fun i => let! i' := f i in Ok (d_upd id i' d)).

(** IKH 33-43: set_Sigma_IJ_at_t *)
Definition set_Sigma_IJ (I J : nat) (S : dmat) (t : Z) (d : dict) : outcome dict :=
  let set a b m d := mod_inst a (fun i => Ok (with_ccf (ccf_set b t m (i_ccf i)) i)) d in
  if (I <? J)%nat then let! d := set I J S d in set J I (deye F (dcols S) (dcols S)) d
  else let S' := dtr S in let! d := set J I S' d in set I J (deye F (dcols S') (dcols S')) d.
(** IKH 219-236: get_Sigma_IJ_at_t *)
Definition get_Sigma_IJ (I J : nat) (t : Z) (d : dict) : outcome dmat :=
  let! fij := at_inst I d (fun i => Ok (ccf_get J t (i_ccf i))) in
  let! fji := at_inst J d (fun i => Ok (ccf_get I t (i_ccf i))) in
  if (dsize fij != 0%N) && (dsize fji != 0%N) then
    if (I <? J)%nat then dmul fij (dtr fji)
    else let! s := dmul fji (dtr fij) in Ok (dtr s)
  else Ok (dempty F).

(** ** the joint observation *)
Section Joint.
Variable is_psd : dmat -> bool.                     (* utils::is_positive_semidefinite *)
Variable nearest : dmat -> dmat.                    (* utils::nearest_covariance(_, 1e-6) *)
Variable predict : nat -> Z -> inst -> outcome (inst * bool).   (* the user's predict_to(t) *)
Variable eps0 : F.                                  (* default eps of stabilize_covariance: 1e-12 *)

(** IKH 45-63: stack_H *)
Definition stack_H (dH : list (nat * dmat)) : outcome dmat :=
  let state_dim := List.fold_left (fun s e => (s + dcols (snd e))%nat) dH 0%nat in
  let rows := List.fold_left (fun s e => drows (snd e)) dH 0%nat in
  let! (H, _) := ofold (fun s e => let! H := dset_block (fst s) 0 (snd s) rows (dcols (snd e)) (snd e) in Ok (H, (snd s + dcols (snd e))%nat))
                   (dzero F rows state_dim, 0%nat) dH in
  Ok H.

(** IKF 143-199: get_belief_at_t(t, bel, PREDICT_BELIEF) *)
Definition belief_or_predict (id : nat) (t : Z) (i : inst) : outcome (inst * option belief) :=
  if exist_at_t t (i_bel i) then Ok (i, get_at_t t (i_bel i))
  else let! (i', ok) := predict id t i in Ok (i', if ok then get_at_t t (i_bel i') else None).
(** IKH 65-88: get_dict_bel; the dictionary maps IDs to the beliefs stored at t *)
Fixpoint get_dict_bel_loop (ids : list nat) (t : Z) (d : dict) (acc : list (nat * belief)) : outcome (dict * list (nat * belief)) :=
  match ids with
  | nil => Ok (d, acc)
  | id :: r =>
      at_inst id d (fun i =>
        let! (i', ob) := belief_or_predict id t i in
        match ob with
        | Some b => get_dict_bel_loop r t (d_upd id i' d) (smap_insert id b acc)
        | None => Ok (d_upd id i' d, nil)
        end)
  end.
Definition get_dict_bel (ids : list nat) (t : Z) (d : dict) := get_dict_bel_loop ids t d nil.

(** IKH 90-98: get_dim *)
Definition get_dim (bs : list (nat * belief)) : nat :=
  List.fold_left (fun s e => if ~~ b_fixed (snd e) then (s + bel_dim (snd e))%nat else s) bs 0%nat.
(** IKH 100-118: stack_mean *)
Definition stack_mean (bs : list (nat * belief)) : outcome dmat :=
  let! (m, _) := ofold (fun s e => if ~~ b_fixed (snd e) then
                           let! m := dset_block (fst s) (snd s) 0 (bel_dim (snd e)) 1 (b_mean (snd e)) in
                           Ok (m, (snd s + bel_dim (snd e))%nat)
                         else Ok s) (dzero F (get_dim bs) 1, 0%nat) bs in
  Ok m.
(** IKH 121-159: stack_Sigma *)
Definition stack_Sigma (bs : list (nat * belief)) (t : Z) (d : dict) : outcome dmat :=
  let n := get_dim bs in
  let! (Sg, _) := ofold (fun s ei =>
      let di := bel_dim (snd ei) in let row := snd s in
      if ~~ b_fixed (snd ei) then
        let! (Sg, _) := ofold (fun s' ej =>
            let dj := bel_dim (snd ej) in let col := snd s' in
            if ~~ b_fixed (snd ej) then
              let! Sg := (if (fst ei =? fst ej)%nat then dset_block (fst s') row col di dj (b_Sigma (snd ei))
                         else if (fst ei <? fst ej)%nat then
                           let! Sij := get_Sigma_IJ (fst ei) (fst ej) t d in
                           if dsize Sij != 0%N then
                             let! Sg := dset_block (fst s') row col di dj Sij in dset_block Sg col row dj di (dtr Sij)
                           else Ok (fst s')
                         else Ok (fst s')) in
              Ok (Sg, (col + dj)%nat)
            else Ok s') (fst s, 0%nat) bs in
        Ok (Sg, (row + di)%nat)
      else Ok s) (dzero F n n, 0%nat) bs in
  symmetrize_covariance Sg.

(** IKH 161-174: apply_corrections_at_t *)
Definition apply_corrections (S : dmat) (bs : list (nat * belief)) (t : Z) (d : dict) : outcome dict :=
  let! (d, _) := ofold (fun s e => if ~~ b_fixed (snd e) then
                           let di := bel_dim (snd e) in
                           let! Sii := dblock S (snd s) (snd s) di di in
                           let! d := mod_inst (fst e) (fun i => let! c := ccf_correct t (b_Sigma (snd e)) Sii (i_ccf i) in Ok (with_ccf c i)) (fst s) in
                           Ok (d, (snd s + di)%nat)
                         else Ok s) (d, 0%nat) bs in
  Ok d.
(** IKH 176-201: split_right_upper_covariance; with no unfixed participant IDs.size() - 1 wraps around and IDs.at(0) throws *)
Fixpoint split_row (S : dmat) (I di row col : nat) (rest : list (nat * belief)) (t : Z) (d : dict) : outcome dict :=
  match rest with
  | nil => Ok d
  | (J, b) :: r =>
      let! Sij := dblock S row col di (bel_dim b) in
      let! d := set_Sigma_IJ I J Sij t d in
      split_row S I di row (col + bel_dim b) r t d
  end.
Fixpoint split_rows (S : dmat) (row : nat) (us : list (nat * belief)) (t : Z) (d : dict) : outcome dict :=
  match us with
  | nil => Abort OutOfRangeException
  | [:: _] => Ok d
  | (Ia, b) :: r => let! d := split_row S Ia (bel_dim b) row (row + bel_dim b) r t d in split_rows S (row + bel_dim b) r t d
  end.
Definition split_right_upper (S : dmat) (bs : list (nat * belief)) (t : Z) (d : dict) : outcome dict :=
  split_rows S 0 (List.filter (fun e => ~~ b_fixed (snd e)) bs) t d.
(** IKH 203-216: correct_beliefs_implace; the pointers are those stored at t *)
Definition correct_beliefs (S dx : dmat) (bs : list (nat * belief)) (t : Z) (d : dict) : outcome dict :=
  let! (d, _) := ofold (fun s e => if ~~ b_fixed (snd e) then
                           let di := bel_dim (snd e) in
                           let! Sii := dblock S (snd s) (snd s) di di in
                           let! v := dblock dx (snd s) 0 di 1 in
                           let! b' := bel_correct v Sii (snd e) in
                           let! d := mod_inst (fst e) (fun i => Ok (with_bel (hb_insert t b' (i_bel i)) i)) (fst s) in
                           Ok (d, (snd s + di)%nat)
                         else Ok s) (d, 0%nat) bs in
  Ok d.
(** IKH 261-276: the three write phases *)
Definition write_joint (S dx : dmat) (bs : list (nat * belief)) (t : Z) (d : dict) : outcome dict :=
  let! d := apply_corrections S bs t d in
  let! d := split_right_upper S bs t d in
  correct_beliefs S dx bs t d.
(** IKH 247-279: from the stacked covariance on *)
Definition joint_update (H R r : dmat) (bs : list (nat * belief)) (S : dmat) (t : Z) (cfg : corr_cfg F) (d : dict) : outcome (dict * bool) :=
  let! Sg := stabilize_covariance S eps0 in
  let! res := correction_step H R r Sg cfg in
  if ~~ rejected res then
    let Sp := if is_psd (Sigma_apos res) then Sigma_apos res else nearest (Sigma_apos res) in
    let! d := write_joint Sp (delta_mean res) bs t d in Ok (d, true)
  else Ok (d, false).
(** IKH 238-282: apply_observation(dict_H, R, r, t, cfg) *)
Definition apply_observation_r (dH : list (nat * dmat)) (R r : dmat) (t : Z) (cfg : corr_cfg F) (d : dict) : outcome (dict * bool) :=
  let! H := stack_H dH in
  let! (d, bs) := get_dict_bel (List.map fst dH) t d in
  if bs is nil then Ok (d, false) else
  let! Sg := stack_Sigma bs t d in
  joint_update H R r bs Sg t cfg d.
(** IKH 284-329: apply_observation(dict_H, z, R, t, cfg) *)
Definition apply_observation_z (dH : list (nat * dmat)) (z R : dmat) (t : Z) (cfg : corr_cfg F) (d : dict) : outcome (dict * bool) :=
  let! H := stack_H dH in
  let! (d, bs) := get_dict_bel (List.map fst dH) t d in
  if bs is nil then Ok (d, false) else
  let! m := stack_mean bs in
  let! Sg := stack_Sigma bs t d in
  let! hm := dmul H m in
  let! r := dsub z hm in
  joint_update H R r bs Sg t cfg d.
End Joint.
End Iso.
