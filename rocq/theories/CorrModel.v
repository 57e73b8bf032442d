(** The lazy isolated filter IIsolatedKalmanFilterCorr: a history of correction terms instead of eagerly propagated factors.
    Sources under /repo/source/ikf: source/Estimator/IIsolatedKalmanFilterCorr.cpp (CRR),
    source/Estimator/IIsolatedKalmanFilter.cpp (IIKF), source/Estimator/IKalmanFilter.cpp (IKF).
    Simplifications: as in IsoModel.v; print_HistCorr (CRR 195-213) only logs; the factor Timestamps are compared through
    their int64 keys. *)
From Coq Require Import ZArith List Bool Arith.
From Flocq Require Import IEEE754.BinarySingleNaN.
From mathcomp Require Import all_ssreflect all_algebra.
From Verif Require Import Outcome TimestampModel DoubleModel BufModel HorizonModel MeasModel HandlerModel DMat KFModel BeliefModel IsoModel.
Set Implicit Arguments. Unset Strict Implicit. Unset Printing Implicit Defensive.
Import GRing.Theory Num.Theory.
Local Open Scope outcome_scope.

Section Corr.
Variable F : realFieldType.
Variable junk : forall n, 'M[F]_n -> 'M[F]_n.
Notation dmat := (dmat F).
Notation belief := (belief F).
Notation inst := (inst belief dmat).
Notation ccfs := (list (nat * buf dmat)).
Notation correction_step := (correction_step junk).
Notation dinv := (dinv junk).
(** the horizon of beliefs and factors, and HistCorr.max_horizon() (CRR 28-30: the same; CRR 82-86: twice as long after
    set_horizon) *)
Variables (hor chor : double).

(** IIsolatedKalmanFilterCorr.hpp 40-79: an isolated instance and its HistCorr *)
Record cinst := CInst { c_inst : inst; c_hist : buf dmat }.

(** CRR 122-149: compute_correction; an empty matrix if there is no term after t_a or none at or before t_b *)
Definition compute_correction (ta tb : Z) (h : buf dmat) : outcome dmat :=
  let tb_found := match get_at_t tb h with Some _ => Some tb | None => option_map fst (get_before_t tb h) end in
  match get_after_t ta h, tb_found with
  | Some (t1, m), Some t2 =>
      let k := maxn (dcols m) (drows m) in
      hb_accumulate_between t1 t2 (fun acc B => let! A := acc in dmul B A) (Ok (deye F k k)) h
  | _, _ => Ok (dempty F)
  end.
(** CRR 39-69: get_CrossCovFact_at_t reconstructs the factor and stores it *)
Definition corr_get_ccf (j : nat) (t : Z) (c : cinst) : outcome (cinst * dmat) :=
  match ccf_find j (i_ccf (c_inst c)) with
  | Some b =>
      match get_at_t t b with
      | Some m => Ok (c, m)
      | None =>
          match get_before_t t b with
          | Some (tp, m) =>
              let! M := compute_correction tp t (c_hist c) in
              if dsize M != 0%N then
                let! m' := dmul M m in
                Ok (CInst (with_ccf (ccf_set j t m' (i_ccf (c_inst c))) (c_inst c)) (c_hist c), m')
              else Ok (c, m)
          | None => Ok (c, dempty F)
          end
      end
  | None => Ok (c, dempty F)
  end.
(** CRR 88-113: check_correction_horizon.  get_before_t leaves the default Timestamp (0) when there is nothing before;
    the loop body for one factor buffer: *)
Definition move_ccf (h : buf dmat) (mid : Z) (b : buf dmat) : outcome (buf dmat) :=
  match get_latest b with
  | Some (t, m) =>
      if Z.leb t mid then
        if exist_at_t t h then
          let! M := compute_correction t mid h in let! p := dmul M m in Ok (hb_insert mid p b)
        else Abort RTVerificationFailed
      else Ok b
  | None => Ok b
  end.
Fixpoint move_ccfs (h : buf dmat) (mid : Z) (c : ccfs) : outcome ccfs :=
  match c with
  | nil => Ok nil
  | (k, b) :: r => let! b' := move_ccf h mid b in let! r' := move_ccfs h mid r in Ok ((k, b') :: r')
  end.
Definition check_correction_horizon (h : buf dmat) (c : ccfs) : outcome ccfs :=
  let half := d_mul chor d_half in
  if Bltb half (span_sec h) then
    let old := match get_oldest_t h with Some o => o | None => Z0 end in
    let! o := from_sec (d_add (to_sec (from_stamp_ns old)) half) in
    let! k := stamp_ns o in
    let mid := match get_before_t k h with Some (t, _) => t | None => Z0 end in
    move_ccfs h mid c
  else Ok c.
(** CRR 115-120: check_horizon *)
Definition corr_check_horizon (c : cinst) : outcome cinst :=
  let! f := check_correction_horizon (c_hist c) (i_ccf (c_inst c)) in
  let! h := check_horizon chor (c_hist c) in
  let! i := iso_check_horizon hor (with_ccf f (c_inst c)) in
  Ok (CInst i h).
(** CRR 151-161: add_correction_at_t refuses a second term for the same time *)
Definition add_correction (tb : Z) (Phi : dmat) (h : buf dmat) : buf dmat * bool :=
  if exist_at_t tb h then (h, false) else (hb_insert tb Phi h, true).
(** CRR 163-188: apply_correction_at_t(t, Factor) *)
Definition apply_correction (t : Z) (M : dmat) (c : cinst) : outcome (cinst * bool) :=
  let! f := ccf_scale t t M (i_ccf (c_inst c)) in
  let i := with_ccf f (c_inst c) in
  match get_at_t t (c_hist c) with
  | Some m => let! p := dmul M m in Ok (CInst i (hb_insert t p (c_hist c)), true)
  | None => Ok (CInst i (hb_insert t M (c_hist c)), false)
  end.
(** CRR 190-193: apply_correction_at_t(t, Sigma_apri, Sigma_apos) *)
Definition apply_correction_cov (t : Z) (Sapri Sapos : dmat) (c : cinst) : outcome (cinst * bool) :=
  let! i := dinv Sapri in let! L := dmul Sapos i in apply_correction t L c.
(** IIKF 228-274, second half: add_correction_at_t, then check_horizon; false (the belief is already stored) if refused *)
Definition corr_factors (Phi : dmat) (tb : Z) (c : cinst) : outcome (cinst * bool) :=
  let (h, ok) := add_correction tb Phi (c_hist c) in
  if ok then let! c' := corr_check_horizon (CInst (c_inst c) h) in Ok (c', true) else Ok (c, false).
(** IIKF 245-259: apply_propagation(bel_a, mean_b, Phi, Q, t_a, t_b) *)
Definition corr_propagate_bel (ba : belief) (mean_b Phi Q : dmat) (ta tb : Z) (c : cinst) : outcome (cinst * bool) :=
  let! (l, ok) := kf_propagate_bel ba mean_b Phi Q tb (i_bel (c_inst c)) in
  if ok then corr_factors Phi tb (CInst (with_bel l (c_inst c)) (c_hist c)) else Ok (c, false).
(** IIKF 228-242: apply_propagation(Phi, Q, t_a, t_b) calls IKF 327-340, which calls the virtual method above; then the same
    term is added again *)
Definition corr_propagate (Phi Q : dmat) (ta tb : Z) (c : cinst) : outcome (cinst * bool) :=
  match get_at_t ta (i_bel (c_inst c)) with
  | Some ba =>
      if check_dim_mean (b_mean ba) Phi then
        let! mb := dmul Phi (b_mean ba) in
        let! (c1, ok) := corr_propagate_bel ba mb Phi Q ta tb c in
        if ok then corr_factors Phi tb c1 else Ok (c1, false)
      else Ok (c, false)
  | None => Ok (c, false)
  end.
(** IIKF 261-274: apply_propagation(bel_b, Phi, t_a, t_b) *)
Definition corr_propagate_store (bb : belief) (Phi : dmat) (ta tb : Z) (c : cinst) : outcome (cinst * bool) :=
  let! (l, ok) := kf_propagate_store bb Phi tb (i_bel (c_inst c)) in
  if ok then corr_factors Phi tb (CInst (with_bel l (c_inst c)) (c_hist c)) else Ok (c, false).
(** IIKF 289-312: apply_private_observation(bel, H, R, r, cfg), [bel] the pointer stored at key [t]; the belief is corrected
    only if apply_correction_at_t answered true *)
Definition corr_private_bel (t : Z) (ba : belief) (H R r : dmat) (cfg : corr_cfg F) (c : cinst) : outcome (cinst * bool) :=
  let! res := correction_step H R r (b_Sigma ba) cfg in
  if ~~ rejected res then
    let! (c', ok) := apply_correction (b_t ba) (res_U res) c in
    if ok then
      let! b' := bel_correct (delta_mean res) (Sigma_apos res) ba in
      Ok (CInst (with_bel (hb_insert t b' (i_bel (c_inst c'))) (c_inst c')) (c_hist c'), true)
    else Ok (c', false)
  else Ok (c, false).
(** IIKF 277-287: apply_private_observation(H, R, z, t, cfg) *)
Definition corr_private (H R z : dmat) (t : Z) (cfg : corr_cfg F) (c : cinst) : outcome (cinst * bool) :=
  match get_at_t t (i_bel (c_inst c)) with
  | Some ba => let! hm := dmul H (b_mean ba) in let! r := dsub z hm in corr_private_bel t ba H R r cfg c
  | None => Ok (c, false)
  end.
(** CRR 33-36, 71-75, 76-80: reset, remove_after_t, remove_from_t *)
Definition corr_reset (c : cinst) : cinst := CInst (Inst (i_enabled (c_inst c)) nil nil) nil.
Definition corr_remove_after (t : Z) (c : cinst) : cinst := CInst (inst_remove_after t (c_inst c)) (remove_after_t t (c_hist c)).
Definition corr_remove_from (t : Z) (c : cinst) : cinst :=
  CInst (inst_remove_from t (c_inst c)) (remove_at_t t (remove_after_t t (c_hist c))).
End Corr.
Arguments CInst {F}. Arguments c_inst {F}. Arguments c_hist {F}.
