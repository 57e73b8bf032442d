(** The iterated private observation of the single filter, given by a measurement function.
    Source: /repo/source/ikf/source/Estimator/IKalmanFilter.cpp (IKF) 424-488.  Parameters: the user's function [h] (IKalmanFilter.hpp
    128: h_priv, belief and measurement to Jacobian and residual), num_iter and the test dx.norm() < tol_eps ([small]; the norm is a
    square root).  The belief's boxplus is that of IBelief. *)
From Coq Require Import ZArith List Bool Arith.
From mathcomp Require Import all_ssreflect all_algebra.
From Verif Require Import Outcome DoubleModel BufModel DMat KFModel BeliefModel.
Set Implicit Arguments. Unset Strict Implicit. Unset Printing Implicit Defensive.
Import GRing.Theory Num.Theory.
Local Open Scope outcome_scope.

Section Iter.
Variable F : realFieldType.
Variable junk : forall n, 'M[F]_n -> 'M[F]_n.
Notation dmat := (dmat F).
Notation belief := (belief F).
Variable h : belief -> dmat -> dmat * dmat.
Variable num_iter : nat.
Variable small : dmat -> bool.
(** what differs between the code and its repair: [outer] - the inner H_idx (435) is the outer one (430) instead of a new variable
    that shadows it; [transposed] - the gain (454) uses H_idx.transpose().  The code is [false], [false]. *)
Variables outer transposed : bool.

(** the variables that outlive an iteration: bel_idx, the outer H_idx, K_idx, mean_idx *)
Record pstate := PState { p_idx : belief; p_H : dmat; p_K : dmat; p_mean : dmat }.
(** IKF 434-468: the loop; None: return false *)
Fixpoint ipriv_loop (n : nat) (apri : belief) (Sapri R z : dmat) (cfg : corr_cfg F) (iter : nat) (s : pstate) : outcome (option pstate) :=
  match n with
  | O => Ok (Some s)
  | S n =>
      let (H, r) := h (p_idx s) z in
      if ~~ check_dim_meas H R r Sapri then Ok None else
      let! r := (if (0 <? iter)%nat then
          let! a := dmul H (b_mean apri) in let! b := dmul H (b_mean (p_idx s)) in
          let! c := dsub r a in dadd c b
        else Ok r) in
      let! HS := dmul H Sapri in let! a := dmul HS (dtr H) in let! S0 := dadd a R in
      let! Sm := stabilize_covariance S0 (cfg_eps cfg) in
      let! out := (if use_outlier_rejection cfg then omap negb (check_NIS junk Sm r (confidence_interval cfg)) else Ok false) in
      if out then Ok None else
      let! p := dmul Sapri (if transposed then dtr H else H) in
      let! Si := dinv junk Sm in
      let! K := dmul p Si in
      let! Kr := dmul K r in
      let! idx := bel_correct_mean Kr (bel_set_mean (b_mean apri) (p_idx s)) in
      let! dx := dsub (p_mean s) (b_mean idx) in
      let H' := if outer then H else p_H s in
      if small dx then Ok (Some (PState idx H' K (p_mean s)))
      else ipriv_loop n apri Sapri R z cfg (S iter) (PState idx H' K (b_mean idx))
  end.
(** IKF 429-485: with the belief found at t and the covariance read before *)
Definition ipriv_rest (apri : belief) (Sapri R z : dmat) (t : Z) (cfg : corr_cfg F) (l : buf belief) : outcome (buf belief * bool) :=
  let! o := ipriv_loop num_iter apri Sapri R z cfg 0 (PState apri (dempty F) (dempty F) (b_mean apri)) in
  match o with
  | None => Ok (l, false)
  | Some s =>
      let! KH := dmul (p_K s) (p_H s) in
      let! U := dsub (deye F (bel_dim apri) (bel_dim apri)) KH in
      let! Sp := (if use_Josephs_form cfg then
          let! u := dmul U Sapri in let! v := dmul u (dtr U) in
          let! w := dmul (p_K s) R in let! x := dmul w (dtr (p_K s)) in dadd v x
        else dmul U Sapri) in
      let! Sp := (if nummerical_stabilization cfg then stabilize_covariance Sp (cfg_eps cfg) else Ok Sp) in
      Ok (hb_insert t (bel_set_Sigma Sp (bel_set_mean (b_mean (p_idx s)) apri)) l, true)
  end.
(** reading a member through a shared_ptr *)
Definition through {A} (p : option belief) (f : belief -> A) : outcome A := match p with Some b => Ok (f b) | None => UB NullDeref end.
(** IKF 424-488: bel_apri is default-constructed (426) and read (427) before get_belief_at_t fills it (428) *)
Definition ipriv (R z : dmat) (t : Z) (cfg : corr_cfg F) (l : buf belief) : outcome (buf belief * bool) :=
  let bel_apri : option belief := None in
  let! Sapri := through bel_apri (@b_Sigma F) in
  match get_at_t t l with
  | Some b => ipriv_rest b Sapri R z t cfg l
  | None => Ok (l, false)
  end.
(** not in the code: the covariance read after the belief was found *)
Definition ipriv_swapped (R z : dmat) (t : Z) (cfg : corr_cfg F) (l : buf belief) : outcome (buf belief * bool) :=
  match get_at_t t l with
  | Some b => ipriv_rest b (b_Sigma b) R z t cfg l
  | None => Ok (l, false)
  end.
End Iter.
