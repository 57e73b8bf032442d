(** Beliefs: values, objects on the heap behind shared pointers, and the single filter's propagation and private update.
    Sources under /repo/source/ikf/source: Estimate/IBelief.cpp (IB), Estimate/LinearBelief.cpp (LB),
    Estimator/IKalmanFilter.cpp (IKF), Estimator/KalmanFilter.cpp (KF).
    Simplifications: entries in an ordered field (DMat.v); VectorXd is a matrix whose one-column shape is checked where the
    code checks it; times are nanosecond keys. *)
From Coq Require Import ZArith List Bool Arith.
From mathcomp Require Import all_ssreflect all_algebra.
From Verif Require Import Outcome DoubleModel BufModel DMat KFModel.
Set Implicit Arguments. Unset Strict Implicit. Unset Printing Implicit Defensive.
Import GRing.Theory Num.Theory.
Local Open Scope outcome_scope.

Section Belief.
Variable F : realFieldType.
Variable junk : forall n, 'M[F]_n -> 'M[F]_n.
Notation dmat := (dmat F).
Notation correction_step := (correction_step junk).

(** IBelief.hpp 30-34 BeliefOptions and 112-117 members (m_es_dim and m_ns_dim stay 0 for LinearBelief). *)
Record belief := Bel { b_mean : dmat; b_Sigma : dmat; b_t : Z; b_fixed : bool; b_fej : bool; b_ess : bool }.

(** ** values *)
(** IB 44-50 *)
Definition bel_set_mean (v : dmat) (b : belief) : belief := Bel v (b_Sigma b) (b_t b) (b_fixed b) (b_fej b) (b_ess b).
Definition bel_set_Sigma (S : dmat) (b : belief) : belief := Bel (b_mean b) S (b_t b) (b_fixed b) (b_fej b) (b_ess b).
(** IB 75 *)
Definition bel_set_t (t : Z) (b : belief) : belief := Bel (b_mean b) (b_Sigma b) t (b_fixed b) (b_fej b) (b_ess b).
(** IB 77-79 *)
Definition bel_set_options (fx fej ess : bool) (b : belief) : belief := Bel (b_mean b) (b_Sigma b) (b_t b) fx fej ess.
(** IB 52-57: set *)
Definition bel_set (mean Sigma : dmat) (b : belief) : belief * bool :=
  if ~~ check_dim_mean mean Sigma then (b, false) else (bel_set_Sigma Sigma (bel_set_mean mean b), true).
(** LB 46-48: es_dim, ns_dim *)
Definition bel_dim (b : belief) : nat := drows (b_Sigma b).
(** IB 81: boxminus *)
Definition bel_boxminus (l r : belief) : outcome dmat := dsub (b_mean l) (b_mean r).
(** LB 37-39 / IB 83-88: correct(dx), boxplus *)
Definition bel_correct_mean (dx : dmat) (b : belief) : outcome belief := let! m := dadd (b_mean b) dx in Ok (bel_set_mean m b).
Definition bel_boxplus := bel_correct_mean.
(** LB 41-44 / IB 90-95: correct(dx, Sigma) *)
Definition bel_correct (dx Sigma : dmat) (b : belief) : outcome belief :=
  let! b' := bel_correct_mean dx b in Ok (bel_set_Sigma Sigma b').
(** IB 97-99: plus_jacobian; m_es_dim is 0 for LinearBelief *)
Definition bel_plus_jacobian (dx : dmat) (b : belief) : dmat := deye F 0 0.
(** IB 110: dof *)
Definition bel_dof (b : belief) : nat := 0.

(** ** objects: a pointer is an address, the heap maps addresses to objects; addresses from [h_next] on are unused *)
Record heap := Heap { h_next : nat; h_obj : nat -> belief }.
Definition h_write (p : nat) (b : belief) (h : heap) : heap := Heap (h_next h) (fun q => if (q =? p)%nat then b else h_obj h q).
(** std::make_shared *)
Definition h_new (b : belief) (h : heap) : heap * nat :=
  (Heap (S (h_next h)) (fun q => if (q =? h_next h)%nat then b else h_obj h q), h_next h).
(** LB 30-35: clone *)
Definition h_clone (p : nat) (h : heap) : heap * nat := h_new (h_obj h p) h.
(** the methods called through a pointer *)
Definition h_set (p : nat) (mean Sigma : dmat) (h : heap) : heap * bool :=
  let (b, r) := bel_set mean Sigma (h_obj h p) in (h_write p b h, r).
Definition h_correct (p : nat) (dx Sigma : dmat) (h : heap) : outcome heap :=
  let! b := bel_correct dx Sigma (h_obj h p) in Ok (h_write p b h).
Definition h_set_t (p : nat) (t : Z) (h : heap) : heap := h_write p (bel_set_t t (h_obj h p)) h.
Definition h_set_options (p : nat) (fx fej ess : bool) (h : heap) : heap := h_write p (bel_set_options fx fej ess (h_obj h p)) h.

(** ** the single filter on values: propagation and private update of the belief history *)
(** IKF 342-369: apply_propagation(bel_a, mean_b, Phi, Q, t_a, t_b); default arguments as in KalmanFilter.hpp 43-46 *)
Definition kf_propagate_bel (ba : belief) (mean_b Phi Q : dmat) (tb : Z) (l : buf belief) : outcome (buf belief * bool) :=
  if check_dim_phi_q (b_Sigma ba) Phi Q then
    let! Sb := covariance_propagation (b_Sigma ba) Phi Q false 0%R in
    if check_dim_mean mean_b Sb && (bel_set mean_b Sb ba).2
    then Ok (hb_insert tb (bel_set_t tb (bel_set mean_b Sb ba).1) l, true)
    else Ok (l, false)
  else Ok (l, false).
(** IKF 327-340: apply_propagation(Phi, Q, t_a, t_b) *)
Definition kf_propagate (Phi Q : dmat) (ta tb : Z) (l : buf belief) : outcome (buf belief * bool) :=
  match get_at_t ta l with
  | Some ba => if check_dim_mean (b_mean ba) Phi
               then let! mb := dmul Phi (b_mean ba) in kf_propagate_bel ba mb Phi Q tb l
               else Ok (l, false)
  | None => Ok (l, false)
  end.
(** IKF 371-388: apply_propagation(bel_b, Phi, t_a, t_b) stores the caller's belief *)
Definition kf_propagate_store (bb : belief) (Phi : dmat) (tb : Z) (l : buf belief) : outcome (buf belief * bool) :=
  if check_dim_phi (b_Sigma bb) Phi then Ok (hb_insert tb (bel_set_t tb bb) l, true) else Ok (l, false).
(** IKF 411-422: apply_private_observation(bel, H, R, r, cfg) on the belief stored at t (an in-place correction is an insert at
    its own key) *)
Definition kf_private_bel (t : Z) (ba : belief) (H R r : dmat) (cfg : corr_cfg F) (l : buf belief) : outcome (buf belief * bool) :=
  let! res := correction_step H R r (b_Sigma ba) cfg in
  if ~~ rejected res then
    let! b' := bel_correct (delta_mean res) (Sigma_apos res) ba in Ok (hb_insert t b' l, true)
  else Ok (l, false).
(** IKF 401-409: apply_private_observation(H, R, z, t, cfg) *)
Definition kf_private (H R z : dmat) (t : Z) (cfg : corr_cfg F) (l : buf belief) : outcome (buf belief * bool) :=
  match get_at_t t l with
  | Some ba => let! hm := dmul H (b_mean ba) in let! r := dsub z hm in kf_private_bel t ba H R r cfg l
  | None => Ok (l, false)
  end.
(** IKF 205-213: correct_belief_at_t *)
Definition kf_correct_at (dx Sigma : dmat) (t : Z) (l : buf belief) : outcome (buf belief * bool) :=
  match get_at_t t l with
  | Some b => let! b' := bel_correct dx Sigma b in Ok (hb_insert t b' l, true)
  | None => Ok (l, false)
  end.

(** ** the same on pointers, as the code does it *)
Record pfilt := PF { p_heap : heap; p_hist : buf nat }.
Definition p_propagate_bel (pa : nat) (mean_b Phi Q : dmat) (tb : Z) (s : pfilt) : outcome (pfilt * bool) :=
  let ba := h_obj (p_heap s) pa in
  if check_dim_phi_q (b_Sigma ba) Phi Q then
    let! Sb := covariance_propagation (b_Sigma ba) Phi Q false 0%R in
    let (h1, pb) := h_clone pa (p_heap s) in
    if check_dim_mean mean_b Sb then
      let (h2, ok) := h_set pb mean_b Sb h1 in
      if ok then Ok (PF (h_set_t pb tb h2) (hb_insert tb pb (p_hist s)), true)
      else Ok (PF h2 (p_hist s), false)
    else Ok (PF h1 (p_hist s), false)
  else Ok (s, false).
Definition p_propagate (Phi Q : dmat) (ta tb : Z) (s : pfilt) : outcome (pfilt * bool) :=
  match get_at_t ta (p_hist s) with
  | Some pa => if check_dim_mean (b_mean (h_obj (p_heap s) pa)) Phi
               then let! mb := dmul Phi (b_mean (h_obj (p_heap s) pa)) in p_propagate_bel pa mb Phi Q tb s
               else Ok (s, false)
  | None => Ok (s, false)
  end.
Definition p_propagate_store (pb : nat) (Phi : dmat) (tb : Z) (s : pfilt) : outcome (pfilt * bool) :=
  if check_dim_phi (b_Sigma (h_obj (p_heap s) pb)) Phi
  then Ok (PF (h_set_t pb tb (p_heap s)) (hb_insert tb pb (p_hist s)), true) else Ok (s, false).
Definition p_private (H R z : dmat) (t : Z) (cfg : corr_cfg F) (s : pfilt) : outcome (pfilt * bool) :=
  match get_at_t t (p_hist s) with
  | Some pa =>
      let ba := h_obj (p_heap s) pa in
      let! hm := dmul H (b_mean ba) in let! r := dsub z hm in
      let! res := correction_step H R r (b_Sigma ba) cfg in
      if ~~ rejected res then let! h' := h_correct pa (delta_mean res) (Sigma_apos res) (p_heap s) in Ok (PF h' (p_hist s), true)
      else Ok (s, false)
  | None => Ok (s, false)
  end.
Definition p_correct_at (dx Sigma : dmat) (t : Z) (s : pfilt) : outcome (pfilt * bool) :=
  match get_at_t t (p_hist s) with
  | Some p => let! h' := h_correct p dx Sigma (p_heap s) in Ok (PF h' (p_hist s), true)
  | None => Ok (s, false)
  end.
(** IKF 201-203: set_belief_at_t / IKF 54-57 initialize: the caller's pointer is stored *)
Definition p_set_at (p : nat) (t : Z) (s : pfilt) : pfilt := PF (p_heap s) (hb_insert t p (p_hist s)).
(** IKF 247-249 and IIsolatedKalmanFilter.cpp 140-142: removals *)
Definition p_remove_after (t : Z) (s : pfilt) : pfilt := PF (p_heap s) (remove_after_t t (p_hist s)).
Definition p_remove_at (t : Z) (s : pfilt) : pfilt := PF (p_heap s) (remove_at_t t (p_hist s)).
End Belief.
