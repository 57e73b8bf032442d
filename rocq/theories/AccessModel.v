(** Reading and clearing what estimators store: the accessors, horizons and the inherited replay of the isolated filter.
    Sources under /repo/source/ikf: source/Estimator/IKalmanFilter.cpp (IKF), source/Estimator/IIsolatedKalmanFilter.cpp (IIKF),
    source/Estimator/IIsolatedKalmanFilterCorr.cpp (CRR), source/EstimatorHandler/IDICOHandler.cpp (HDL),
    source/EstimatorHandler/ICSE_IKF_Handler.cpp (CSE).
    Simplifications: as in FilterModel.v and HandlerModel.v; the guards that fail to lock are C50's subject. *)
From Coq Require Import ZArith List Bool Arith.
From Flocq Require Import IEEE754.BinarySingleNaN.
From Verif Require Import Outcome TimestampModel DoubleModel BufModel HorizonModel MeasModel HandlerModel FilterModel AgentModel.
Import ListNotations.
Local Open Scope Z_scope.
Local Open Scope outcome_scope.

Section Read.
Context {B M : Type}.
(** IKF 215-223: get_belief_before_t.  A default TStampedData (TStampedData.hpp 30) holds a null pointer and the time 0 *)
Definition get_belief_before_t (t : Z) (b : buf B) : bool * option B * Z :=
  match get_before_t t b with Some (k, v) => (true, Some v, k) | None => (false, None, 0) end.
(** HDL 494-506: get_latest_belief; the result is that of the pointer being non-null.  None: false *)
Definition h_latest_belief (id : nat) (d : dict B M) : option B :=
  match d_find id d with Some i => current_belief (i_bel i) | None => None end.
(** HDL 83-96: get_instance_types; [ty] is each instance's m_type *)
Definition instance_types {S : Type} (ty : nat -> S) (d : dict B M) : list (nat * S) :=
  fold_left (fun m e => smap_set (fst e) (ty (fst e)) m) d [].
(** CSE 53-74: get_belief_at_t(ID, t, bel, type); [read] is the registered instance's get_belief_at_t (it may predict and store),
    [remote] the agent handler's answer *)
Definition icse_get_belief {S : Type} (read : nat -> Z -> S -> inst B M -> outcome (inst B M * option B)) (remote : nat -> Z -> S -> option B)
  (id : nat) (t : Z) (ty : S) (d : dict B M) : outcome (dict B M * option B) :=
  match d_find id d with
  | Some i => let! (i', ob) := read id t ty i in Ok (map (fun e => if (fst e =? id)%nat then (id, i') else e) d, ob)
  | None => Ok (d, remote id t ty)
  end.
End Read.

(** ** horizons of one estimator *)
(** max_time_horizon_sec and the max_horizon_ of its buffers: HistBelief, HistMeas, the factor buffers, HistCorr *)
Record horizons := Hz { z_max : double; z_bel : double; z_meas : double; z_ccf : list (nat * double); z_corr : double }.
(** IKF 28-30, IIKF 30-35, CRR 28-30: constructors *)
Definition z_new (x : double) : horizons := Hz x (set_horizon x) (set_horizon x) [] (set_horizon x).
(** IKF 251-256, IIKF 149-154, CRR 82-86: set_horizon *)
Definition z_set (x : double) (z : horizons) : horizons :=
  Hz x (set_horizon x) (set_horizon x) (map (fun e => (fst e, set_horizon x)) (z_ccf z)) (set_horizon (d_mul x (d_of_Z 2))).
(** IIKF 112-120: set_CrossCovFact_at_t creates the buffer of an estimator when it is used first *)
Definition z_use (j : nat) (z : horizons) : horizons :=
  if existsb (fun e => Nat.eqb (fst e) j) (z_ccf z) then z
  else Hz (z_max z) (z_bel z) (z_meas z) (z_ccf z ++ [(j, set_horizon (z_max z))]) (z_corr z).
(** IIKF 40-43: reset drops the factor buffers *)
Definition z_reset (z : horizons) : horizons := Hz (z_max z) (z_bel z) (z_meas z) [] (z_corr z).
Inductive zop := ZSet (x : double) | ZUse (j : nat) | ZReset.
Definition zstep (z : horizons) (o : zop) : horizons :=
  match o with ZSet x => z_set x z | ZUse j => z_use j z | ZReset => z_reset z end.

(** IKF 257-260: check_horizon of the single filter trims both histories *)
Definition kf_check_horizon {B P : Type} (hb : double) (f : @filt B P) : outcome (@filt B P) :=
  let! b := check_horizon hb (f_bel f) in let! l := check_horizon (f_hor_meas f) (f_meas f) in
  Ok (Filt b l (f_delayed f) (f_hor_meas f)).

(** ** the isolated filter and the measurement history it inherits *)
Section Node.
Context {B M P : Type}.
(** delegate_measurement of the instance *)
Variable deleg : inst B M -> meas P -> inst B M * status.
Record node := Node { n_inst : inst B M; n_meas : buf (meas P); n_delayed : bool }.
(** IIKF 30-35: the constructor passes handle_delayed_meas = false *)
Definition node_new (i : inst B M) : node := Node i [] false.
(** IIKF 38-41, IKF 234-238: reset *)
Definition node_reset (n : node) : node := Node (Inst (i_enabled (n_inst n)) [] []) (n_meas n) (n_delayed n).
Definition node_one (s : inst B M * list status) (m : meas P) : inst B M * list status :=
  let (i, v) := s in let (i', r) := deleg i m in (i', v ++ [r]).
(** IIKF 81-84: redo_updates_after_t removes beliefs and factors, then IKF 78-96 *)
Definition node_redo_after (t : Z) (n : node) : node * list status :=
  let i0 := inst_remove_after t (n_inst n) in
  let i1 := Inst (i_enabled i0) (remove_after_t t (i_bel i0)) (i_ccf i0) in
  let mk i := Node i (n_meas n) (n_delayed n) in
  match get_after_t t (n_meas n), get_latest_t (n_meas n) with
  | Some (ta, _), Some tl =>
      if ta =? tl then
        match get_at_t ta (n_meas n) with
        | Some m => let (i', v) := node_one (i1, []) m in (mk i', v)
        | None => (mk i1, [])
        end
      else let (i', v) := mb_foreach_between ta tl node_one (i1, []) (n_meas n) in (mk i', v)
  | _, _ => (mk i1, [])
  end.
(** the public calls: handle_delayed_meas (IKF 39-44); reset; redo_updates_after_t; process_measurement and insert_measurement,
    which IIKF 46-48 and 223-225 pass to the handler, and every other call, changing the instance in whatever way but never the
    measurement history; check_horizon (IIKF 156-164), which also trims it *)
Inductive nop := NDelayed (v : bool) | NReset | NRedo (t : Z) | NOther (i : inst B M) | NTrim (h : double).
Definition nstep (n : node) (o : nop) : outcome node :=
  match o with
  | NDelayed v => Ok (Node (n_inst n) (if v then n_meas n else []) v)
  | NReset => Ok (node_reset n)
  | NRedo t => Ok (fst (node_redo_after t n))
  | NOther i => Ok (Node i (n_meas n) (n_delayed n))
  | NTrim h => let! l := check_horizon_restricted h 4 (n_meas n) in Ok (Node (n_inst n) l (n_delayed n))
  end.
Fixpoint nrun (n : node) (ops : list nop) : outcome node :=
  match ops with [] => Ok n | o :: r => let! n' := nstep n o in nrun n' r end.
End Node.
Arguments node : clear implicits.
Arguments nop : clear implicits.
