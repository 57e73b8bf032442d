(** process_measurement of the collaborative handlers: IDICOHandler's (HandlerModel.v) with C_IKF_Handler's overrides.
    Source: /repo/source/ikf/source/EstimatorHandler/C_IKF_Handler.cpp (CIK), include/ikf/EstimatorHandler/C_IKF_Handler.hpp.
    What a replay sends to the other agents is in CollabModel.v; the estimators are an arbitrary function as in HandlerModel.v. *)
From Coq Require Import ZArith List Bool.
From Flocq Require Import IEEE754.BinarySingleNaN.
From Verif Require Import Outcome TimestampModel DoubleModel BufModel HorizonModel MeasModel HandlerModel UtilModel.
Import ListNotations.
Local Open Scope outcome_scope.

Section Relax.
Context {B M P : Type}.
Notation meas := (meas P). Notation dict := (dict B M). Notation handler := (handler B M P).
Variable deleg : dict -> meas -> dict * status.
(** whether get_remote_correlated_IDs_after_t(t) is not empty (CIK 167-181; CollabModel.c_remote_after, and with it CollabModel.c_discard) *)
Variable remote_after : Z -> dict -> bool.

(** CIK 183-216: is_order_violated *)
Definition c_order_violated (os : order_strategy) (m : meas) (l : buf meas) : bool :=
  match os with OS_STRICT => order_violated m l | OS_RELAXED => order_violated_relaxed m l end.
(** CIK 410-430: discard_measurement *)
Definition c_discard_with (rs : redo_strategy) (m : meas) (h : handler) : bool :=
  match rs with RD_DISCARD => remote_after (m_t m) (h_dict h) | _ => false end.
(** HDL 193-285 with these overrides *)
Definition c_process (os : order_strategy) (rs : redo_strategy) (m : meas) (h : handler) : outcome (handler * list result) :=
  process_gen deleg (c_order_violated os) (c_discard_with rs) m h.
(** CIK 52-61: the strategies the constructor sets; no method changes them *)
Definition shipped_process : meas -> handler -> outcome (handler * list result) := c_process OS_RELAXED RD_POSTCORRELATED.
(** a list of arrivals *)
Fixpoint c_process_all (os : order_strategy) (rs : redo_strategy) (h : handler) (ms : list meas) : outcome handler :=
  match ms with [] => Ok h | m :: r => let! x := c_process os rs m h in c_process_all os rs (fst x) r end.
(** the public calls; the others are the base class's *)
Definition c_step (os : order_strategy) (rs : redo_strategy) (h : handler) (o : hop (B:=B) (M:=M) (P:=P)) : outcome handler :=
  match o with OProcess m => omap fst (c_process os rs m h) | _ => hstep deleg h o end.
Fixpoint c_run (os : order_strategy) (rs : redo_strategy) (h : handler) (ops : list (hop (B:=B) (M:=M) (P:=P))) : outcome handler :=
  match ops with [] => Ok h | o :: r => let! h' := c_step os rs h o in c_run os rs h' r end.
End Relax.
