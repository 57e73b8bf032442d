(** Specification for C99 and C100: which measurements the shipped estimator is written for, and which histories are prepared. *)
From Coq Require Import ZArith List Bool Arith.
From mathcomp Require Import all_ssreflect all_algebra.
From Verif Require Import MeasModel DMat EstModel Spec_Est ExModel.
Set Implicit Arguments. Unset Strict Implicit. Unset Printing Implicit Defensive.

Section Spec.
Variable F : realFieldType.
Notation meas := (meas (ex_dat F)).
(** the measurements the example is written for: scalar z and R, two different registered participants *)
Definition fits (reg : list nat) (m : meas) : Prop :=
  List.In (m_id m) reg /\ shaped 1 1 (x_z (m_dat m)) /\ shaped 1 1 (x_R (m_dat m)) /\ m_ty m <> UNKNOWN /\
  (m_ty m = JOINT -> List.In (x_peer (m_dat m)) reg /\ x_peer (m_dat m) <> m_id m).
(** every joint measurement is preceded by propagations of both participants at its time *)
Definition prepared (l : list meas) : Prop := forall a m b, l = (a ++ m :: b)%list -> m_ty m = JOINT ->
  forall x, x = m_id m \/ x = x_peer (m_dat m) -> exists p, List.In p a /\ m_ty p = PROPAGATION /\ m_id p = x /\ m_t p = m_t m.
End Spec.
