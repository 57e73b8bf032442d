(** The estimator of the first shipped example, a linear system on an unbuffered isolated filter.
    Source: /repo/source/examples/ikf_simple_cmd/include/LinearIKF.hpp (LIKF); the base class is modelled in StdModel.v.
    An object is its address in StdModel.v's heap together with the members of [lin]; m_H_joint_ii and m_H_joint_jj (LIKF 78) are
    never used.  The text printed when the system is not defined (LIKF 42) is not modelled. *)
From Coq Require Import ZArith List Bool Arith.
From Flocq Require Import IEEE754.BinarySingleNaN.
From mathcomp Require Import all_ssreflect all_algebra.
From Verif Require Import Outcome TimestampModel DoubleModel DMat KFModel BeliefModel EigenModel CatModel StdModel.
Set Implicit Arguments. Unset Strict Implicit. Unset Printing Implicit Defensive.
Import GRing.Theory Num.Theory.
Local Open Scope outcome_scope.

(** LIKF 39, 48, 58: Timestamp t_b(m_belief->timestamp().to_sec() + m_dt), as a nanosecond key *)
Definition lin_time (dt : double) (t : Z) : outcome Z :=
  let! r := from_sec (d_add (to_sec (from_stamp_ns t)) dt) in stamp_ns r.

Section Lin.
Variable F : realFieldType.
Variable junk : forall n, 'M[F]_n -> 'M[F]_n.
Variable garbage : forall m n, 'M[F]_(m, n).
Notation dmat := (dmat F).
Notation belief := (belief F).
Notation std := (std F).
Variable is_psd : dmat -> bool.
Variable eps eps0 : F.

(** LIKF 74-77: the members *)
Record lin := Lin { l_defined : bool; l_dt : double; l_F : dmat; l_G : dmat; l_Q : dmat; l_H : dmat; l_R : dmat }.
(** LIKF 27, 74-77: the constructor's values *)
Definition lin_new : lin := Lin false (d_of_Z Z0) (dempty F) (dempty F) (dempty F) (dempty F) (dempty F).
(** LIKF 30-34: define_system *)
Definition lin_define (A G Q H R : dmat) (dt : double) : lin := Lin true dt A G Q H R.
(** LIKF 37-44: predict() *)
Definition lin_predict (l : lin) (a : nat) (s : std) : outcome (std * bool) :=
  if l_defined l then
    with_bel_of (st_obj s a) (fun b => let! tb := lin_time (l_dt l) (b_t b) in is_propagate (l_F l) (l_Q l) tb a s)
  else Ok (s, false).
(** LIKF 46-52: predict(u, var_u) *)
Definition lin_predict_u (l : lin) (u var_u : dmat) (a : nat) (s : std) : outcome (std * bool) :=
  if l_defined l then
    with_bel_of (st_obj s a) (fun b => let! tb := lin_time (l_dt l) (b_t b) in is_propagate_u (l_F l) (l_Q l) tb (l_G l) u var_u a s)
  else Ok (s, false).
(** LIKF 57-60: predict(F, Q, G, u, var_u) does not ask whether the system is defined *)
Definition lin_predict_with (l : lin) (A Q G u var_u : dmat) (a : nat) (s : std) : outcome (std * bool) :=
  with_bel_of (st_obj s a) (fun b => let! tb := lin_time (l_dt l) (b_t b) in is_propagate_u A Q tb G u var_u a s).
(** LIKF 62-67: update *)
Definition lin_update (l : lin) (z : dmat) (a : nat) (s : std) : outcome (std * bool) :=
  if l_defined l then is_private junk eps (l_H l) (l_R l) z a s else Ok (s, false).
(** LIKF 70-72: joint_update *)
Definition lin_joint (Hi Hj : dmat) (J : nat) (R z : dmat) (a : nat) (s : std) : outcome (std * bool) :=
  is_joint junk garbage is_psd eps eps0 (so_id (st_obj s a)) J Hi Hj R z a s.
End Lin.
