(** Measurements and processing results.
    Sources: /repo/source/ikf/include/ikf/Measurement/MeasData.hpp 31-60,
             /repo/source/ikf/include/ikf/Estimator/ProcessMeasResult_t.hpp. *)
From Coq Require Import ZArith List Bool.
Import ListNotations.

(** MeasData.hpp 31-36: eObservationType. *)
Inductive obs_type := UNKNOWN | PROPAGATION | PRIVATE | JOINT.
Definition obs_eqb (a b : obs_type) : bool :=
  match a, b with
  | UNKNOWN, UNKNOWN | PROPAGATION, PROPAGATION | PRIVATE, PRIVATE | JOINT, JOINT => true
  | _, _ => false
  end.

(** ProcessMeasResult_t.hpp: eMeasStatus (the library spells it DISCARED). *)
Inductive status := REJECTED | PROCESSED | OUTOFORDER | DISCARED.
Definition is_ooo (s : status) : bool := match s with OUTOFORDER => true | _ => false end.
Definition is_disc (s : status) : bool := match s with DISCARED => true | _ => false end.

(** MeasData.hpp 40-49.  The time t_m is represented by its nanosecond key (C01-C03); [m_dat] stands for z, R,
    meas_type, meta_info and t_p, which the buffers and handlers never inspect. *)
Record meas (P : Type) := Meas { m_id : nat; m_t : Z; m_ty : obs_type; m_dat : P }.
Arguments Meas {P}. Arguments m_id {P}. Arguments m_t {P}. Arguments m_ty {P}. Arguments m_dat {P}.

(** ProcessMeasResult_t: status and time; profiling and textual fields are omitted.  A default-constructed
    result carries time 0. *)
Record result := Res { r_status : status; r_t : Z }.
Definition discarded_result : result := Res DISCARED 0.

(** HistMeas.insert(m, m.t_m) into the multi-buffer is written out where used. *)
