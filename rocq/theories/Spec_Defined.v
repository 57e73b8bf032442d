(** Specification for C102: times before January 2038 and horizons a handler can work with. *)
From Coq Require Import ZArith Reals.
From Flocq Require Import Core IEEE754.BinarySingleNaN.
From Verif Require Import DoubleModel BufModel MeasModel HandlerModel.
(** 0 up to 2^31 - 1 seconds, in nanoseconds *)
Definition timely (t : Z) : Prop := (0 <= t < 2147483647 * 1000000000)%Z.
(** infinite, NaN, or at most 9*10^9 seconds (285 years) in absolute value *)
Definition usable_horizon (h : double) : Prop := is_finite h = true -> (Rabs (B2R h) <= 9000000000)%R.
Definition timely_call {B M P} (o : @hop B M P) : Prop :=
  match o with
  | OProcess m | OInsert m => timely (m_t m)
  | OSchedule t _ => timely t
  | OSetHorizon x => usable_horizon x
  | _ => True
  end.
