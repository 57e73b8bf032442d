(** Independent vocabulary for the timestamp properties: what an instant is, which machine ranges exist. *)
From Coq Require Import ZArith.
From Verif Require Import TimestampModel.
Local Open Scope Z_scope.

(** One second in nanoseconds. *)
Definition giga : Z := 1000000000.

(** The instant denoted by a (sec, nsec) pair, in nanoseconds. *)
Definition instant_ns (t : ts) : Z := sec t * giga + nsec t.

(** Normalised: the sub-second part is a proper fraction of a second. *)
Definition normalised (t : ts) : Prop := 0 <= nsec t < giga.

(** Value ranges of the C++ integer types. *)
Definition is_int64 (z : Z) : Prop := - 2 ^ 63 <= z < 2 ^ 63.
Definition is_int32 (z : Z) : Prop := - 2 ^ 31 <= z < 2 ^ 31.

(** The normalised timestamp of an instant. *)
Definition ts_of_instant (k : Z) : ts := mkTs (k / giga) (k mod giga).
