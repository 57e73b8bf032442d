(** Model of ikf::Timestamp, integer part.
    Source: /repo/source/ikf/source/Containers/Timestamp.cpp and include/ikf/Container/Timestamp.hpp. *)
From Coq Require Import ZArith Bool.
From Verif Require Import Outcome.
Local Open Scope Z_scope.
Local Open Scope outcome_scope.

(** Timestamp.hpp 43-46: members [std::int64_t sec], [std::int32_t nsec].  Both are unbounded [Z] here;
    every arithmetic operation below states its machine range explicitly. *)
Record ts := mkTs { sec : Z; nsec : Z }.

Definition int64_min : Z := - 2 ^ 63.
Definition int64_max : Z := 2 ^ 63 - 1.
Definition int32_min : Z := - 2 ^ 31.
Definition int32_max : Z := 2 ^ 31 - 1.
Definition in_int64 (z : Z) : bool := (int64_min <=? z) && (z <=? int64_max).
Definition in_int32 (z : Z) : bool := (int32_min <=? z) && (z <=? int32_max).

(** A C++ signed 64-bit expression: the value, or undefined behaviour when it does not fit. *)
Definition s64 (z : Z) : outcome Z := if in_int64 z then Ok z else UB SignedOverflow.

(** Narrowing conversion to int32 (implementation defined before C++20; two's complement wrap on every
    supported compiler). *)
Definition cast_int32 (z : Z) : Z := (z + 2 ^ 31) mod 2 ^ 32 - 2 ^ 31.

(** Conversion to unsigned 64 bit (usual arithmetic conversions against an [ul] literal). *)
Definition cast_u64 (z : Z) : Z := z mod 2 ^ 64.

(** Timestamp.cpp 19: default constructor. *)
Definition ts_zero : ts := mkTs 0 0.

(** Timestamp.cpp 51: is_zero. *)
Definition is_zero (t : ts) : bool := (sec t =? 0) && (nsec t =? 0).

(** Timestamp.cpp 53-57: stamp_ms. *)
Definition stamp_ms (t : ts) : outcome Z :=
  let! a := s64 (sec t * 1000) in s64 (a + Z.quot (nsec t) 1000000).

(** Timestamp.cpp 59-62: from_stamp_ms. *)
Definition from_stamp_ms (ms : Z) : ts :=
  mkTs (Z.quot ms 1000) (cast_int32 (Z.rem ms 1000 * 1000000)).

(** Timestamp.cpp 64: stamp_us. *)
Definition stamp_us (t : ts) : outcome Z :=
  let! a := s64 (sec t * 1000000) in s64 (a + Z.quot (nsec t) 1000).

(** Timestamp.cpp 66-69: from_stamp_us; the product with [1000ul] is computed in unsigned 64 bit. *)
Definition from_stamp_us (us : Z) : ts :=
  mkTs (Z.quot us 1000000) (cast_int32 (cast_u64 (cast_u64 (Z.rem us 1000000) * 1000))).

(** Timestamp.cpp 71-82: stamp_ns.  Only the upper limit is guarded. *)
Definition stamp_ns (t : ts) : outcome Z :=
  if sec t <=? 9223372036
  then let! a := s64 (sec t * 1000000000) in s64 (a + nsec t)
  else Ok 0.

(** Timestamp.cpp 84-87: from_stamp_ns; also the constructor Timestamp(int64_t), line 25. *)
Definition from_stamp_ns (ns : Z) : ts :=
  mkTs (Z.quot ns 1000000000) (cast_int32 (Z.rem ns 1000000000)).

(** Timestamp.cpp 91-100: operator<. *)
Definition ts_lt (a b : ts) : bool :=
  if sec a <? sec b then true
  else if sec a =? sec b then (if nsec a <? nsec b then true else false)
  else false.

(** Timestamp.cpp 102: operator==. *)
Definition ts_eq (a b : ts) : bool := (sec a =? sec b) && (nsec a =? nsec b).

(** Timestamp.cpp 106: operator>. *)
Definition ts_gt (a b : ts) : bool := negb (ts_eq a b) && negb (ts_lt a b).

(** Timestamp.cpp 104: operator<=. *)
Definition ts_le (a b : ts) : bool := negb (ts_gt a b).

(** Timestamp.cpp 126-139: Timestamped::operator<, ==, > are textually the same comparisons; one model. *)
