(** Comparisons of time-stamped data (include/ikf/Container/TStampedData.hpp, abbreviated TSD). *)
From Coq Require Import ZArith Bool.
From Flocq Require Import Core IEEE754.BinarySingleNaN.
From Verif Require Import Outcome TimestampModel DoubleModel.
Local Open Scope Z_scope.
Local Open Scope outcome_scope.

Section Stamped.
Variable T : Type.
(** TSD 27-35: the data and its time stamp *)
Record stamped := Stamped { sd_data : T; sd_stamp : ts }.
(** TSD 32: the constructor from seconds, TSD 33: from nanoseconds *)
Definition stamped_sec (x : T) (s : double) : outcome stamped := let! t := from_sec s in Ok (Stamped x t).
Definition stamped_ns (x : T) (ns : Z) : stamped := Stamped x (from_stamp_ns ns).

(** TSD 37-51 *)
Definition sd_lt (a b : stamped) : bool :=
  if sec (sd_stamp a) <? sec (sd_stamp b) then true
  else if sec (sd_stamp a) =? sec (sd_stamp b) then (if nsec (sd_stamp a) <? nsec (sd_stamp b) then true else false)
  else false.
(** TSD 53-67 *)
Definition sd_lt_ts (a : stamped) (t : ts) : bool :=
  if sec (sd_stamp a) <? sec t then true
  else if sec (sd_stamp a) =? sec t then (if nsec (sd_stamp a) <? nsec t then true else false)
  else false.
(** TSD 69-72 *)
Definition sd_lt_d (a : stamped) (d : double) : bool := Bltb (to_sec (sd_stamp a)) d.
(** TSD 75-77, 79-81, 82-84 *)
Definition sd_eq (a b : stamped) : bool := (sec (sd_stamp a) =? sec (sd_stamp b)) && (nsec (sd_stamp a) =? nsec (sd_stamp b)).
Definition sd_eq_ts (a : stamped) (t : ts) : bool := (sec (sd_stamp a) =? sec t) && (nsec (sd_stamp a) =? nsec t).
Definition sd_eq_d (a : stamped) (d : double) : bool := Beqb (to_sec (sd_stamp a)) d.
(** TSD 86-88, 90-92, 94-96 *)
Definition sd_gt (a b : stamped) : bool := negb (sd_eq a b) && negb (sd_lt a b).
Definition sd_gt_ts (a : stamped) (t : ts) : bool := negb (sd_eq_ts a t) && negb (sd_lt_ts a t).
Definition sd_gt_d (a : stamped) (d : double) : bool := negb (sd_eq_d a d) && negb (sd_lt_d a d).
(** TSD 99-100, 102-103 *)
Definition d_lt_sd (d : double) (a : stamped) : outcome bool := let! t := from_sec d in Ok (ts_lt t (sd_stamp a)).
Definition ts_lt_sd (t : ts) (a : stamped) : bool := ts_lt t (sd_stamp a).
End Stamped.
Arguments Stamped {T}.
