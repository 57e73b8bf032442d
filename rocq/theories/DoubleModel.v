(** Model of the double-precision part of ikf::Timestamp on IEEE-754 binary64 (Flocq).
    Source: /repo/source/ikf/source/Containers/Timestamp.cpp.
    Simplification: no fused multiply-add contraction and no x87 extended precision is modelled. *)
From Coq Require Import ZArith Bool.
From Flocq Require Import Core IEEE754.BinarySingleNaN.
From Verif Require Import Outcome TimestampModel.
Local Open Scope Z_scope.
Local Open Scope outcome_scope.

Definition prec64 : Z := 53.
Definition emax64 : Z := 1024.
Lemma prec64_gt0 : FLX.Prec_gt_0 prec64. Proof. reflexivity. Qed.
Lemma prec64_lt_emax64 : Prec_lt_emax prec64 emax64. Proof. reflexivity. Qed.
Global Existing Instance prec64_gt0.
Global Existing Instance prec64_lt_emax64.

(** C++ [double]. *)
Definition double := binary_float prec64 emax64.

(** Integer to double conversion: round to nearest even. *)
Definition d_of_Z (z : Z) : double := binary_normalize prec64 emax64 _ _ mode_NE z 0 false.
Definition d_add (a b : double) : double := Bplus mode_NE a b.
Definition d_sub (a b : double) : double := Bminus mode_NE a b.
Definition d_mul (a b : double) : double := Bmult mode_NE a b.
(** The literals 1e9 and 1e-9 (nearest doubles). *)
Definition d_1e9 : double := d_of_Z 1000000000.
Definition d_1em9 : double := Bdiv mode_NE (d_of_Z 1) d_1e9.
(** std::floor and std::round (half away from zero). *)
Definition d_floor (a : double) : double := Bnearbyint mode_DN a.
Definition d_round (a : double) : double := Bnearbyint mode_NA a.
(** Conversion double -> int64_t / int32_t: truncation; undefined when the value does not fit. *)
Definition d_to_int64 (a : double) : outcome Z :=
  if is_finite a && in_int64 (Btrunc a) then Ok (Btrunc a) else UB FloatToIntRange.
Definition d_to_int32 (a : double) : outcome Z :=
  if is_finite a && in_int32 (Btrunc a) then Ok (Btrunc a) else UB FloatToIntRange.

(** Timestamp.cpp 28: to_sec. *)
Definition to_sec (t : ts) : double := d_add (d_of_Z (sec t)) (d_mul d_1em9 (d_of_Z (nsec t))).

(** Timestamp.cpp 30-49: from_sec; also the constructor Timestamp(double), line 23.
    0x1FFFFFFFF = 8589934591. *)
Definition from_sec (t : double) : outcome ts :=
  if is_finite t && negb (is_nan t) then
    let! sec64 := d_to_int64 (d_floor t) in
    if sec64 <=? 8589934591 then
      let! n := d_to_int32 (d_round (d_mul (d_sub t (d_of_Z sec64)) d_1e9)) in
      let! s := s64 (sec64 + Z.quot n 1000000000) in
      Ok (mkTs s (Z.rem n 1000000000))
    else Ok ts_zero
  else Ok ts_zero.

(** Timestamp.cpp 108, 117-120: operator+ / operator+=. *)
Definition ts_add (a b : ts) : outcome ts := from_sec (d_add (to_sec a) (to_sec b)).
(** Timestamp.cpp 110, 112-115: operator- / operator-=. *)
Definition ts_sub (a b : ts) : outcome ts := from_sec (d_sub (to_sec a) (to_sec b)).
