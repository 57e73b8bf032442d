(** Property theorems C01-C08 (timestamps). *)
From Coq Require Import ZArith Reals Lra Lia.
From Flocq Require Import Core IEEE754.BinarySingleNaN.
From Verif Require Import Outcome TimestampModel DoubleModel Spec_Time TimestampProofs DoubleProofs.
Local Open Scope Z_scope.

(** ** C01 *)
Theorem C01_ns_roundtrip : forall ns, is_int64 ns ->
  stamp_ns (from_stamp_ns ns) = Ok ns /\ instant_ns (from_stamp_ns ns) = ns /\
  is_int64 (sec (from_stamp_ns ns)) /\ is_int32 (nsec (from_stamp_ns ns)).
Proof.
  intros ns H. split; [exact (ns_roundtrip ns H)|]. split; [exact (from_ns_instant ns H)|].
  destruct (from_ns_fields ns H) as [-> [A B]]. split; [exact A|exact B].
Qed.
Print Assumptions C01_ns_roundtrip.

Theorem C01_ns_rebuild : forall t, normalised t -> 0 <= sec t <= 9223372035 ->
  exists k, stamp_ns t = Ok k /\ is_int64 k /\ from_stamp_ns k = t.
Proof. exact ns_rebuild. Qed.
Print Assumptions C01_ns_rebuild.

Example C01_example : is_int64 (-2 ^ 63) /\ stamp_ns (from_stamp_ns (-2 ^ 63)) = Ok (-2 ^ 63)
  /\ normalised (mkTs 1720712106 123456789).
Proof. repeat split; vm_compute; congruence. Qed.

(** ** C02 *)
Theorem C02_total_order : forall a b c,
  ts_lt a a = false /\
  (ts_lt a b = true -> ts_lt b c = true -> ts_lt a c = true) /\
  (ts_eq a b = true <-> a = b) /\
  ts_gt a b = ts_lt b a /\
  (ts_le a b = true <-> ts_lt a b = true \/ ts_eq a b = true) /\
  ((ts_lt a b = true /\ ts_eq a b = false /\ ts_gt a b = false) \/
   (ts_lt a b = false /\ ts_eq a b = true /\ ts_gt a b = false) \/
   (ts_lt a b = false /\ ts_eq a b = false /\ ts_gt a b = true)).
Proof. exact ts_order_total. Qed.
Print Assumptions C02_total_order.

Theorem C02_order_agrees_with_keys : forall a b,
  normalised a -> normalised b ->
  -9223372036 <= sec a <= 9223372035 -> -9223372036 <= sec b <= 9223372035 ->
  exists ka kb, stamp_ns a = Ok ka /\ stamp_ns b = Ok kb /\
    (ts_lt a b = true <-> ka < kb) /\ (ts_eq a b = true <-> ka = kb) /\ (ts_le a b = true <-> ka <= kb).
Proof. exact order_agrees_with_keys. Qed.
Print Assumptions C02_order_agrees_with_keys.

Example C02_example : normalised (mkTs (-2) 500000000) /\ normalised (mkTs 7 3) /\
  ts_lt (mkTs (-2) 500000000) (mkTs 7 3) = true /\ ts_lt (mkTs 7 3) (mkTs 7 4) = true.
Proof. repeat split; vm_compute; congruence. Qed.

(** ** C03 *)
Theorem C03_stamp_ns_exact : forall t, normalised t -> -9223372036 <= sec t <= 9223372035 ->
  stamp_ns t = Ok (instant_ns t).
Proof. exact stamp_ns_in_range. Qed.
Print Assumptions C03_stamp_ns_exact.

Theorem C03_stamp_ns_outside : forall t, normalised t -> is_int64 (sec t) ->
  (sec t < -9223372036 -> stamp_ns t = UB SignedOverflow) /\
  (sec t = 9223372036 -> 854775807 < nsec t -> stamp_ns t = UB SignedOverflow) /\
  (sec t = 9223372036 -> nsec t <= 854775807 -> stamp_ns t = Ok (instant_ns t)) /\
  (9223372036 < sec t -> stamp_ns t = Ok 0).
Proof. exact stamp_ns_boundary. Qed.
Print Assumptions C03_stamp_ns_outside.

(** Finding: the guard admits a whole last second although only part of it fits; and nothing guards the past. *)
Theorem C03_last_second_overflows :
  exists t, normalised t /\ is_int64 (sec t) /\ 0 <= sec t /\ stamp_ns t = UB SignedOverflow.
Proof. exists (mkTs 9223372036 854775808). repeat split; vm_compute; congruence. Qed.
Print Assumptions C03_last_second_overflows.

Example C03_example : normalised (mkTs 9223372035 999999999) /\
  stamp_ns (mkTs 9223372035 999999999) = Ok 9223372035999999999.
Proof. repeat split; vm_compute; congruence. Qed.

(** ** C04 *)
Theorem C04_ms_us_roundtrip : forall k, is_int64 k ->
  stamp_ms (from_stamp_ms k) = Ok k /\ stamp_us (from_stamp_us k) = Ok k.
Proof. intros k H. split; [exact (ms_roundtrip k H)|exact (us_roundtrip k H)]. Qed.
Print Assumptions C04_ms_us_roundtrip.

Theorem C04_ms_us_floor : forall t, normalised t -> 0 <= sec t <= 9223372036 ->
  stamp_ms t = Ok (instant_ns t / 1000000) /\ stamp_us t = Ok (instant_ns t / 1000).
Proof. intros t N S. split; [exact (stamp_ms_floor t N S)|exact (stamp_us_floor t N S)]. Qed.
Print Assumptions C04_ms_us_floor.

Example C04_example : is_int64 (-1500001) /\ from_stamp_us (-1500001) = mkTs (-1) (-500001000) /\
  stamp_us (mkTs 1 999999999) = Ok 1999999.
Proof. repeat split; vm_compute; congruence. Qed.

(** ** C05 *)
Theorem C05_from_sec_normalised : forall t : double,
  is_finite t = true -> - 2 ^ 63 <= Zfloor (B2R t) < 2 ^ 33 ->
  exists r, from_sec t = Ok r /\ normalised r /\
    (Rabs (IZR (instant_ns r) - B2R t * 1000000000) < 1)%R.
Proof.
  intros t F H. destruct (from_sec_normalised t F) as [r [E [N B]]].
  { unfold int64_min. lia. }
  exists r. split; [exact E|]. split; [exact N|]. change (instant_ns r) with (instant r). lra.
Qed.
Print Assumptions C05_from_sec_normalised.

Theorem C05_from_sec_out_of_range : forall t : double,
  (is_finite t = false -> from_sec t = Ok ts_zero) /\
  (is_finite t = true -> 2 ^ 33 <= Zfloor (B2R t) < 2 ^ 63 -> from_sec t = Ok ts_zero) /\
  (is_finite t = true -> Zfloor (B2R t) < - 2 ^ 63 \/ 2 ^ 63 <= Zfloor (B2R t) ->
     from_sec t = UB FloatToIntRange).
Proof.
  intros t. split; [exact (from_sec_nonfinite t)|]. split; intros F H.
  - apply from_sec_large; [exact F|]. unfold int64_max. lia.
  - apply from_sec_out_of_range; [exact F|]. unfold int64_min, int64_max. lia.
Qed.
Print Assumptions C05_from_sec_out_of_range.

(** Finding: a finite double beyond the int64 range is cast before the range check. *)
Theorem C05_beyond_int64_undefined :
  exists t : double, is_finite t = true /\ from_sec t = UB FloatToIntRange.
Proof. exists (d_of_Z (2 ^ 70)). split; vm_compute; reflexivity. Qed.
Print Assumptions C05_beyond_int64_undefined.

Example C05_example : is_finite (d_sub (d_of_Z 0) (d_mul d_1em9 d_1em9)) = true /\
  from_sec (d_sub (d_of_Z 0) (d_mul d_1em9 d_1em9)) = Ok (mkTs 0 0) /\
  from_sec (d_mul (d_of_Z 2500) (d_1em9)) = Ok (mkTs 0 2500).
Proof. repeat split; vm_compute; reflexivity. Qed.

(** ** C06 *)
Theorem C06_double_roundtrip : forall t, 0 <= sec t < 2 ^ 23 -> normalised t -> from_sec (to_sec t) = Ok t.
Proof. exact to_from_sec. Qed.
Print Assumptions C06_double_roundtrip.

(** Finding: with wall-clock epoch seconds the round trip through double is not the identity. *)
Theorem C06_epoch_not_lossless :
  exists t, normalised t /\ 0 <= sec t < 2 ^ 31 /\ from_sec (to_sec t) <> Ok t.
Proof. exists (mkTs 1720712106 123456789). repeat split; vm_compute; congruence. Qed.
Print Assumptions C06_epoch_not_lossless.

Example C06_example : 0 <= 8388607 < 2 ^ 23 /\ normalised (mkTs 8388607 999999999) /\
  from_sec (to_sec (mkTs 8388607 999999999)) = Ok (mkTs 8388607 999999999).
Proof. repeat split; vm_compute; congruence. Qed.

(** ** C07 *)
Theorem C07_add_sub_exact : forall a b,
  0 <= sec a < 2 ^ 21 -> normalised a -> 0 <= sec b < 2 ^ 21 -> normalised b ->
  ts_add a b = Ok (ts_of_instant (instant_ns a + instant_ns b)) /\
  ts_sub a b = Ok (ts_of_instant (instant_ns a - instant_ns b)).
Proof.
  intros a b Sa Na Sb Nb. split; [exact (ts_add_exact a b Sa Na Sb Nb)|exact (ts_sub_exact a b Sa Na Sb Nb)].
Qed.
Print Assumptions C07_add_sub_exact.

Theorem C07_sub_self : forall t, is_int64 (sec t) -> is_int32 (nsec t) -> ts_sub t t = Ok ts_zero.
Proof.
  intros t Hs Hn. apply ts_sub_self; [now apply in_int64_iff|].
  unfold is_int32 in Hn. unfold in_int32, int32_min, int32_max. apply andb_true_intro. split; apply Z.leb_le; lia.
Qed.
Print Assumptions C07_sub_self.

Theorem C07_epoch_not_exact :
  exists t, normalised t /\ 0 <= sec t < 2 ^ 31 /\ ts_add t ts_zero <> Ok t.
Proof. exists (mkTs 1720712106 123456789). repeat split; vm_compute; congruence. Qed.
Print Assumptions C07_epoch_not_exact.

Example C07_example : ts_sub (mkTs 1 400000000) (mkTs 3 100000000) = Ok (ts_of_instant (-1700000000)).
Proof. vm_compute. reflexivity. Qed.

(** ** C08 *)
Theorem C08_normalised_equal : forall a b,
  normalised a -> normalised b -> instant_ns a = instant_ns b -> ts_eq a b = true.
Proof. intros a b Na Nb. exact (proj2 (ts_eq_instant a b Na Nb)). Qed.
Print Assumptions C08_normalised_equal.

Theorem C08_nonnegative_constructors_agree : forall (t : double) ns r,
  is_int64 ns -> 0 <= ns ->
  is_finite t = true -> - 2 ^ 63 <= Zfloor (B2R t) < 2 ^ 33 ->
  from_sec t = Ok r -> instant_ns r = ns -> ts_eq r (from_stamp_ns ns) = true.
Proof.
  intros t ns r I P F R E J. destruct (from_ns_nonneg_normalised ns I P) as [N A].
  destruct (C05_from_sec_normalised t F R) as [r' [E' [N' _]]].
  rewrite E in E'. injection E' as <-. apply C08_normalised_equal; [exact N'|exact N|lia].
Qed.
Print Assumptions C08_nonnegative_constructors_agree.

(** Finding: half a second before zero has two encodings that compare different, and the order of the
    timestamps disagrees with the order of their buffer keys. *)
Theorem C08_before_epoch_differs :
  exists (t : double) a b, from_sec t = Ok a /\ b = from_stamp_ns (-1500000000) /\
    instant_ns a = instant_ns b /\ stamp_ns a = stamp_ns b /\ ts_eq a b = false /\ ts_lt a b = true.
Proof.
  exists (d_sub (d_of_Z 0) (Bdiv mode_NE (d_of_Z 3) (d_of_Z 2))), (mkTs (-2) 500000000), (mkTs (-1) (-500000000)).
  repeat split; vm_compute; reflexivity.
Qed.
Print Assumptions C08_before_epoch_differs.

Example C08_example : normalised (mkTs 3 5) /\ from_sec (to_sec (mkTs 3 5)) = Ok (mkTs 3 5) /\
  from_stamp_ns 3000000005 = mkTs 3 5.
Proof. repeat split; vm_compute; congruence. Qed.
