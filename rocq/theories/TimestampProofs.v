(** Proofs about the integer part of the timestamp model. *)
From Coq Require Import ZArith Bool Lia.
From Coq Require Import ZifyBool.
From Verif Require Import Outcome TimestampModel Spec_Time.
Local Open Scope Z_scope.
Ltac Zify.zify_post_hook ::= Z.to_euclidean_division_equations.

Ltac unf := unfold s64, in_int64, in_int32, int64_min, int64_max, int32_min, int32_max,
              is_int64, is_int32, normalised, instant_ns, giga in *.

Lemma in_int64_iff z : in_int64 z = true <-> is_int64 z.
Proof. unf. lia. Qed.

Lemma s64_ok z : is_int64 z -> s64 z = Ok z.
Proof. intros H. unfold s64. now rewrite (proj2 (in_int64_iff z) H). Qed.

Lemma s64_ub z : ~ is_int64 z -> s64 z = UB SignedOverflow.
Proof.
  intros H. unfold s64. destruct (in_int64 z) eqn:E; [|reflexivity].
  apply in_int64_iff in E. contradiction.
Qed.

Lemma cast_int32_id z : is_int32 z -> cast_int32 z = z.
Proof. unfold cast_int32, is_int32. intros H. rewrite Z.mod_small; lia. Qed.

Lemma from_ns_fields ns : is_int64 ns ->
  from_stamp_ns ns = mkTs (Z.quot ns giga) (Z.rem ns giga) /\
  is_int64 (Z.quot ns giga) /\ is_int32 (Z.rem ns giga).
Proof.
  intros H. unfold from_stamp_ns. change 1000000000 with giga.
  assert (A : is_int32 (Z.rem ns giga)) by (unf; lia).
  rewrite (cast_int32_id _ A). split; [reflexivity|]. split; [unf; lia|exact A].
Qed.

Lemma ns_roundtrip ns : is_int64 ns -> stamp_ns (from_stamp_ns ns) = Ok ns.
Proof.
  intros H. destruct (from_ns_fields ns H) as [-> _]. unfold stamp_ns. cbn [sec nsec].
  destruct (Z.leb_spec (Z.quot ns giga) 9223372036) as [L|L]; [|unf; lia].
  rewrite s64_ok by (unf; lia). cbn [obind].
  replace (Z.quot ns giga * 1000000000 + Z.rem ns giga) with ns by (unf; lia).
  now apply s64_ok.
Qed.

Lemma stamp_ns_in_range t : normalised t -> -9223372036 <= sec t <= 9223372035 ->
  stamp_ns t = Ok (instant_ns t).
Proof.
  intros N S. unfold stamp_ns. destruct (Z.leb_spec (sec t) 9223372036) as [L|L]; [|lia].
  rewrite s64_ok by (unf; lia). cbn [obind]. rewrite s64_ok by (unf; lia). reflexivity.
Qed.

Lemma ns_rebuild t : normalised t -> 0 <= sec t <= 9223372035 ->
  exists k, stamp_ns t = Ok k /\ is_int64 k /\ from_stamp_ns k = t.
Proof.
  intros N S. exists (instant_ns t). split; [apply stamp_ns_in_range; lia || assumption|].
  assert (I : is_int64 (instant_ns t)) by (unf; lia). split; [exact I|].
  destruct (from_ns_fields _ I) as [-> _]. destruct t as [s n]. unf. cbn [sec nsec] in *. f_equal; lia.
Qed.

Lemma stamp_ns_boundary t : normalised t -> is_int64 (sec t) ->
  (sec t < -9223372036 -> stamp_ns t = UB SignedOverflow) /\
  (sec t = 9223372036 -> 854775807 < nsec t -> stamp_ns t = UB SignedOverflow) /\
  (sec t = 9223372036 -> nsec t <= 854775807 -> stamp_ns t = Ok (instant_ns t)) /\
  (9223372036 < sec t -> stamp_ns t = Ok 0).
Proof.
  intros N S. unfold stamp_ns. destruct (Z.leb_spec (sec t) 9223372036) as [L|L].
  - repeat split; intros.
    + rewrite s64_ub by (unf; lia). reflexivity.
    + rewrite s64_ok by (unf; lia). cbn [obind]. rewrite s64_ub by (unf; lia). reflexivity.
    + rewrite s64_ok by (unf; lia). cbn [obind]. rewrite s64_ok by (unf; lia). reflexivity.
    + lia.
  - repeat split; intros; lia || reflexivity.
Qed.

Lemma ms_roundtrip ms : is_int64 ms -> stamp_ms (from_stamp_ms ms) = Ok ms.
Proof.
  intros H. unfold stamp_ms, from_stamp_ms. cbn [sec nsec].
  rewrite cast_int32_id by (unf; lia).
  rewrite s64_ok by (unf; lia). cbn [obind].
  replace (Z.quot ms 1000 * 1000 + Z.quot (Z.rem ms 1000 * 1000000) 1000000) with ms by (unf; lia).
  now apply s64_ok.
Qed.

Lemma us_field us : is_int64 us ->
  cast_int32 (cast_u64 (cast_u64 (Z.rem us 1000000) * 1000)) = Z.rem us 1000000 * 1000.
Proof.
  intros H. unfold cast_u64. rewrite Z.mul_mod_idemp_l by lia.
  set (x := Z.rem us 1000000 * 1000).
  assert (Hx : -1000000000 < x < 1000000000) by (unfold x; unf; lia).
  unfold cast_int32.
  rewrite Z.add_mod by lia.
  replace ((x mod 2 ^ 64) mod 2 ^ 32) with (x mod 2 ^ 32).
  2:{ change (2^64) with (2^32 * 2^32). rewrite Z.rem_mul_r by lia.
      rewrite (Z.mul_comm (2^32)), Z.mod_add, Z.mod_mod by lia. reflexivity. }
  rewrite <- Z.add_mod by lia. rewrite Z.mod_small by lia. lia.
Qed.

Lemma us_roundtrip us : is_int64 us -> stamp_us (from_stamp_us us) = Ok us.
Proof.
  intros H. unfold stamp_us, from_stamp_us. cbn [sec nsec]. rewrite us_field by assumption.
  rewrite s64_ok by (unf; lia). cbn [obind].
  replace (Z.quot us 1000000 * 1000000 + Z.quot (Z.rem us 1000000 * 1000) 1000) with us by (unf; lia).
  now apply s64_ok.
Qed.

Lemma stamp_ms_floor t : normalised t -> 0 <= sec t <= 9223372036 -> stamp_ms t = Ok (instant_ns t / 1000000).
Proof.
  intros N S. unfold stamp_ms. rewrite s64_ok by (unf; lia). cbn [obind]. rewrite s64_ok by (unf; lia).
  f_equal. unf. lia.
Qed.

Lemma stamp_us_floor t : normalised t -> 0 <= sec t <= 9223372036 -> stamp_us t = Ok (instant_ns t / 1000).
Proof.
  intros N S. unfold stamp_us. rewrite s64_ok by (unf; lia). cbn [obind]. rewrite s64_ok by (unf; lia).
  f_equal. unf. lia.
Qed.

(** comparison *)
Lemma ts_lt_iff a b : ts_lt a b = true <-> sec a < sec b \/ (sec a = sec b /\ nsec a < nsec b).
Proof. unfold ts_lt. destruct (Z.ltb_spec (sec a) (sec b)), (Z.eqb_spec (sec a) (sec b)),
         (Z.ltb_spec (nsec a) (nsec b)); intuition (try discriminate; try lia). Qed.

Lemma ts_eq_iff a b : ts_eq a b = true <-> a = b.
Proof.
  unfold ts_eq. rewrite andb_true_iff, !Z.eqb_eq. destruct a, b; cbn. split.
  - intros [-> ->]. reflexivity.
  - now intros [= -> ->].
Qed.

Lemma ts_gt_lt a b : ts_gt a b = ts_lt b a.
Proof.
  apply eq_true_iff_eq. unfold ts_gt. rewrite andb_true_iff, !negb_true_iff, <- !not_true_iff_false.
  rewrite ts_eq_iff, !ts_lt_iff. destruct a, b; cbn. split.
  - intros [H1 H2]. assert (~ (sec = sec0 /\ nsec = nsec0)) by (intros [-> ->]; now apply H1). lia.
  - intros H. split; [intros [= -> ->]; lia|lia].
Qed.

Lemma ts_le_iff a b : ts_le a b = true <-> ts_lt a b = true \/ ts_eq a b = true.
Proof.
  unfold ts_le. rewrite negb_true_iff, ts_gt_lt, <- not_true_iff_false, ts_eq_iff, !ts_lt_iff.
  destruct a, b; cbn. split.
  - intros H. destruct (Z.eq_dec sec sec0), (Z.eq_dec nsec nsec0); subst; auto; left; lia.
  - intros [H|[= -> ->]]; lia.
Qed.

Lemma ts_order_total a b c :
  ts_lt a a = false /\
  (ts_lt a b = true -> ts_lt b c = true -> ts_lt a c = true) /\
  (ts_eq a b = true <-> a = b) /\
  ts_gt a b = ts_lt b a /\
  (ts_le a b = true <-> ts_lt a b = true \/ ts_eq a b = true) /\
  ((ts_lt a b = true /\ ts_eq a b = false /\ ts_gt a b = false) \/
   (ts_lt a b = false /\ ts_eq a b = true /\ ts_gt a b = false) \/
   (ts_lt a b = false /\ ts_eq a b = false /\ ts_gt a b = true)).
Proof.
  split. { apply not_true_iff_false. rewrite ts_lt_iff. lia. }
  split. { rewrite !ts_lt_iff. lia. }
  split. { apply ts_eq_iff. }
  split. { apply ts_gt_lt. }
  split. { apply ts_le_iff. }
  rewrite ts_gt_lt. rewrite <- !not_true_iff_false, !ts_lt_iff, !ts_eq_iff. destruct a, b; cbn.
  destruct (Z.lt_trichotomy sec sec0) as [H|[H|H]]; [left| |right; right].
  - repeat split; try lia. intros [= -> ->]; lia.
  - subst. destruct (Z.lt_trichotomy nsec nsec0) as [H|[H|H]]; [left|right;left|right;right].
    + repeat split; try lia. intros [= ->]; lia.
    + subst. repeat split; lia.
    + repeat split; try lia. intros [= ->]; lia.
  - repeat split; try lia. intros [= -> ->]; lia.
Qed.

Lemma ts_lt_instant a b : normalised a -> normalised b -> (ts_lt a b = true <-> instant_ns a < instant_ns b).
Proof. intros Na Nb. rewrite ts_lt_iff. unf. lia. Qed.

Lemma ts_eq_instant a b : normalised a -> normalised b -> (ts_eq a b = true <-> instant_ns a = instant_ns b).
Proof.
  intros Na Nb. rewrite ts_eq_iff. split; [now intros ->|]. destruct a as [sa na], b as [sb nb]. unf. cbn [sec nsec] in *.
  intros H. f_equal; lia.
Qed.

Lemma order_agrees_with_keys a b :
  normalised a -> normalised b ->
  -9223372036 <= sec a <= 9223372035 -> -9223372036 <= sec b <= 9223372035 ->
  exists ka kb, stamp_ns a = Ok ka /\ stamp_ns b = Ok kb /\
    (ts_lt a b = true <-> ka < kb) /\ (ts_eq a b = true <-> ka = kb) /\ (ts_le a b = true <-> ka <= kb).
Proof.
  intros Na Nb Sa Sb. exists (instant_ns a), (instant_ns b).
  rewrite !stamp_ns_in_range by assumption.
  split; [reflexivity|]. split; [reflexivity|].
  pose proof (ts_lt_instant a b Na Nb) as L. pose proof (ts_eq_instant a b Na Nb) as E.
  split; [exact L|]. split; [exact E|]. rewrite ts_le_iff, L, E. lia.
Qed.

Lemma from_ns_nonneg_normalised ns : is_int64 ns -> 0 <= ns ->
  normalised (from_stamp_ns ns) /\ instant_ns (from_stamp_ns ns) = ns.
Proof.
  intros H P. destruct (from_ns_fields ns H) as [-> _]. unf. cbn [sec nsec]. lia.
Qed.

Lemma from_ns_instant ns : is_int64 ns -> instant_ns (from_stamp_ns ns) = ns.
Proof. intros H. destruct (from_ns_fields ns H) as [-> _]. unf. cbn [sec nsec]. lia. Qed.
