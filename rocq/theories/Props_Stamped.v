(** C95: comparing time-stamped data. *)
From Coq Require Import ZArith Bool Reals Lra Lia.
From Flocq Require Import Core IEEE754.BinarySingleNaN.
From Verif Require Import Outcome TimestampModel DoubleModel Spec_Time TimestampProofs DoubleProofs StampedModel.
Local Open Scope Z_scope.

Lemma Rlt_boolP x y : (Rlt_bool x y = true <-> (x < y)%R).
Proof. destruct (Rlt_bool_spec x y); split; intro; try easy; lra. Qed.
Lemma Req_boolP x y : (Req_bool x y = true <-> x = y).
Proof. destruct (Req_bool_spec x y); split; intro; easy. Qed.
Lemma negb2 b c : negb b && negb c = true <-> b <> true /\ c <> true.
Proof. destruct b, c; cbn; intuition congruence. Qed.

(** the seconds of a stamp below 2^23 s are less than half a nanosecond off *)
Lemma close t : normalised t -> 0 <= sec t < 2 ^ 23 ->
  is_finite (to_sec t) = true /\ (Rabs (B2R (to_sec t) - IZR (instant_ns t) / 1000000000) < / 2000000000)%R.
Proof.
  intros N S. destruct (to_sec_err t 23) as [F E]; [lia|exact N|lia| |].
  { rewrite <- abs_IZR. change (bpow radix2 23) with (IZR (2^23)). rewrite <- plus_IZR. apply IZR_le. lia. }
  split; [exact F|]. assert (B : (bpow radix2 (23 - 54) <= / 2140000000)%R) by (simpl bpow; lra).
  eapply Rle_lt_trans; [exact E|]. lra.
Qed.
Lemma close38 t : normalised t -> 0 <= sec t < 2 ^ 31 ->
  is_finite (to_sec t) = true /\ (Rabs (B2R (to_sec t) - IZR (instant_ns t) / 1000000000) < 120 / 1000000000)%R.
Proof.
  intros N S. destruct (to_sec_err t 31) as [F E]; [lia|exact N|lia| |].
  { rewrite <- abs_IZR. change (bpow radix2 31) with (IZR (2^31)). rewrite <- plus_IZR. apply IZR_le. lia. }
  split; [exact F|]. assert (B : (bpow radix2 (31 - 54) <= / 8380000)%R) by (simpl bpow; lra).
  eapply Rle_lt_trans; [exact E|]. lra.
Qed.

(** With each other and with Timestamps, data compare by the instants of their stamps, whatever the data. *)
Theorem C95_instants : forall (T : Type) (a b : stamped T), normalised (sd_stamp _ a) -> normalised (sd_stamp _ b) ->
  let i := instant_ns (sd_stamp _ a) in let j := instant_ns (sd_stamp _ b) in
  (sd_lt _ a b = true <-> i < j) /\ (sd_eq _ a b = true <-> i = j) /\ (sd_gt _ a b = true <-> j < i).
Proof.
  intros T a b N M i j. pose proof (ts_lt_instant _ _ N M) as L. pose proof (ts_eq_instant _ _ N M) as E.
  assert (A : sd_lt _ a b = true <-> i < j) by exact L.
  assert (B : sd_eq _ a b = true <-> i = j) by exact E.
  split; [exact A|]. split; [exact B|]. unfold sd_gt. rewrite negb2, A, B. lia.
Qed.
Print Assumptions C95_instants.

Theorem C95_timestamp : forall (T : Type) (a : stamped T) t, normalised (sd_stamp _ a) -> normalised t ->
  let i := instant_ns (sd_stamp _ a) in
  (sd_lt_ts _ a t = true <-> i < instant_ns t) /\ (sd_eq_ts _ a t = true <-> i = instant_ns t) /\
  (sd_gt_ts _ a t = true <-> instant_ns t < i) /\ (ts_lt_sd _ t a = true <-> instant_ns t < i).
Proof.
  intros T a t N M i. pose proof (ts_lt_instant _ _ N M) as L. pose proof (ts_eq_instant _ _ N M) as E.
  assert (A : sd_lt_ts _ a t = true <-> i < instant_ns t) by exact L.
  assert (B : sd_eq_ts _ a t = true <-> i = instant_ns t) by exact E.
  split; [exact A|]. split; [exact B|]. split; [unfold sd_gt_ts; rewrite negb2, A, B; lia|].
  exact (ts_lt_instant _ _ M N).
Qed.
Print Assumptions C95_timestamp.

(** Below 2^23 seconds the comparisons with the seconds of a stamp are those with the stamp. *)
Theorem C95_seconds : forall (T : Type) (a : stamped T) t,
  normalised (sd_stamp _ a) -> 0 <= sec (sd_stamp _ a) < 2 ^ 23 -> normalised t -> 0 <= sec t < 2 ^ 23 ->
  let i := instant_ns (sd_stamp _ a) in
  (sd_lt_d _ a (to_sec t) = true <-> i < instant_ns t) /\ (sd_eq_d _ a (to_sec t) = true <-> i = instant_ns t) /\
  (sd_gt_d _ a (to_sec t) = true <-> instant_ns t < i) /\
  exists b, d_lt_sd _ (to_sec t) a = Ok b /\ (b = true <-> instant_ns t < i).
Proof.
  intros T a t N S M U i. destruct (close _ N S) as [Fa Ea]. destruct (close _ M U) as [Ft Et].
  apply Rabs_def2 in Ea, Et. fold i in Ea.
  assert (L : sd_lt_d _ a (to_sec t) = true <-> i < instant_ns t).
  { unfold sd_lt_d. rewrite Bltb_correct, Rlt_boolP by assumption. split; intro H.
    - apply Z.nle_gt. intro K. apply Z.lt_eq_cases in K as [K|K].
      + assert (IZR (instant_ns t) + 1 <= IZR i)%R by (rewrite <- plus_IZR; apply IZR_le; lia). lra.
      + assert (J : t = sd_stamp _ a) by (apply ts_eq_iff, (ts_eq_instant _ _ M N), K). rewrite J in H. lra.
    - assert (IZR i + 1 <= IZR (instant_ns t))%R by (rewrite <- plus_IZR; apply IZR_le; lia). lra. }
  assert (E : sd_eq_d _ a (to_sec t) = true <-> i = instant_ns t).
  { unfold sd_eq_d. rewrite Beqb_correct, Req_boolP by assumption. split; intro H.
    - destruct (Z.lt_trichotomy i (instant_ns t)) as [K|[K|K]]; [|exact K|].
      + apply L in K. unfold sd_lt_d in K. rewrite Bltb_correct, Rlt_boolP in K by assumption. lra.
      + assert (IZR (instant_ns t) + 1 <= IZR i)%R by (rewrite <- plus_IZR; apply IZR_le; lia). lra.
    - assert (J : t = sd_stamp _ a) by (apply ts_eq_iff, (ts_eq_instant _ _ M N); symmetry; exact H). now rewrite J. }
  split; [exact L|]. split; [exact E|]. split; [unfold sd_gt_d; rewrite negb2, L, E; lia|].
  unfold d_lt_sd. rewrite (to_from_sec t U M). cbn [obind]. eexists; split; [reflexivity|]. exact (ts_lt_instant _ _ M N).
Qed.
Print Assumptions C95_seconds.

(** Until 2038, and for any double, a comparison is right once the two are 120 ns apart. *)
Theorem C95_seconds_far : forall (T : Type) (a : stamped T) (d : double),
  normalised (sd_stamp _ a) -> 0 <= sec (sd_stamp _ a) < 2 ^ 31 -> is_finite d = true ->
  let x := (IZR (instant_ns (sd_stamp _ a)) / 1000000000)%R in
  ((x + 120 / 1000000000 <= B2R d)%R -> sd_lt_d _ a d = true /\ sd_eq_d _ a d = false /\ sd_gt_d _ a d = false) /\
  ((B2R d <= x - 120 / 1000000000)%R -> sd_lt_d _ a d = false /\ sd_eq_d _ a d = false /\ sd_gt_d _ a d = true).
Proof.
  intros T a d N S Fd x. destruct (close38 _ N S) as [Fa Ea]. apply Rabs_def2 in Ea. fold x in Ea.
  unfold sd_gt_d, sd_lt_d, sd_eq_d. rewrite Bltb_correct, Beqb_correct by assumption.
  split; intro H.
  - rewrite Rlt_bool_true, Req_bool_false by lra. now repeat split.
  - rewrite Rlt_bool_false, Req_bool_false by lra. now repeat split.
Qed.
Print Assumptions C95_seconds_far.

(** Data built with the nanoseconds or the seconds of a stamp carry that stamp. *)
Theorem C95_construct : forall (T : Type) (x : T) t, normalised t ->
  (0 <= sec t <= 9223372035 -> exists ns, stamp_ns t = Ok ns /\ stamped_ns _ x ns = Stamped x t) /\
  (0 <= sec t < 2 ^ 23 -> stamped_sec _ x (to_sec t) = Ok (Stamped x t)).
Proof.
  intros T x t N. split; intro S.
  - destruct (ns_rebuild t N S) as [k [E [_ B]]]. exists k. split; [exact E|]. unfold stamped_ns. now rewrite B.
  - unfold stamped_sec. now rewrite (to_from_sec t S N).
Qed.
Print Assumptions C95_construct.

(** Everything is greater than NaN, and never smaller or equal; seen from the left NaN counts as the time zero. *)
Theorem C95_nan : forall (T : Type) (a : stamped T),
  sd_lt_d _ a B754_nan = false /\ sd_eq_d _ a B754_nan = false /\ sd_gt_d _ a B754_nan = true /\
  d_lt_sd _ B754_nan a = Ok (ts_lt ts_zero (sd_stamp _ a)).
Proof.
  intros T a. assert (L : sd_lt_d _ a B754_nan = false) by (unfold sd_lt_d; now destruct (to_sec (sd_stamp _ a))).
  assert (E : sd_eq_d _ a B754_nan = false) by (unfold sd_eq_d; now destruct (to_sec (sd_stamp _ a))).
  unfold sd_gt_d. rewrite L, E. now repeat split.
Qed.
Print Assumptions C95_nan.

(** With d a third of a nanosecond before the stamp, a > d holds and d < a does not; and today's stamps one nanosecond apart are
    both equal to one number of seconds. *)
Theorem C95_disagree :
  (exists (a : stamped unit) d, normalised (sd_stamp _ a) /\ is_finite d = true /\ sd_gt_d _ a d = true /\ d_lt_sd _ d a = Ok false) /\
  (exists (a b : stamped unit) d, sd_lt _ a b = true /\ sd_eq_d _ a d = true /\ sd_eq_d _ b d = true).
Proof.
  split.
  - exists (Stamped tt (mkTs 0 1)), (Bdiv mode_NE (d_mul (d_of_Z 2) d_1em9) (d_of_Z 3)).
    split; [split; vm_compute; congruence|]. repeat split; vm_compute; reflexivity.
  - exists (Stamped tt (mkTs 1720712106 123456789)), (Stamped tt (mkTs 1720712106 123456790)), (to_sec (mkTs 1720712106 123456789)).
    repeat split; vm_compute; reflexivity.
Qed.
Print Assumptions C95_disagree.

Example C95_example : let a := Stamped 7%nat (mkTs 3 5) in let b := Stamped 1%nat (mkTs 3 6) in
  sd_lt _ a b = true /\ sd_gt _ b a = true /\ sd_eq _ a (Stamped 0%nat (mkTs 3 5)) = true /\
  sd_lt_d _ a (to_sec (mkTs 3 6)) = true /\ d_lt_sd _ (to_sec (mkTs 3 4)) a = Ok true.
Proof. repeat split; vm_compute; reflexivity. Qed.
