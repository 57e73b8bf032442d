(** Properties C51 (names), C52 (quaternions, skew), C53 (angle wrapping). *)
From Coq Require Import String ZArith Reals List Bool Lra Lia.
From Verif Require Import MeasModel UtilModel.
Import ListNotations.

(** ** C51 *)
Theorem C51_belief_strategy_roundtrip : forall e, str2gbs (gbs2str e) = e.
Proof. now intros []. Qed.
(** the fusion strategy survives exactly when it is not SKF *)
Theorem C51_fusion_roundtrip_iff : forall e, str2fs (fs2str e) = e <-> e <> FS_SKF.
Proof. intros []; cbn; split; congruence. Qed.
(** every name the parser knows is recognised, and what it yields is printed as a name with the same meaning,
    except for "SKF" *)
Theorem C51_fusion_parse_print : forall s, s <> "SKF"%string -> str2fs (fs2str (str2fs s)) = str2fs s.
Proof.
  intros s N. apply C51_fusion_roundtrip_iff. unfold str2fs. destruct (s =? "IKF")%string; [congruence|]. destruct (s =? "DP")%string; [congruence|].
  destruct (String.eqb_spec s "SKF"); [contradiction|]. destruct (_ || _); [congruence|]. destruct (s =? "DCI_IKF")%string; congruence.
Qed.
(** distinct enumerators have distinct names in four of the six enums; SKF/UNKNOWN and RELAXED/STRICT collide *)
Theorem C51_distinct_names :
  (forall a b, gbs2str a = gbs2str b -> a = b) /\ (forall a b, redo2str a = redo2str b -> a = b) /\
  (forall a b, status2str a = status2str b -> a = b) /\ (forall a b, obs2str a = obs2str b -> a = b) /\
  (forall a b, fs2str a = fs2str b -> a = b \/ ((a = FS_SKF \/ a = FS_UNKNOWN) /\ (b = FS_SKF \/ b = FS_UNKNOWN))).
Proof. repeat split; intros [] []; cbn; try discriminate; auto. Qed.
Theorem C51_colliding_names :
  (exists a b, a <> b /\ order2str a = order2str b) /\ (exists a b, a <> b /\ fs2str a = fs2str b) /\ (exists e, str2fs (fs2str e) <> e).
Proof.
  split; [exists OS_STRICT, OS_RELAXED; split; [discriminate|reflexivity]|].
  split; [exists FS_SKF, FS_UNKNOWN; split; [discriminate|reflexivity]|]. exists FS_SKF. discriminate.
Qed.
(** the order strictness is printed as "STRICT" whatever it is *)
Theorem C51_order_constant : forall a, order2str a = "STRICT"%string.
Proof. now intros []. Qed.

Local Open Scope R_scope.
(** ** C52 *)
Lemma half_lit : 0.5 = / 2. Proof. lra. Qed.
Theorem C52_small_angle_unit : forall t, sqnorm4 (small_angle_to_quaternion t) = 1.
Proof.
  intros t. unfold small_angle_to_quaternion. set (q2 := sqnorm3 t / 4).
  assert (P : 0 <= q2) by (unfold q2, sqnorm3; nra).
  destruct (Rlt_dec q2 1) as [L|L]; unfold sqnorm4; cbn.
  - rewrite sqrt_sqrt by lra. rewrite half_lit. unfold q2, sqnorm3. field.
  - assert (S : 0 < sqrt (1 + q2)) by (apply sqrt_lt_R0; lra).
    assert (E : sqrt (1 + q2) * sqrt (1 + q2) = 1 + q2) by (apply sqrt_sqrt; lra).
    set (s := sqrt (1 + q2)) in *. rewrite half_lit.
    replace (_ + _ + _ + _) with ((1 + q2) / (s * s)); [rewrite E; field; lra|]. unfold q2, sqnorm3. field. lra.
Qed.
Theorem C52_theta2quat_unit : forall t, sqnorm4 (theta2quat t) = 1.
Proof.
  intros t. unfold theta2quat. set (q := Q4 1 _ _ _).
  assert (P : 0 < sqnorm4 q) by (unfold sqnorm4; cbn; nra).
  assert (S : 0 < sqrt (sqnorm4 q)) by (now apply sqrt_lt_R0).
  assert (E : sqrt (sqnorm4 q) * sqrt (sqnorm4 q) = sqnorm4 q) by (apply sqrt_sqrt; lra).
  set (s := sqrt (sqnorm4 q)) in *. unfold sqnorm4 at 1. cbn [qw qx qy qz].
  replace (_ + _ + _ + _) with (sqnorm4 q / (s * s)); [rewrite E; field; lra|]. unfold sqnorm4, q. cbn. rewrite half_lit. field. lra.
Qed.
(** below 2 rad the error angle is recovered exactly from the small-angle quaternion *)
Theorem C52_small_angle_recovers : forall t, sqnorm3 t < 4 -> quat2theta (small_angle_to_quaternion t) = t.
Proof.
  intros t L. unfold small_angle_to_quaternion. destruct (Rlt_dec _ _) as [H|H]; [|exfalso; apply H; lra].
  unfold quat2theta. cbn. rewrite half_lit. destruct t; cbn. f_equal; field.
Qed.
(** skew(v) w is the cross product, skew(v) is antisymmetric, and skew_inv undoes skew *)
Theorem C52_skew :
  forall v w, let m := skew v in
  m 0%nat 0%nat * vx w + m 0%nat 1%nat * vy w + m 0%nat 2%nat * vz w = vy v * vz w - vz v * vy w /\
  m 1%nat 0%nat * vx w + m 1%nat 1%nat * vy w + m 1%nat 2%nat * vz w = vz v * vx w - vx v * vz w /\
  m 2%nat 0%nat * vx w + m 2%nat 1%nat * vy w + m 2%nat 2%nat * vz w = vx v * vy w - vy v * vx w /\
  (forall i j, m i j = - m j i) /\ skew_inv (skew v) = v.
Proof.
  intros [a b c] [x y z]. cbn. repeat split; try ring.
  intros i j. destruct i as [|[|[|i]]], j as [|[|[|j]]]; cbn; try ring; now destruct j.
Qed.
(** OmegaMat(v) q is the quaternion product q * (0, v) *)
Theorem C52_omega_is_quaternion_product : forall v q,
  let m := omega_mat v in
  let row i := m i 0%nat * qw q + m i 1%nat * qx q + m i 2%nat * qy q + m i 3%nat * qz q in
  row 0%nat = - (qx q * vx v + qy q * vy v + qz q * vz v) /\
  row 1%nat = qw q * vx v + (qy q * vz v - qz q * vy v) /\
  row 2%nat = qw q * vy v + (qz q * vx v - qx q * vz v) /\
  row 3%nat = qw q * vz v + (qx q * vy v - qy q * vx v).
Proof. intros [a b c] [w x y z]. cbn. repeat split; ring. Qed.
Example C52_example : sqnorm3 (V3 0.1 0.2 0.3) < 4 /\ ~ sqnorm3 (V3 1 2 3) < 4.
Proof. unfold sqnorm3; cbn; lra. Qed.

(** ** C53 *)
Lemma rtrunc_bound x : (0 <= x -> 0 <= x - IZR (rtrunc x) < 1) /\ (x <= 0 -> -1 < x - IZR (rtrunc x) <= 0).
Proof.
  unfold rtrunc. destruct (Rle_dec 0 x) as [P|P].
  - destruct (archimed x) as [A B]. rewrite minus_IZR. split; [lra|]. intros N. assert (x = 0) by lra. subst x.
    assert (Q : (up 0 = 1)%Z); [|rewrite Q; lra]. assert (0 < up 0 <= 1)%Z by (split; [apply lt_IZR; lra|apply le_IZR; lra]). lia.
  - destruct (archimed (- x)) as [A B]. rewrite opp_IZR, minus_IZR. split; [lra|]. intros _. lra.
Qed.
Lemma fmod_props x y : 0 < y -> (exists k : Z, fmod x y = x + IZR k * y) /\ (0 <= x -> 0 <= fmod x y < y) /\ (x <= 0 -> - y < fmod x y <= 0).
Proof.
  intros Y. unfold fmod. destruct (rtrunc_bound (x / y)) as [A B]. set (n := rtrunc (x / y)) in *. split; [|split].
  - exists (- n)%Z. rewrite opp_IZR. lra.
  - intros X. assert (D : 0 <= x / y) by (apply Rmult_le_pos; [lra|apply Rlt_le, Rinv_0_lt_compat; lra]). specialize (A D).
    replace (x - IZR n * y) with ((x / y - IZR n) * y) by (field; lra). nra.
  - intros X. assert (D : x / y <= 0). { apply Rmult_le_reg_r with y; [lra|]. unfold Rdiv. rewrite Rmult_assoc, Rinv_l by lra. lra. }
    specialize (B D). replace (x - IZR n * y) with ((x / y - IZR n) * y) by (field; lra). nra.
Qed.
Lemma wrapMax_props x m : 0 < m -> 0 <= wrapMax x m < m /\ exists k : Z, wrapMax x m = x + IZR k * m.
Proof.
  intros M. unfold wrapMax. destruct (fmod_props x m M) as [[k E] [A B]].
  assert (P : 0 <= m + fmod x m) by (destruct (Rle_dec 0 x) as [X|X]; [specialize (A X); lra|assert (x <= 0) by lra; specialize (B H); lra]).
  destruct (fmod_props (m + fmod x m) m M) as [[k' E'] [A' _]]. split; [auto|]. exists (1 + k + k')%Z. rewrite E', E, !plus_IZR. ring.
Qed.
(** the general wrap: any interval *)
Theorem C53_wrapMinMax : forall x lo hi, lo < hi ->
  lo <= wrapMinMax x lo hi < hi /\ exists k : Z, wrapMinMax x lo hi = x + IZR k * (hi - lo).
Proof.
  intros x lo hi L. unfold wrapMinMax. destruct (wrapMax_props (x - lo) (hi - lo)) as [A [k E]]; [lra|]. split; [lra|]. exists k. rewrite E. ring.
Qed.
(** the result is the only value of the interval congruent to the input *)
Theorem C53_wrapMinMax_unique : forall x lo hi y, lo < hi -> lo <= y < hi -> (exists k : Z, y = x + IZR k * (hi - lo)) -> y = wrapMinMax x lo hi.
Proof.
  intros x lo hi y L I [k E]. destruct (C53_wrapMinMax x lo hi L) as [J [k' E']].
  assert (D : y - wrapMinMax x lo hi = IZR (k - k') * (hi - lo)) by (rewrite E, E', minus_IZR; ring).
  assert (k - k' = 0)%Z.
  { assert (-1 < k - k' < 1)%Z; [|lia]. split; apply lt_IZR; apply Rmult_lt_reg_r with (hi - lo); try lra; rewrite <- D; lra. }
  rewrite H in D. lra.
Qed.
Theorem C53_wrapToPi : forall x, - PI <= wrapToPi x < PI /\ exists k : Z, wrapToPi x = x + IZR k * (2 * PI).
Proof.
  intros x. unfold wrapToPi. pose proof PI_RGT_0. destruct (C53_wrapMinMax x (- PI) PI) as [A [k E]]; [lra|]. split; [exact A|].
  exists k. rewrite E. ring.
Qed.
Theorem C53_wrapTo180deg : forall x, -180 <= wrapTo180deg x < 180 /\ exists k : Z, wrapTo180deg x = x + IZR k * 360.
Proof.
  intros x. unfold wrapTo180deg. destruct (C53_wrapMinMax x (-180) 180) as [A [k E]]; [lra|]. split; [exact A|].
  exists k. rewrite E. ring.
Qed.
(** degrees and radians: half a turn is 180 degrees, conversion is proportional and the two functions are inverse *)
Theorem C53_degrees : forall x k, deg2rad 180 = PI /\ rad2deg PI = 180 /\ deg2rad (k * x) = k * deg2rad x /\
  rad2deg (deg2rad x) = x /\ deg2rad (rad2deg x) = x.
Proof. intros x k. unfold deg2rad, rad2deg. pose proof PI_RGT_0. repeat split; field; lra. Qed.
(** wrapTo360deg keeps the angle but lands in [-360, 360): not a single turn *)
Theorem C53_wrapTo360deg : forall x, -360 <= wrapTo360deg x < 360 /\ exists k : Z, wrapTo360deg x = x + IZR k * 360.
Proof.
  intros x. unfold wrapTo360deg. destruct (C53_wrapMinMax x (-360) 360) as [A [k E]]; [lra|]. split; [exact A|].
  exists (2 * k)%Z. rewrite E, mult_IZR. ring.
Qed.
Theorem C53_wrapTo360deg_not_one_turn : exists x y, wrapTo360deg x < 0 /\ wrapTo360deg x <> wrapTo360deg y /\ x = y - 360.
Proof.
  exists (-90), 270. assert (A : wrapTo360deg (-90) = -90) by (symmetry; apply C53_wrapMinMax_unique; [lra|lra|exists 0%Z; lra]).
  assert (B : wrapTo360deg 270 = 270) by (symmetry; apply C53_wrapMinMax_unique; [lra|lra|exists 0%Z; lra]).
  rewrite A, B. lra.
Qed.
(** wrapTo2Pi uses the constant 2/pi: it changes the angle, e.g. of 1 rad *)
Lemma two_over_pi : 0.5 <= 2 / PI < 0.75.
Proof.
  pose proof PI_RGT_0. assert (3 < PI <= 4).
  { split; [|apply PI_4]. pose proof PI2_3_2. lra. }
  split; [apply Rmult_le_reg_r with PI|apply Rmult_lt_reg_r with PI]; try lra; unfold Rdiv; rewrite Rmult_assoc, Rinv_l by lra; lra.
Qed.
Theorem C53_wrapTo2Pi_changes_angles :
  (forall x, wrapTo2Pi x < 0.75) /\
  exists x, 0 <= x < 2 * PI /\ wrapTo2Pi x <> x /\ ~ exists k : Z, wrapTo2Pi x = x + IZR k * (2 * PI).
Proof.
  pose proof two_over_pi as T. assert (P3 : 3 < PI) by (pose proof PI2_3_2; lra). split.
  { intros x. unfold wrapTo2Pi. destruct (C53_wrapMinMax x (- (2 / PI)) (2 / PI)) as [A _]; lra. }
  exists 1. assert (A : wrapTo2Pi 1 = 1 - 2 * (2 / PI)).
  { symmetry. apply C53_wrapMinMax_unique; [lra|lra|]. exists (-1)%Z. ring. }
  rewrite A. split; [lra|]. split; [set (t := 2 / PI) in *; clearbody t; lra|]. intros [k E].
  assert (Q : IZR k * (2 * PI) = - (2 * (2 / PI))) by lra. assert (-1 < k < 0)%Z; [|lia].
  split; apply lt_IZR; apply Rmult_lt_reg_r with (2 * PI); lra.
Qed.
(** exactly: it wraps into [-2/pi, 2/pi) by multiples of 4/pi *)
Theorem C53_wrapTo2Pi_exact : forall x, - (2 / PI) <= wrapTo2Pi x < 2 / PI /\ exists k : Z, wrapTo2Pi x = x + IZR k * (4 / PI).
Proof.
  intros x. pose proof two_over_pi as T. unfold wrapTo2Pi. destruct (C53_wrapMinMax x (- (2 / PI)) (2 / PI)) as [A [k E]]; [lra|]. split; [exact A|].
  exists k. rewrite E. unfold Rdiv. ring.
Qed.
(** and the only angles it leaves unchanged are those already in that interval *)
Theorem C53_wrapTo2Pi_fixed_iff : forall x, wrapTo2Pi x = x <-> - (2 / PI) <= x < 2 / PI.
Proof.
  intros x. pose proof two_over_pi as T. split; [intros E; rewrite <- E; apply C53_wrapTo2Pi_exact|].
  intros I. symmetry. apply C53_wrapMinMax_unique; [lra|exact I|]. exists 0%Z. ring.
Qed.
Example C53_example : exists x, wrapToPi x = x - 2 * PI /\ 0 < x.
Proof. exists (1.5 * PI). pose proof PI_RGT_0. split; [|lra]. symmetry. apply C53_wrapMinMax_unique; [lra|lra|]. exists (-1)%Z. ring. Qed.

Print Assumptions C51_belief_strategy_roundtrip.
Print Assumptions C51_fusion_roundtrip_iff.
Print Assumptions C51_fusion_parse_print.
Print Assumptions C51_distinct_names.
Print Assumptions C51_colliding_names.
Print Assumptions C51_order_constant.
Print Assumptions C53_wrapTo2Pi_exact.
Print Assumptions C53_wrapTo2Pi_fixed_iff.
Print Assumptions C52_small_angle_unit.
Print Assumptions C52_theta2quat_unit.
Print Assumptions C52_small_angle_recovers.
Print Assumptions C52_skew.
Print Assumptions C52_omega_is_quaternion_product.
Print Assumptions C53_wrapMinMax.
Print Assumptions C53_wrapMinMax_unique.
Print Assumptions C53_wrapToPi.
Print Assumptions C53_wrapTo180deg.
Print Assumptions C53_wrapTo360deg.
Print Assumptions C53_wrapTo360deg_not_one_turn.
Print Assumptions C53_wrapTo2Pi_changes_angles.
