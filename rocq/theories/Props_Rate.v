(** C97: fixed rates.  C98: progress reports. *)
From Coq Require Import ZArith Bool Reals Lra Lia List.
From Flocq Require Import Core IEEE754.BinarySingleNaN.
From Verif Require Import Outcome TimestampModel DoubleModel DoubleProofs RateModel.
Import ListNotations.
Local Open Scope Z_scope.

Lemma d_div_spec a b : is_finite a = true -> B2R b <> 0%R -> (Rabs (B2R a / B2R b) <= IZR (2^100))%R ->
  B2R (Bdiv mode_NE a b) = round radix2 fexp64 ZnearestE (B2R a / B2R b) /\ is_finite (Bdiv mode_NE a b) = true.
Proof.
  intros Fa Nb H. pose proof (Bdiv_correct prec64 emax64 _ _ mode_NE a b Nb) as C.
  simpl round_mode in C. rewrite Rlt_bool_true in C by (now apply rnd_abs_bound).
  destruct C as [A [B _]]. split; [exact A|]. now rewrite B.
Qed.
Lemma Btrunc_floor (a : double) : (0 <= B2R a)%R -> Btrunc a = Zfloor (B2R a).
Proof.
  intro P. pose proof (Btrunc_correct prec64 emax64 _ a) as C. rewrite round_FIX_IZR in C. apply eq_IZR in C.
  rewrite C. unfold Ztrunc. now rewrite Rlt_bool_false.
Qed.
Lemma zero_eq (hz : double) : (0 < B2R hz)%R -> is_finite hz = true -> Beqb hz (d_of_Z 0) = false.
Proof. intros P F. rewrite Beqb_correct; [|exact F|reflexivity]. apply Req_bool_false. cbn. lra. Qed.

(** the period stored for a frequency: the whole milliseconds of 1000/hz *)
Theorem C97_period : forall hz : double, is_finite hz = true -> (0 < B2R hz)%R -> (1000 / B2R hz < 4294967295)%R ->
  exists m, rate_ms hz = Ok m /\ 0 <= m < 2 ^ 32 /\ (IZR m - / 2000000 <= 1000 / B2R hz < IZR m + 1)%R.
Proof.
  intros hz F P B. unfold rate_ms. rewrite zero_eq by assumption.
  set (q := (1000 / B2R hz)%R) in *.
  assert (Q0 : (0 < q)%R) by (unfold q; apply Rdiv_lt_0_compat; lra).
  destruct (d_of_Z_exact 1000 ltac:(lia)) as [E1 F1].
  destruct (d_div_spec (d_of_Z 1000) hz F1 ltac:(lra)) as [E2 F2].
  { rewrite E1. fold q. rewrite Rabs_pos_eq by lra. apply Rle_trans with 4294967295%R; [lra|]. apply IZR_le. lia. }
  rewrite E1 in E2. fold q in E2. set (d := Bdiv mode_NE (d_of_Z 1000) hz) in *.
  assert (R0 : (0 <= B2R d <= 4294967295)%R) by (rewrite E2; apply (rnd_between 0 4294967295); [lia|lia|split; lra]).
  unfold d_to_uint32. rewrite F2, Btrunc_floor by lra. set (m := Zfloor (B2R d)).
  assert (M1 : 0 <= m) by (apply Zfloor_lub; lra).
  assert (M2 : m <= 4294967295) by (apply le_IZR; eapply Rle_trans; [apply Zfloor_lb|lra]).
  replace (0 <=? m) with true by (symmetry; now apply Z.leb_le).
  replace (m <? 2 ^ 32) with true by (symmetry; apply Z.ltb_lt; lia).
  exists m. split; [reflexivity|]. split; [lia|].
  assert (L : (IZR m <= B2R d)%R) by apply Zfloor_lb.
  assert (U : (B2R d < IZR m + 1)%R) by apply Zfloor_ub.
  split.
  - assert (Eq : (Rabs (round radix2 fexp64 ZnearestE q - q) <= bpow radix2 (32 - 54))%R).
    { apply rnd_err; [lia|]. rewrite Rabs_pos_eq by lra. change (bpow radix2 32) with (IZR (2 ^ 32)).
      eapply Rlt_le_trans; [exact B|]. apply IZR_le. lia. }
    assert (S : (bpow radix2 (32 - 54) <= / 4000000)%R) by (simpl bpow; lra).
    rewrite <- E2 in Eq. apply Rabs_le_inv in Eq. lra.
  - apply Rnot_le_lt. intro K.
    assert (IZR (m + 1) <= B2R d)%R.
    { rewrite E2, <- (rnd_Z (m + 1)) by lia. apply rnd_le. rewrite plus_IZR. exact K. }
    rewrite plus_IZR in H. lra.
Qed.
Print Assumptions C97_period.

(** a whole number of hertz: the integer quotient; none above 1 kHz *)
Theorem C97_whole : forall k, 1 <= k <= 2 ^ 53 -> rate_ms (d_of_Z k) = Ok (1000 / k).
Proof.
  intros k K. destruct (d_of_Z_exact k ltac:(lia)) as [E F].
  assert (P : (1 <= IZR k)%R) by (apply IZR_le; lia).
  assert (I0 : (0 < / IZR k)%R) by (apply Rinv_0_lt_compat; lra).
  assert (I1 : (/ IZR k <= 1)%R) by (rewrite <- Rinv_1; apply Rinv_le; lra).
  destruct (C97_period (d_of_Z k) F) as [m [A [B [C D]]]].
  - rewrite E. lra.
  - rewrite E. apply Rle_lt_trans with 1000%R; [unfold Rdiv; nra|]. apply IZR_lt. lia.
  - rewrite A. f_equal. rewrite E in C, D.
    assert (KI : (IZR k * / IZR k = 1)%R) by (apply Rinv_r; lra).
    assert (U : 1000 < (m + 1) * k).
    { apply lt_IZR. rewrite mult_IZR, plus_IZR. unfold Rdiv in D. nra. }
    destruct (Z_le_gt_dec k 1000) as [Hk|Hk].
    + assert (L : m * k <= 1000).
      { apply Z.lt_succ_r. apply lt_IZR. unfold Z.succ. rewrite mult_IZR, plus_IZR.
        assert (KB : (IZR k <= 1000)%R) by (apply IZR_le; lia).
        unfold Rdiv in C. nra. }
      apply Z.div_unique with (1000 - m * k); [left; lia|lia].
    + rewrite Z.div_small by lia. assert (m < 1); [|lia]. apply lt_IZR.
      assert (KB : (1001 <= IZR k)%R) by (apply IZR_le; lia). unfold Rdiv in C. nra.
Qed.
Print Assumptions C97_whole.

Lemma cast_small z : - 2 ^ 31 <= z < 2 ^ 31 -> cast_int32 z = z.
Proof. intro H. unfold cast_int32. rewrite Z.mod_small by lia. lia. Qed.

(** one cycle: from the end of the last sleep to the end of this one *)
Theorem C97_cycle : forall m start p0 stop wake late, 0 <= m < 2 ^ 31 -> start <= stop -> stop - start < 2 ^ 31 * 1000000 ->
  let r := Rate m start p0 in
  let pause := rate_pause r stop * 1000000 in
  stop + pause <= wake <= stop + pause + late ->
  m * 1000000 <= wake - start /\ wake - start < Z.max (stop - start) (m * 1000000 + 1000000) + late + 1 /\
  (m * 1000000 <= stop - start -> pause = 0) /\
  r_start (rate_sleep stop wake r) = wake /\ rate_process (rate_sleep stop wake r) = Ok ((stop - start) / 1000000).
Proof.
  intros m start p0 stop wake late M S W r pause H.
  assert (Q : Z.quot (stop - start) 1000000 = (stop - start) / 1000000) by (apply Z.quot_div_nonneg; lia).
  pose proof (Z.div_mod (stop - start) 1000000 ltac:(lia)) as D. pose proof (Z.mod_pos_bound (stop - start) 1000000 ltac:(lia)) as B.
  set (p := (stop - start) / 1000000) in *.
  assert (P : 0 <= p < 2 ^ 31) by (unfold p; split; [apply Z.div_pos; lia|apply Z.div_lt_upper_bound; lia]).
  unfold rate_process, rate_sleep, r_process, r_start in *. cbn [r] in *. rewrite Q, (cast_small p) by lia.
  unfold pause, rate_pause in *. cbn [r r_sleep r_start] in *. rewrite Q, cast_small in * by lia.
  destruct (Z.ltb_spec 0 (m - p)); repeat split; lia.
Qed.
Print Assumptions C97_cycle.

(** any number of cycles: never faster than the rate asked for *)
Fixpoint cycles (r : rate) (l : list (Z * Z)) : rate := match l with [] => r | (stop, wake) :: l => cycles (rate_sleep stop wake r) l end.
Fixpoint fair (r : rate) (l : list (Z * Z)) : Prop :=
  match l with
  | [] => True
  | (stop, wake) :: l => r_start r <= stop /\ stop - r_start r < 2 ^ 31 * 1000000 /\ stop + rate_pause r stop * 1000000 <= wake /\ fair (rate_sleep stop wake r) l
  end.
Theorem C97_rate : forall l r, 0 <= r_sleep r < 2 ^ 31 -> fair r l ->
  Z.of_nat (length l) * (r_sleep r * 1000000) <= r_start (cycles r l) - r_start r.
Proof.
  induction l as [|[stop wake] l IH]; intros [m start p0] M Hf; [cbn; lia|]. cbn [fair] in Hf. destruct Hf as [A [B [C D]]].
  cbn [r_start r_sleep] in *.
  destruct (C97_cycle m start p0 stop wake (wake - stop - rate_pause (Rate m start p0) stop * 1000000) M A B) as [L _]; [lia|].
  specialize (IH (rate_sleep stop wake (Rate m start p0)) M D). cbn [cycles length]. unfold rate_sleep in IH at 1 3. cbn [r_sleep r_start] in IH. lia.
Qed.
Print Assumptions C97_rate.

(** the first cycle starts when the object is made *)
Theorem C97_first : forall hz now r, rate_new hz now = Ok r -> rate_ms hz = Ok (r_sleep r) /\ r_start r = now /\
  forall stop wake, 0 <= r_sleep r < 2 ^ 31 -> now <= stop -> stop - now < 2 ^ 31 * 1000000 -> stop + rate_pause r stop * 1000000 <= wake ->
    r_sleep r * 1000000 <= wake - now.
Proof.
  intros hz now r. unfold rate_new. destruct (rate_ms hz) as [m| |] eqn:E; try discriminate. cbn. injection 1 as <-. repeat split.
  intros stop wake M A B C. cbn [r_sleep] in *.
  destruct (C97_cycle m now None stop wake (wake - stop - rate_pause (Rate m now None) stop * 1000000) M A B ltac:(lia)) as [L _]. exact L.
Qed.
Print Assumptions C97_first.

(** before the first sleep() the process time is not initialised, and a period of 2^31 ms or more is not slept at all *)
Theorem C97_corners : (forall hz now r, rate_new hz now = Ok r -> rate_process r = UB StaleRead) /\
  (forall m start p0, 2 ^ 31 <= m < 2 ^ 32 -> rate_pause (Rate m start p0) start = 0) /\
  (forall hz : double, is_finite hz = true -> (-1000 <= B2R hz < 0)%R -> rate_ms hz = UB FloatToIntRange) /\
  rate_ms B754_nan = UB FloatToIntRange.
Proof.
  split; [|split; [|split]].
  - intros hz now r. unfold rate_new. destruct (rate_ms hz); cbn; try discriminate. injection 1 as <-. reflexivity.
  - intros m start p0 M. unfold rate_pause. cbn [r_sleep r_start]. rewrite Z.sub_diag, Z.quot_0_l, Z.sub_0_r by lia.
    unfold cast_int32. replace (m + 2 ^ 31) with (m - 2 ^ 31 + 1 * 2 ^ 32) by lia. rewrite Z.mod_add, Z.mod_small by lia.
    destruct (Z.ltb_spec 0 (m - 2 ^ 31 - 2 ^ 31)); lia.
  - intros hz F B. unfold rate_ms. rewrite Beqb_correct; [|exact F|reflexivity]. rewrite Req_bool_false by (cbn; lra).
    unfold d_to_uint32. destruct (is_finite (Bdiv mode_NE (d_of_Z 1000) hz)) eqn:Fd; [|reflexivity].
    destruct (d_of_Z_exact 1000 ltac:(lia)) as [E1 F1].
    pose proof (Bdiv_correct prec64 emax64 _ _ mode_NE (d_of_Z 1000) hz ltac:(lra)) as C. simpl round_mode in C. rewrite E1 in C.
    destruct (Rlt_bool _ _).
    + destruct C as [E _]. set (d := Bdiv mode_NE (d_of_Z 1000) hz) in *.
      assert (Q : (1000 / B2R hz <= -1)%R).
      { assert (I : (/ B2R hz <= - / 1000)%R).
        { replace (- / 1000)%R with (/ (-1000))%R by lra. destruct (Req_dec (B2R hz) (-1000)) as [->|N]; [lra|].
          apply Rlt_le, Rinv_lt_contravar; nra. }
        unfold Rdiv. lra. }
      assert (D : (B2R d <= IZR (-1))%R). { rewrite E, <- (rnd_Z (-1)) by lia. apply rnd_le. exact Q. }
      pose proof (Btrunc_correct prec64 emax64 _ d) as T. rewrite round_FIX_IZR in T. apply eq_IZR in T.
      assert (K : Btrunc d <= -1). { rewrite T. rewrite <- (Ztrunc_IZR (-1)). apply Ztrunc_le. exact D. }
      replace (0 <=? Btrunc d) with false by (symmetry; apply Z.leb_gt; lia). reflexivity.
    + exfalso. revert Fd. rewrite <- is_finite_SF_B2SF, C. now destruct (Bsign _), (Bsign _).
  - reflexivity.
Qed.
Print Assumptions C97_corners.
Example C97_example : rate_ms (d_of_Z 50) = Ok 20 /\ rate_ms (d_of_Z 600) = Ok 1 /\ rate_ms (d_of_Z 0) = Ok 0 /\
  rate_pause (Rate 20 1000000 None) 6500000 = 15.
Proof. repeat split; vm_compute; reflexivity. Qed.
