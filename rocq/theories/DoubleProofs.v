(** Rounding-error analysis of Timestamp::to_sec / from_sec / operator+ / operator- (binary64). *)
From Coq Require Import ZArith Bool Reals Lra Lia.
From Flocq Require Import Core IEEE754.BinarySingleNaN.
From Verif Require Import Outcome TimestampModel DoubleModel.
Local Open Scope R_scope.

Notation fexp64 := (SpecFloat.fexp prec64 emax64).
Notation rnd := (round radix2 fexp64 ZnearestE).
Notation fmt := (generic_format radix2 fexp64).

Local Instance vexp64 : Valid_exp fexp64 := fexp_correct prec64 emax64 _.
Local Instance mexp64 : Monotone_exp fexp64 := fexp_monotone prec64 emax64.

Lemma fexp64_eq e : fexp64 e = Z.max (e - 53) (-1074).
Proof. reflexivity. Qed.

Lemma fmt_Z z : (Z.abs z <= 2 ^ 53)%Z -> fmt (IZR z).
Proof.
  intros Hz.
  destruct (Z.eq_dec (Z.abs z) (2^53)) as [E|E].
  - assert (H : fmt (bpow radix2 53)) by (apply generic_format_bpow; rewrite fexp64_eq; lia).
    destruct (Z.abs_spec z) as [[_ A]|[_ A]].
    + replace (IZR z) with (bpow radix2 53); [exact H|]. change (bpow radix2 53) with (IZR (2^53)). f_equal. lia.
    + replace (IZR z) with (- bpow radix2 53); [now apply generic_format_opp|].
      change (bpow radix2 53) with (IZR (2^53)). rewrite <- opp_IZR. f_equal. lia.
  - destruct (Z.eq_dec z 0) as [->|Hz0]; [apply generic_format_0|].
    replace (IZR z) with (F2R (Float radix2 z 0)) by (unfold F2R; simpl; ring).
    apply generic_format_F2R. intros _. unfold cexp. rewrite fexp64_eq.
    assert (mag radix2 (F2R (Float radix2 z 0)) <= 53)%Z; [|simpl; lia].
    apply mag_le_bpow.
    + unfold F2R; simpl. rewrite Rmult_1_r. now apply IZR_neq.
    + unfold F2R; simpl Fnum; simpl Fexp. rewrite Rmult_1_r, <- abs_IZR.
      change (bpow radix2 53) with (IZR (2^53)). apply IZR_lt. lia.
Qed.

Lemma rnd_Z z : (Z.abs z <= 2 ^ 53)%Z -> rnd (IZR z) = IZR z.
Proof. intros H. apply round_generic; [typeclasses eauto|]. now apply fmt_Z. Qed.

Lemma rnd_le x y : x <= y -> rnd x <= rnd y.
Proof. apply round_le; typeclasses eauto. Qed.

(** rounding stays between integers *)
Lemma rnd_between a b x : (Z.abs a <= 2^53)%Z -> (Z.abs b <= 2^53)%Z ->
  IZR a <= x <= IZR b -> IZR a <= rnd x <= IZR b.
Proof.
  intros Ha Hb [H1 H2]. split.
  - rewrite <- (rnd_Z a Ha). now apply rnd_le.
  - rewrite <- (rnd_Z b Hb). now apply rnd_le.
Qed.

(** absolute error of one rounding for |x| < 2^e *)
Lemma rnd_err e x : (-1000 <= e)%Z -> Rabs x < bpow radix2 e ->
  Rabs (rnd x - x) <= bpow radix2 (e - 54).
Proof.
  intros He Hx.
  eapply Rle_trans; [apply error_le_half_ulp; typeclasses eauto|].
  assert (U : ulp radix2 fexp64 x <= bpow radix2 (e - 53)).
  { destruct (Req_dec x 0) as [->|Hx0].
    - rewrite ulp_FLT_0 || idtac.
      unfold ulp. rewrite Req_bool_true by reflexivity.
      destruct (negligible_exp_spec' fexp64) as [[E _]|[n [E Hn]]]; rewrite E.
      + apply bpow_ge_0.
      + apply bpow_le. rewrite !fexp64_eq in *. lia.
    - rewrite ulp_neq_0 by assumption. apply bpow_le. unfold cexp. rewrite fexp64_eq.
      assert (mag radix2 x <= e)%Z by (now apply mag_le_bpow). lia. }
  replace (e - 54)%Z with ((-1) + (e - 53))%Z by lia.
  rewrite bpow_plus. simpl (bpow radix2 (-1)). lra.
Qed.

Lemma small_lt_emax x : Rabs x <= IZR (2^100) -> Rabs x < bpow radix2 emax64.
Proof.
  intros H. eapply Rle_lt_trans; [exact H|].
  change (IZR (2^100)) with (bpow radix2 100). apply bpow_lt. unfold emax64. lia.
Qed.

Lemma rnd_abs_bound x : Rabs x <= IZR (2^100) -> Rabs (rnd x) < bpow radix2 emax64.
Proof.
  intros H. apply small_lt_emax.
  change (IZR (2^100)) with (bpow radix2 100) in *.
  apply abs_round_le_generic; [typeclasses eauto|typeclasses eauto| |exact H].
  apply generic_format_bpow. rewrite fexp64_eq. lia.
Qed.

Lemma d_of_Z_spec z : (Z.abs z <= 2^100)%Z ->
  B2R (d_of_Z z) = rnd (IZR z) /\ is_finite (d_of_Z z) = true.
Proof.
  intros Hz.
  pose proof (binary_normalize_correct prec64 emax64 _ _ mode_NE z 0 false) as H. cbv zeta in H.
  replace (F2R (Float radix2 z 0)) with (IZR z) in H by (unfold F2R; simpl; ring).
  simpl round_mode in H.
  rewrite Rlt_bool_true in H.
  - destruct H as [A [B _]]. split; assumption.
  - apply rnd_abs_bound. rewrite <- abs_IZR. now apply IZR_le.
Qed.

Lemma d_of_Z_exact z : (Z.abs z <= 2^53)%Z ->
  B2R (d_of_Z z) = IZR z /\ is_finite (d_of_Z z) = true.
Proof.
  intros Hz. destruct (d_of_Z_spec z) as [A B].
  - eapply Z.le_trans; [exact Hz|]. apply Z.pow_le_mono_r; lia.
  - split; [|exact B]. rewrite A. now apply rnd_Z.
Qed.

Lemma d_of_Z_exact_fmt z : fmt (IZR z) -> (Z.abs z <= 2^100)%Z ->
  B2R (d_of_Z z) = IZR z /\ is_finite (d_of_Z z) = true.
Proof.
  intros F Hz. destruct (d_of_Z_spec z Hz) as [A B]. split; [|exact B]. rewrite A.
  apply round_generic; [typeclasses eauto|exact F].
Qed.

Lemma d_add_spec a b : is_finite a = true -> is_finite b = true ->
  Rabs (B2R a + B2R b) <= IZR (2^100) ->
  B2R (d_add a b) = rnd (B2R a + B2R b) /\ is_finite (d_add a b) = true.
Proof.
  intros Fa Fb H. pose proof (Bplus_correct prec64 emax64 _ _ mode_NE a b Fa Fb) as C.
  simpl round_mode in C. rewrite Rlt_bool_true in C by (now apply rnd_abs_bound).
  destruct C as [A [B _]]. now split.
Qed.

Lemma d_sub_spec a b : is_finite a = true -> is_finite b = true ->
  Rabs (B2R a - B2R b) <= IZR (2^100) ->
  B2R (d_sub a b) = rnd (B2R a - B2R b) /\ is_finite (d_sub a b) = true.
Proof.
  intros Fa Fb H. pose proof (Bminus_correct prec64 emax64 _ _ mode_NE a b Fa Fb) as C.
  simpl round_mode in C. rewrite Rlt_bool_true in C by (now apply rnd_abs_bound).
  destruct C as [A [B _]]. now split.
Qed.

Lemma d_mul_spec a b : is_finite a = true -> is_finite b = true ->
  Rabs (B2R a * B2R b) <= IZR (2^100) ->
  B2R (d_mul a b) = rnd (B2R a * B2R b) /\ is_finite (d_mul a b) = true.
Proof.
  intros Fa Fb H. pose proof (Bmult_correct prec64 emax64 _ _ mode_NE a b) as C.
  simpl round_mode in C. rewrite Rlt_bool_true in C by (now apply rnd_abs_bound).
  destruct C as [A [B _]]. split; [exact A|]. unfold d_mul. now rewrite B, Fa, Fb.
Qed.

Lemma d_1e9_spec : B2R d_1e9 = 1000000000 /\ is_finite d_1e9 = true.
Proof. apply d_of_Z_exact. lia. Qed.

Lemma d_1em9_spec : is_finite d_1em9 = true /\ Rabs (B2R d_1em9 - / 1000000000) <= bpow radix2 (-83) .
Proof.
  destruct d_1e9_spec as [E9 F9].
  destruct (d_of_Z_exact 1) as [E1 F1]; [lia|].
  pose proof (Bdiv_correct prec64 emax64 _ _ mode_NE (d_of_Z 1) d_1e9) as C.
  rewrite E9, E1 in C. specialize (C ltac:(lra)). simpl round_mode in C.
  assert (B : Rabs (1 / 1000000000) < bpow radix2 (-29)).
  { rewrite Rabs_pos_eq by lra. simpl bpow. lra. }
  rewrite Rlt_bool_true in C.
  - destruct C as [A [D _]]. split; [unfold d_1em9; now rewrite D|].
    unfold d_1em9. rewrite A. replace (/ 1000000000) with (1 / 1000000000) by lra.
    apply (rnd_err (-29)); [lia|exact B].
  - apply rnd_abs_bound. rewrite Rabs_pos_eq by lra. apply Rle_trans with 1; [lra|]. apply IZR_le. lia.
Qed.

(** floor of a double *)
Lemma d_floor_spec t : is_finite t = true ->
  B2R (d_floor t) = IZR (Zfloor (B2R t)) /\ is_finite (d_floor t) = true.
Proof.
  intros F. destruct (Bnearbyint_correct prec64 emax64 _ mode_DN t) as [A [B _]].
  split; [|unfold d_floor; now rewrite B].
  unfold d_floor. rewrite A. unfold round, F2R, scaled_mantissa, cexp, FIX_exp. simpl.
  rewrite !Rmult_1_r. reflexivity.
Qed.

Lemma d_round_spec t : is_finite t = true ->
  B2R (d_round t) = IZR (ZnearestA (B2R t)) /\ is_finite (d_round t) = true.
Proof.
  intros F. destruct (Bnearbyint_correct prec64 emax64 _ mode_NA t) as [A [B _]].
  split; [|unfold d_round; now rewrite B].
  unfold d_round. rewrite A. unfold round, F2R, scaled_mantissa, cexp, FIX_exp. simpl.
  rewrite !Rmult_1_r. reflexivity.
Qed.

Lemma Btrunc_int (t : double) z : B2R t = IZR z -> Btrunc t = z.
Proof.
  intros H. apply eq_IZR. rewrite Btrunc_correct by typeclasses eauto. rewrite H.
  unfold round, F2R, scaled_mantissa, cexp, FIX_exp. simpl. rewrite !Rmult_1_r.
  now rewrite Ztrunc_IZR.
Qed.

Lemma fmt_B2R (t : double) : fmt (B2R t).
Proof. apply generic_format_B2R. Qed.

Definition q9 : R := 1000000000.

(** The complete behaviour of from_sec on finite doubles in the accepted range. *)
Lemma from_sec_spec t :
  is_finite t = true ->
  (int64_min <= Zfloor (B2R t) <= 8589934591)%Z ->
  exists n,
    (0 <= n <= 1000000000)%Z /\
    n = ZnearestA (rnd (rnd (B2R t - IZR (Zfloor (B2R t))) * 1000000000)) /\
    from_sec t = Ok (mkTs (Zfloor (B2R t) + Z.quot n 1000000000) (Z.rem n 1000000000)).
Proof.
  intros F Hr. set (x := B2R t) in *. set (f := Zfloor x) in *.
  destruct (d_floor_spec t F) as [E1 F1]. fold x in E1. fold f in E1.
  assert (Hfl : IZR f <= x < IZR f + 1) by (unfold f; split; [apply Zfloor_lb|apply Zfloor_ub]).
  assert (Tf : Btrunc (d_floor t) = f) by (now apply Btrunc_int).
  assert (Ef : B2R (d_of_Z f) = IZR f /\ is_finite (d_of_Z f) = true).
  { apply d_of_Z_exact_fmt.
    - rewrite <- E1. apply fmt_B2R.
    - unfold int64_min in Hr. lia. }
  destruct Ef as [Ef Ff].
  destruct (d_sub_spec t (d_of_Z f)) as [Es Fs]; [exact F|exact Ff| |].
  { rewrite Ef. fold x. rewrite Rabs_pos_eq by lra. apply Rle_trans with 1; [lra|]. apply IZR_le. lia. }
  rewrite Ef in Es. fold x in Es.
  assert (Bs : IZR 0 <= rnd (x - IZR f) <= IZR 1) by (apply rnd_between; [lia|lia|simpl; lra]).
  destruct d_1e9_spec as [E9 F9].
  destruct (d_mul_spec (d_sub t (d_of_Z f)) d_1e9) as [Em Fm]; [exact Fs|exact F9| |].
  { rewrite Es, E9. rewrite Rabs_pos_eq by nra. apply Rle_trans with 1000000000; [nra|]. apply IZR_le. lia. }
  rewrite Es, E9 in Em.
  assert (Bm : IZR 0 <= rnd (rnd (x - IZR f) * 1000000000) <= IZR 1000000000).
  { apply rnd_between; [lia|lia|]. nra. }
  destruct (d_round_spec _ Fm) as [En Fn]. rewrite Em in En.
  set (n := ZnearestA (rnd (rnd (x - IZR f) * 1000000000))) in *.
  assert (Hn : (0 <= n <= 1000000000)%Z).
  { unfold n. split.
    - apply Z.le_trans with (ZnearestA (IZR 0)); [rewrite (@Zrnd_IZR ZnearestA _ 0); lia|].
      apply (@Zrnd_le ZnearestA _); apply Bm.
    - apply Z.le_trans with (ZnearestA (IZR 1000000000)); [|rewrite (@Zrnd_IZR ZnearestA _ 1000000000); lia].
      apply (@Zrnd_le ZnearestA _); apply Bm. }
  exists n. split; [exact Hn|]. split; [reflexivity|].
  unfold from_sec. rewrite F. replace (is_nan t) with false by (now destruct t). cbn [andb negb].
  unfold d_to_int64. rewrite F1, Tf. cbn [andb].
  assert (I64 : in_int64 f = true).
  { unfold in_int64, int64_max. unfold int64_min in *. apply andb_true_intro; split; apply Z.leb_le; lia. }
  rewrite I64. cbn [obind].
  replace (f <=? 8589934591)%Z with true by (symmetry; apply Z.leb_le; lia).
  unfold d_to_int32. rewrite Fn, (Btrunc_int _ n En). cbn [andb].
  assert (I32 : in_int32 n = true).
  { unfold in_int32, int32_max, int32_min. apply andb_true_intro; split; apply Z.leb_le; lia. }
  rewrite I32. cbn [obind].
  assert (Hq : (0 <= Z.quot n 1000000000 <= 1)%Z).
  { rewrite Z.quot_div_nonneg by lia. split; [apply Z.div_pos; lia|]. apply Z.div_le_upper_bound; lia. }
  unfold s64. replace (in_int64 (f + Z.quot n 1000000000)) with true.
  - reflexivity.
  - symmetry. unfold in_int64, int64_max. unfold int64_min in *. apply andb_true_intro; split; apply Z.leb_le; lia.
Qed.

(** Errors in the nanosecond part. *)
Lemma ZnearestA_err x : Rabs (IZR (ZnearestA x) - x) <= / 2.
Proof. rewrite Rabs_minus_sym. apply Znearest_half. Qed.

Lemma ZnearestA_unique x n : Rabs (x - IZR n) < / 2 -> ZnearestA x = n.
Proof. apply Znearest_imp. Qed.

Lemma frac_err d : 0 <= d < 1 ->
  Rabs (rnd (rnd d * 1000000000) - d * 1000000000) <= / 4000000.
Proof.
  intros Hd.
  assert (E1 : Rabs (rnd d - d) <= bpow radix2 (0 - 54)).
  { apply rnd_err; [lia|]. rewrite Rabs_pos_eq by lra. simpl. lra. }
  assert (Bd : IZR 0 <= rnd d <= IZR 1) by (apply rnd_between; [lia|lia|simpl; lra]).
  assert (E2 : Rabs (rnd (rnd d * 1000000000) - rnd d * 1000000000) <= bpow radix2 (30 - 54)).
  { apply rnd_err; [lia|]. rewrite Rabs_pos_eq by nra. simpl bpow. nra. }
  assert (B1 : bpow radix2 (0 - 54) <= / 18000000000000000).
  { simpl bpow. lra. }
  assert (B2 : bpow radix2 (30 - 54) <= / 16000000).
  { simpl bpow. lra. }
  apply Rabs_le_inv in E1. apply Rabs_le_inv in E2. apply Rabs_le. lra.
Qed.

Definition instant (t : ts) : Z := (sec t * 1000000000 + nsec t)%Z.

Lemma from_sec_normalised t :
  is_finite t = true ->
  (int64_min <= Zfloor (B2R t) <= 8589934591)%Z ->
  exists r, from_sec t = Ok r /\ (0 <= nsec r < 1000000000)%Z /\
    Rabs (IZR (instant r) - B2R t * 1000000000) <= / 2 + / 4000000.
Proof.
  intros F Hr. destruct (from_sec_spec t F Hr) as [n [Hn [En ->]]].
  eexists; split; [reflexivity|]. cbn [nsec sec].
  split. { apply Z.rem_bound_pos; lia. }
  unfold instant; cbn [nsec sec].
  assert (Q : ((Zfloor (B2R t) + Z.quot n 1000000000) * 1000000000 + Z.rem n 1000000000 =
              Zfloor (B2R t) * 1000000000 + n)%Z).
  { pose proof (Z.quot_rem n 1000000000 ltac:(lia)). lia. }
  rewrite Q. set (x := B2R t) in *. set (f := Zfloor x) in *.
  assert (Hfl : IZR f <= x < IZR f + 1) by (unfold f; split; [apply Zfloor_lb|apply Zfloor_ub]).
  pose proof (frac_err (x - IZR f) ltac:(lra)) as E1.
  pose proof (ZnearestA_err (rnd (rnd (x - IZR f) * 1000000000))) as E2.
  rewrite <- En in E2. rewrite plus_IZR, mult_IZR.
  apply Rabs_le_inv in E1. apply Rabs_le_inv in E2. apply Rabs_le. lra.
Qed.

(** If the double is within less than half a nanosecond of a whole nanosecond count in the accepted range,
    from_sec returns the normalised timestamp of that count. *)
Lemma from_sec_exact t k :
  is_finite t = true ->
  (- 4294967296 * 1000000000 <= k <= 4294967296 * 1000000000)%Z ->
  Rabs (B2R t * 1000000000 - IZR k) < / 2 - / 4000000 ->
  from_sec t = Ok (mkTs (k / 1000000000) (k mod 1000000000)).
Proof.
  intros F Hk He. set (x := B2R t) in *.
  assert (Hfl : IZR (Zfloor x) <= x < IZR (Zfloor x) + 1) by (split; [apply Zfloor_lb|apply Zfloor_ub]).
  apply Rabs_lt_inv in He.
  assert (Hr : (int64_min <= Zfloor x <= 8589934591)%Z).
  { assert (Hkr : IZR (- 4294967296 * 1000000000) <= IZR k <= IZR (4294967296 * 1000000000))
      by (split; apply IZR_le; lia).
    rewrite !mult_IZR in Hkr.
    assert (L1 : IZR (-4294967298) < IZR (Zfloor x)) by (simpl; lra).
    assert (L2 : IZR (Zfloor x) < IZR 4294967298) by lra.
    apply lt_IZR in L1. apply lt_IZR in L2. unfold int64_min. lia. }
  destruct (from_sec_spec t F Hr) as [n [Hn [En E]]]. fold x in E, En.
  rewrite E. set (f := Zfloor x) in *.
  pose proof (frac_err (x - IZR f) ltac:(lra)) as E1. apply Rabs_le_inv in E1.
  assert (Nn : n = (k - f * 1000000000)%Z).
  { rewrite En. apply ZnearestA_unique. rewrite minus_IZR, mult_IZR. apply Rabs_def1; lra. }
  assert (D : k = (1000000000 * f + n)%Z) by lia.
  f_equal. destruct (Z.eq_dec n 1000000000) as [->|Hne].
  - rewrite D. f_equal.
    + rewrite Z.quot_same by lia. replace (1000000000 * f + 1000000000)%Z with ((f + 1) * 1000000000)%Z by lia.
      now rewrite Z.div_mul by lia.
    + rewrite Z.rem_same by lia. replace (1000000000 * f + 1000000000)%Z with ((f + 1) * 1000000000)%Z by lia.
      now rewrite Z.mod_mul by lia.
  - rewrite Z.quot_small, Z.rem_small by lia. f_equal.
    + rewrite Z.add_0_r. apply Z.div_unique with n; lia.
    + apply Z.mod_unique with f; lia.
Qed.

(** Error of to_sec: for |sec + nsec*1e-9| < 2^e. *)
Lemma to_sec_err t e :
  (Z.abs (sec t) <= 2^53)%Z -> (0 <= nsec t < 1000000000)%Z -> (1 <= e <= 54)%Z ->
  Rabs (IZR (sec t)) + 1 <= bpow radix2 e ->
  is_finite (to_sec t) = true /\
  Rabs (B2R (to_sec t) - IZR (instant t) / 1000000000) <= bpow radix2 (e - 54) + / 3000000000000000.
Proof.
  intros Hs Hn He Hb.
  destruct (d_of_Z_exact (sec t) Hs) as [Es Fs].
  destruct (d_of_Z_exact (nsec t) ltac:(lia)) as [En Fn].
  destruct d_1em9_spec as [Fc Ec].
  set (c := B2R d_1em9) in *. set (n := IZR (nsec t)) in *.
  assert (Hn' : 0 <= n <= 999999999) by (unfold n; split; apply IZR_le; lia).
  assert (Bc : bpow radix2 (-83) <= / 9000000000000000000000000). { simpl bpow. lra. }
  apply Rabs_le_inv in Ec.
  assert (P0 : 0 <= c * n) by nra.
  assert (P1 : c * n - n / 1000000000 <= / 9000000000000000) by nra.
  assert (P1' : - / 9000000000000000 <= c * n - n / 1000000000) by nra.
  assert (P2 : c * n < 1) by nra.
  destruct (d_mul_spec d_1em9 (d_of_Z (nsec t)) Fc Fn) as [Em Fm].
  { rewrite En. fold c n. rewrite Rabs_pos_eq by exact P0. apply Rle_trans with 1; [lra|]. apply IZR_le. lia. }
  rewrite En in Em. fold c n in Em.
  assert (E1 : Rabs (rnd (c * n) - c * n) <= bpow radix2 (0 - 54)).
  { apply rnd_err; [lia|]. rewrite Rabs_pos_eq by lra. simpl. lra. }
  assert (B1 : bpow radix2 (0 - 54) <= / 18000000000000000). { simpl bpow. lra. }
  apply Rabs_le_inv in E1.
  assert (PB : IZR 0 <= rnd (c * n) <= IZR 1) by (apply rnd_between; [lia|lia|simpl; lra]).
  assert (PB2 : rnd (c * n) < 1) by lra.
  assert (SB : Rabs (IZR (sec t) + rnd (c * n)) < bpow radix2 e).
  { eapply Rle_lt_trans; [apply Rabs_triang|]. rewrite (Rabs_pos_eq (rnd _)) by lra. lra. }
  destruct (d_add_spec (d_of_Z (sec t)) (d_mul d_1em9 (d_of_Z (nsec t))) Fs Fm) as [Ea Fa].
  { rewrite Es, Em. apply Rlt_le. eapply Rlt_le_trans; [exact SB|].
    change (IZR (2^100)) with (bpow radix2 100). apply bpow_le. lia. }
  rewrite Es, Em in Ea.
  pose proof (rnd_err e _ ltac:(lia) SB) as E2. apply Rabs_le_inv in E2.
  split; [exact Fa|]. unfold to_sec. rewrite Ea. unfold instant.
  rewrite plus_IZR, mult_IZR. fold n. apply Rabs_le. lra.
Qed.

(** to_sec then from_sec is the identity for 0 <= sec < 2^23. *)
Lemma to_from_sec t :
  (0 <= sec t < 2^23)%Z -> (0 <= nsec t < 1000000000)%Z -> from_sec (to_sec t) = Ok t.
Proof.
  intros Hs Hn.
  destruct (to_sec_err t 23) as [F E]; [lia|lia|lia| |].
  { rewrite <- abs_IZR. change (bpow radix2 23) with (IZR (2^23)). rewrite <- plus_IZR. apply IZR_le. lia. }
  assert (B : bpow radix2 (23 - 54) <= / 2140000000) by (simpl bpow; lra).
  rewrite (from_sec_exact (to_sec t) (instant t) F).
  - unfold instant. destruct t as [s n]; cbn [sec nsec] in *.
    rewrite Z.add_comm, Z.div_add, Z.mod_add by lia.
    rewrite Z.div_small, Z.mod_small by lia. reflexivity.
  - unfold instant. lia.
  - apply Rabs_le_inv in E. apply Rabs_def1; lra.
Qed.

Lemma ts_add_exact a b :
  (0 <= sec a < 2^21)%Z -> (0 <= nsec a < 1000000000)%Z ->
  (0 <= sec b < 2^21)%Z -> (0 <= nsec b < 1000000000)%Z ->
  let k := (instant a + instant b)%Z in
  ts_add a b = Ok (mkTs (k / 1000000000) (k mod 1000000000)).
Proof.
  intros Hsa Hna Hsb Hnb k.
  assert (G : forall t, (0 <= sec t < 2^21)%Z -> Rabs (IZR (sec t)) + 1 <= bpow radix2 21).
  { intros t Ht. rewrite <- abs_IZR. change (bpow radix2 21) with (IZR (2^21)).
    rewrite <- plus_IZR. apply IZR_le. lia. }
  destruct (to_sec_err a 21) as [Fa Ea]; [lia|lia|lia|now apply G|].
  destruct (to_sec_err b 21) as [Fb Eb]; [lia|lia|lia|now apply G|].
  assert (B : bpow radix2 (21 - 54) <= / 8580000000) by (simpl bpow; lra).
  assert (Ia : 0 <= IZR (instant a) / 1000000000 <= 2097152 - / 1000000000).
  { assert (IZR 0 <= IZR (instant a) <= IZR (2097152*1000000000 - 1)) by (split; apply IZR_le; unfold instant; lia).
    rewrite minus_IZR, mult_IZR in H. lra. }
  assert (Ib : 0 <= IZR (instant b) / 1000000000 <= 2097152 - / 1000000000).
  { assert (IZR 0 <= IZR (instant b) <= IZR (2097152*1000000000 - 1)) by (split; apply IZR_le; unfold instant; lia).
    rewrite minus_IZR, mult_IZR in H. lra. }
  apply Rabs_le_inv in Ea. apply Rabs_le_inv in Eb.
  assert (S : Rabs (B2R (to_sec a) + B2R (to_sec b)) < bpow radix2 22).
  { simpl bpow. apply Rabs_def1; lra. }
  destruct (d_add_spec _ _ Fa Fb) as [Es Fs].
  { apply Rlt_le. eapply Rlt_le_trans; [exact S|]. change (IZR (2^100)) with (bpow radix2 100). apply bpow_le. lia. }
  pose proof (rnd_err 22 _ ltac:(lia) S) as E2. rewrite <- Es in E2. apply Rabs_le_inv in E2.
  assert (B2 : bpow radix2 (22 - 54) <= / 4290000000) by (simpl bpow; lra).
  unfold ts_add. apply from_sec_exact; [exact Fs| |].
  - unfold k, instant. lia.
  - unfold k. rewrite plus_IZR. apply Rabs_def1; lra.
Qed.

Lemma ts_sub_exact a b :
  (0 <= sec a < 2^21)%Z -> (0 <= nsec a < 1000000000)%Z ->
  (0 <= sec b < 2^21)%Z -> (0 <= nsec b < 1000000000)%Z ->
  let k := (instant a - instant b)%Z in
  ts_sub a b = Ok (mkTs (k / 1000000000) (k mod 1000000000)).
Proof.
  intros Hsa Hna Hsb Hnb k.
  assert (G : forall t, (0 <= sec t < 2^21)%Z -> Rabs (IZR (sec t)) + 1 <= bpow radix2 21).
  { intros t Ht. rewrite <- abs_IZR. change (bpow radix2 21) with (IZR (2^21)).
    rewrite <- plus_IZR. apply IZR_le. lia. }
  destruct (to_sec_err a 21) as [Fa Ea]; [lia|lia|lia|now apply G|].
  destruct (to_sec_err b 21) as [Fb Eb]; [lia|lia|lia|now apply G|].
  assert (B : bpow radix2 (21 - 54) <= / 8580000000) by (simpl bpow; lra).
  assert (Ia : 0 <= IZR (instant a) / 1000000000 <= 2097152 - / 1000000000).
  { assert (IZR 0 <= IZR (instant a) <= IZR (2097152*1000000000 - 1)) by (split; apply IZR_le; unfold instant; lia).
    rewrite minus_IZR, mult_IZR in H. lra. }
  assert (Ib : 0 <= IZR (instant b) / 1000000000 <= 2097152 - / 1000000000).
  { assert (IZR 0 <= IZR (instant b) <= IZR (2097152*1000000000 - 1)) by (split; apply IZR_le; unfold instant; lia).
    rewrite minus_IZR, mult_IZR in H. lra. }
  apply Rabs_le_inv in Ea. apply Rabs_le_inv in Eb.
  assert (S : Rabs (B2R (to_sec a) - B2R (to_sec b)) < bpow radix2 22).
  { simpl bpow. apply Rabs_def1; lra. }
  destruct (d_sub_spec _ _ Fa Fb) as [Es Fs].
  { apply Rlt_le. eapply Rlt_le_trans; [exact S|]. change (IZR (2^100)) with (bpow radix2 100). apply bpow_le. lia. }
  pose proof (rnd_err 22 _ ltac:(lia) S) as E2. rewrite <- Es in E2. apply Rabs_le_inv in E2.
  assert (B2 : bpow radix2 (22 - 54) <= / 4290000000) by (simpl bpow; lra).
  unfold ts_sub. apply from_sec_exact; [exact Fs| |].
  - unfold k, instant. lia.
  - unfold k. rewrite minus_IZR. apply Rabs_def1; lra.
Qed.

(** NaN, infinities and large values give the zero timestamp; very large finite values are undefined. *)
Lemma from_sec_nonfinite t : is_finite t = false -> from_sec t = Ok ts_zero.
Proof. intros F. unfold from_sec. now rewrite F. Qed.

Lemma d_floor_int t : is_finite t = true -> Btrunc (d_floor t) = Zfloor (B2R t) /\ is_finite (d_floor t) = true.
Proof. intros F. destruct (d_floor_spec t F) as [A B]. split; [now apply Btrunc_int|exact B]. Qed.

Lemma from_sec_large t : is_finite t = true -> (8589934591 < Zfloor (B2R t) <= int64_max)%Z ->
  from_sec t = Ok ts_zero.
Proof.
  intros F H. unfold from_sec. rewrite F. replace (is_nan t) with false by (now destruct t). cbn [andb negb].
  destruct (d_floor_int t F) as [A B]. unfold d_to_int64. rewrite A, B. cbn [andb].
  replace (in_int64 (Zfloor (B2R t))) with true.
  - cbn [obind]. replace (_ <=? _)%Z with false; [reflexivity|]. symmetry. apply Z.leb_gt. lia.
  - symmetry. unfold in_int64, int64_min. apply andb_true_intro; split; apply Z.leb_le; lia.
Qed.

Lemma from_sec_out_of_range t : is_finite t = true ->
  (Zfloor (B2R t) < int64_min \/ int64_max < Zfloor (B2R t))%Z ->
  from_sec t = UB FloatToIntRange.
Proof.
  intros F H. unfold from_sec. rewrite F. replace (is_nan t) with false by (now destruct t). cbn [andb negb].
  destruct (d_floor_int t F) as [A B]. unfold d_to_int64. rewrite A, B. cbn [andb].
  replace (in_int64 (Zfloor (B2R t))) with false; [reflexivity|].
  symmetry. unfold in_int64. apply andb_false_iff. destruct H; [left|right]; apply Z.leb_gt; lia.
Qed.

(** Subtracting a timestamp from itself gives zero, for every timestamp. *)
Lemma to_sec_finite t : (in_int64 (sec t) = true) -> in_int32 (nsec t) = true -> is_finite (to_sec t) = true.
Proof.
  intros Hs Hn. unfold in_int64, in_int32, int64_min, int64_max, int32_min, int32_max in *.
  apply andb_prop in Hs. apply andb_prop in Hn. destruct Hs as [S1 S2], Hn as [N1 N2].
  apply Z.leb_le in S1, S2, N1, N2.
  destruct (d_of_Z_spec (sec t)) as [Es Fs]; [lia|].
  destruct (d_of_Z_exact (nsec t)) as [En Fn]; [lia|].
  destruct d_1em9_spec as [Fc Ec]. apply Rabs_le_inv in Ec.
  assert (Bc : bpow radix2 (-83) <= / 9000000000000000000000000). { simpl bpow. lra. }
  assert (Hn : IZR (-2147483648) <= IZR (nsec t) <= IZR 2147483647) by (split; apply IZR_le; lia).
  assert (M : Rabs (B2R d_1em9 * IZR (nsec t)) <= 3).
  { apply Rabs_le. simpl in Hn. nra. }
  destruct (d_mul_spec d_1em9 (d_of_Z (nsec t)) Fc Fn) as [Em Fm].
  { rewrite En. eapply Rle_trans; [exact M|]. apply IZR_le. lia. }
  rewrite En in Em.
  apply Rabs_le_inv in M.
  assert (M2 : IZR (-3) <= B2R (d_mul d_1em9 (d_of_Z (nsec t))) <= IZR 3).
  { rewrite Em. apply rnd_between; [lia|lia|lra]. }
  assert (Sb : Rabs (B2R (d_of_Z (sec t))) <= bpow radix2 64).
  { rewrite Es. apply abs_round_le_generic; [typeclasses eauto|typeclasses eauto| |].
    - apply generic_format_bpow. rewrite fexp64_eq. lia.
    - rewrite <- abs_IZR. change (bpow radix2 64) with (IZR (2^64)). apply IZR_le. lia. }
  destruct (d_add_spec (d_of_Z (sec t)) (d_mul d_1em9 (d_of_Z (nsec t))) Fs Fm) as [_ Fa]; [|exact Fa].
  eapply Rle_trans; [apply Rabs_triang|].
  assert (Rabs (B2R (d_mul d_1em9 (d_of_Z (nsec t)))) <= 3) by (apply Rabs_le; lra).
  change (IZR (2^100)) with (bpow radix2 100).
  assert (bpow radix2 64 + 3 <= bpow radix2 100).
  { change (bpow radix2 64) with (IZR (2^64)). change (bpow radix2 100) with (IZR (2^100)).
    rewrite <- plus_IZR. apply IZR_le. lia. }
  lra.
Qed.

Lemma ts_sub_self t : in_int64 (sec t) = true -> in_int32 (nsec t) = true -> ts_sub t t = Ok ts_zero.
Proof.
  intros Hs Hn. pose proof (to_sec_finite t Hs Hn) as F.
  destruct (d_sub_spec (to_sec t) (to_sec t) F F) as [E Fs].
  { replace (_ - _) with 0 by ring. rewrite Rabs_R0. apply IZR_le. lia. }
  replace (B2R (to_sec t) - B2R (to_sec t)) with (IZR 0) in E by (simpl; ring).
  rewrite rnd_Z in E by lia.
  unfold ts_sub. rewrite (from_sec_exact _ 0 Fs); [reflexivity|lia|].
  rewrite E, Rmult_0_l. replace (0 - 0) with 0 by ring. rewrite Rabs_R0. lra.
Qed.
