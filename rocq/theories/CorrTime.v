(** Double-precision arithmetic of check_correction_horizon: the middle of the correction history. *)
From Coq Require Import ZArith List Bool Reals Lra Lia.
From Flocq Require Import Core IEEE754.BinarySingleNaN.
From Verif Require Import Outcome TimestampModel DoubleModel Spec_Time TimestampProofs DoubleProofs BufModel Spec_Buf BufProofs HorizonModel HorizonProofs HandlerModel.
Local Open Scope R_scope.

Lemma d_half_spec : B2R d_half = / 2 /\ is_finite d_half = true.
Proof.
  destruct (d_of_Z_exact 1) as [E1 F1]; [lia|]. destruct (d_of_Z_exact 2) as [E2 F2]; [lia|].
  pose proof (Bdiv_correct prec64 emax64 _ _ mode_NE (d_of_Z 1) (d_of_Z 2)) as C.
  rewrite E2, E1 in C. specialize (C ltac:(lra)). simpl round_mode in C.
  assert (X : rnd (1 / 2) = / 2).
  { replace (1 / 2) with (bpow radix2 (-1)) by (simpl; lra). replace (/ 2) with (bpow radix2 (-1)) by (simpl; lra).
    apply round_generic; [typeclasses eauto|]. apply generic_format_bpow. vm_compute. discriminate. }
  rewrite Rlt_bool_true in C.
  - destruct C as [A [D _]]. split; [unfold d_half; rewrite A; exact X|]. unfold d_half. now rewrite D.
  - apply rnd_abs_bound. rewrite Rabs_pos_eq by lra. apply Rle_trans with 1; [lra|]. apply IZR_le. lia.
Qed.

Lemma half_near h hz : h_near h hz -> (0 <= hz < 2097151 * 1000000000)%Z ->
  is_finite (d_mul h d_half) = true /\ Rabs (B2R (d_mul h d_half) * 1000000000 - IZR hz / 2) <= 7 / 40.
Proof.
  intros [Fh Eh] Hh. destruct d_half_spec as [V FV]. apply Rabs_le_inv in Eh.
  assert (Rh : 0 <= IZR hz <= 2097151 * 1000000000) by (split; [apply IZR_le; lia|rewrite <- mult_IZR; apply IZR_le; lia]).
  destruct (d_mul_spec h d_half Fh FV) as [E Ff].
  { rewrite V. apply Rabs_le. assert (2097152 <= IZR (2^100)) by (apply IZR_le; lia). lra. }
  split; [exact Ff|]. rewrite E, V.
  assert (R : Rabs (rnd (B2R h * / 2) - B2R h * / 2) <= / 8000000000).
  { apply rnd_err21. change (bpow radix2 21) with 2097152. apply Rabs_lt. lra. }
  apply Rabs_le_inv in R. apply Rabs_le. lra.
Qed.

(** Timestamp(oldest.to_sec() + half_horizon) *)
Lemma mid_key h hh o : h_near h (2 * hh) -> (0 <= hh)%Z -> (2 * hh < 2097151 * 1000000000)%Z -> (0 <= o)%Z -> (o + hh < 2097151 * 1000000000)%Z ->
  from_sec (d_add (to_sec (from_stamp_ns o)) (d_mul h d_half)) = Ok (ts_of_instant (o + hh)).
Proof.
  intros N H0 Hh Ho Hb. destruct (half_near h (2 * hh) N ltac:(lia)) as [Fm Em].
  destruct (to_sec_ns_err o ltac:(lia)) as [Fa Ea].
  apply Rabs_le_inv in Em, Ea. rewrite mult_IZR in Em.
  assert (Ro : 0 <= IZR o) by (apply IZR_le; lia). assert (Rh : 0 <= IZR hh) by (apply IZR_le; lia).
  assert (Rs : IZR o + IZR hh <= 2097151 * 1000000000) by (rewrite <- plus_IZR, <- mult_IZR; apply IZR_le; lia).
  set (x := B2R (to_sec (from_stamp_ns o))) in *. set (y := B2R (d_mul h d_half)) in *.
  assert (D : -2097152 < x + y < 2097152) by (split; lra).
  destruct (d_add_spec _ _ Fa Fm) as [E Ff].
  { fold x y. apply Rabs_le. assert (2097152 <= IZR (2^100)) by (apply IZR_le; lia). lra. }
  fold x y in E.
  assert (R : Rabs (rnd (x + y) - (x + y)) <= / 8000000000).
  { apply rnd_err21. change (bpow radix2 21) with 2097152. apply Rabs_lt. lra. }
  apply Rabs_le_inv in R. apply from_sec_exact; [exact Ff|lia|].
  rewrite E, plus_IZR. apply Rabs_lt. lra.
Qed.

(** the condition cur_horizon > half_horizon *)
Lemma half_span h hh a b : h_near h (2 * hh) -> (0 <= hh)%Z -> (2 * hh < 2097151 * 1000000000)%Z ->
  (0 <= a < 2097151 * 1000000000)%Z -> (0 <= b < 2097151 * 1000000000)%Z ->
  let c := Bltb (d_mul h d_half) (d_sub (to_sec (from_stamp_ns a)) (to_sec (from_stamp_ns b))) in
  ((hh < a - b)%Z -> c = true) /\ (c = true -> (hh <= a - b)%Z).
Proof.
  intros N H0 Hh Ha Hb. destruct (half_near h (2 * hh) N ltac:(lia)) as [Fm Em].
  destruct (to_sec_ns_err a ltac:(lia)) as [Fa Ea], (to_sec_ns_err b ltac:(lia)) as [Fb Eb].
  apply Rabs_le_inv in Em, Ea, Eb. rewrite mult_IZR in Em.
  assert (Ra : 0 <= IZR a <= 2097151 * 1000000000) by (split; [apply IZR_le; lia|rewrite <- mult_IZR; apply IZR_le; lia]).
  assert (Rb : 0 <= IZR b <= 2097151 * 1000000000) by (split; [apply IZR_le; lia|rewrite <- mult_IZR; apply IZR_le; lia]).
  set (x := B2R (to_sec (from_stamp_ns a))) in *. set (z := B2R (to_sec (from_stamp_ns b))) in *. set (y := B2R (d_mul h d_half)) in *.
  assert (D : -2097152 < x - z < 2097152) by (split; lra).
  destruct (d_sub_spec _ _ Fa Fb) as [E Ff].
  { fold x z. apply Rabs_le. assert (2097152 <= IZR (2^100)) by (apply IZR_le; lia). lra. }
  fold x z in E.
  assert (R : Rabs (rnd (x - z) - (x - z)) <= / 8000000000).
  { apply rnd_err21. change (bpow radix2 21) with 2097152. apply Rabs_lt. lra. }
  apply Rabs_le_inv in R. cbv zeta. rewrite Bltb_correct by assumption. fold y. rewrite E. split.
  - intros L. assert (RL : IZR hh + 1 <= IZR a - IZR b) by (rewrite <- minus_IZR, <- plus_IZR; apply IZR_le; lia).
    apply Rlt_bool_true. lra.
  - intros L. destruct (Z_le_gt_dec hh (a - b)) as [H|H]; [exact H|]. exfalso. revert L.
    assert (RL : IZR a - IZR b + 1 <= IZR hh) by (rewrite <- minus_IZR, <- plus_IZR; apply IZR_le; lia).
    rewrite Rlt_bool_false; [discriminate|lra].
Qed.

(** a whole number of seconds as a horizon *)
Lemma near_int k : (Z.abs k <= 2^53)%Z -> h_near (d_of_Z k) (k * 1000000000).
Proof.
  intros H. destruct (d_of_Z_exact k H) as [E Ff]. split; [exact Ff|]. rewrite E, mult_IZR.
  replace (IZR k * 1000000000 - IZR k * IZR 1000000000)%R with 0%R by (simpl; ring). rewrite Rabs_R0. lra.
Qed.
