(** The clock of the first shipped example's estimator: one prediction and any number of them. *)
From Coq Require Import ZArith List Reals Lra Lia Bool.
From Flocq Require Import Core IEEE754.BinarySingleNaN.
From Verif Require Import Outcome TimestampModel DoubleModel Spec_Time TimestampProofs DoubleProofs.
From Verif Require Import BufModel Spec_Buf BufProofs HorizonModel HorizonProofs EpochProofs LinModel.
Import ListNotations.
Local Open Scope R_scope.

(** the sum that is handed to the Timestamp, in nanoseconds: [e] bounds its magnitude *)
Lemma sum_err (e : Z) t (dt : double) : (1 <= e <= 32)%Z -> (0 <= t < epoch_max)%Z -> is_finite dt = true -> 0 <= B2R dt ->
  IZR t / 1000000000 + B2R dt + 2 <= bpow radix2 e ->
  let d := d_add (to_sec (from_stamp_ns t)) dt in
  is_finite d = true /\ 0 <= B2R d /\ Rabs (B2R d * 1000000000 - (IZR t + B2R dt * 1000000000)) <= 2000000000 * bpow radix2 (e - 54) + / 2000000.
Proof.
  intros He Ht Fd Pd B. destruct (from_ns_31 t Ht) as [S [N I]]. destruct (nonneg_31 t Ht) as [_ [X0 _]]. set (T := from_stamp_ns t) in *.
  assert (It : IZR t = IZR (sec T) * 1000000000 + IZR (nsec T)) by (rewrite <- I; unfold instant_ns, giga; rewrite plus_IZR, mult_IZR; lra).
  assert (Ns : (0 <= nsec T < 1000000000)%Z) by (unfold normalised, giga in N; lia).
  assert (Ns' : 0 <= IZR (nsec T)) by (apply IZR_le; lia). assert (Ss : 0 <= IZR (sec T)) by (apply IZR_le; lia).
  assert (P0 : 0 <= IZR t / 1000000000) by (rewrite It; lra).
  destruct (to_sec_err T e) as [F E]; [lia|exact Ns|lia|rewrite Rabs_pos_eq by lra; rewrite It in B; lra|].
  change (IZR (instant T)) with (IZR (instant_ns T)) in E. rewrite I in E. apply Rabs_le_inv in E.
  assert (Q : bpow radix2 (e - 54) <= / 4194304). { change (/ 4194304) with (bpow radix2 (-22)). apply bpow_le. lia. }
  assert (BE : bpow radix2 e <= 4294967296). { change 4294967296 with (bpow radix2 32). apply bpow_le. lia. }
  set (x := B2R (to_sec T)) in *.
  assert (X : Rabs (x + B2R dt) < bpow radix2 e) by (apply Rabs_def1; lra).
  destruct (d_add_spec _ _ F Fd) as [E2 F2].
  { fold x. apply Rlt_le. eapply Rlt_le_trans; [exact X|]. change (IZR (2 ^ 100)) with (bpow radix2 100). apply bpow_le. lia. }
  fold x in E2. pose proof (rnd_err e _ ltac:(lia) X) as R1. apply Rabs_le_inv in R1.
  split; [exact F2|]. split; [|rewrite E2; apply Rabs_le; lra].
  rewrite E2. assert (Z0 : rnd 0 = 0) by exact (rnd_Z 0 ltac:(lia)). rewrite <- Z0. apply rnd_le. lra.
Qed.
(** one prediction *)
Lemma step_err (e : Z) t (dt : double) : (1 <= e <= 32)%Z -> (0 <= t < epoch_max)%Z -> is_finite dt = true -> 0 <= B2R dt ->
  IZR t / 1000000000 + B2R dt + 2 <= bpow radix2 e ->
  exists t', lin_time dt t = Ok t' /\ (0 <= t')%Z /\ Rabs (IZR t' - (IZR t + B2R dt * 1000000000)) <= 2000000000 * bpow radix2 (e - 54) + / 2 + / 1000000.
Proof.
  intros He Ht Fd Pd B. destruct (sum_err e t dt He Ht Fd Pd B) as [F2 [D0 E]]. set (d := d_add _ dt) in *.
  assert (BE : bpow radix2 e <= 4294967296). { change 4294967296 with (bpow radix2 32). apply bpow_le. lia. }
  assert (Q : bpow radix2 (e - 54) <= / 4194304). { change (/ 4194304) with (bpow radix2 (-22)). apply bpow_le. lia. }
  assert (P0 : 0 <= IZR t) by (apply IZR_le; lia). apply Rabs_le_inv in E.
  destruct (back d (B2R d * 1000000000) 0 F2) as [r [Er [Nr [Sr Br]]]]; [apply Rabs_le; lra|rewrite Rminus_eq_0, Rabs_R0; lra|lra|].
  apply Rabs_le_inv in Br. exists (instant_ns r). unfold lin_time. fold d. rewrite Er. cbn [obind]. split; [exact Sr|]. split.
  - assert (A : IZR (-1) < IZR (instant_ns r)) by lra. apply lt_IZR in A. lia.
  - apply Rabs_le. lra.
Qed.
(** a whole number of nanoseconds per prediction, below 2^21 s *)
Lemma step_exact t k (dt : double) : (0 <= t)%Z -> (0 <= k)%Z -> (t + k + 3 * 1000000000 <= 2 ^ 21 * 1000000000)%Z -> is_finite dt = true -> 0 <= B2R dt ->
  Rabs (B2R dt * 1000000000 - IZR k) <= / 8 -> lin_time dt t = Ok (t + k)%Z.
Proof.
  intros Ht Hk B Fd Pd E. apply Rabs_le_inv in E.
  assert (BR : IZR t + IZR k + 3 * 1000000000 <= 2097152 * 1000000000) by (rewrite <- !mult_IZR, <- !plus_IZR; apply IZR_le; lia).
  destruct (sum_err 21 t dt) as [F2 [_ S]]; [lia|unfold epoch_max; lia|exact Fd|exact Pd| |].
  { change (bpow radix2 21) with 2097152. lra. }
  set (d := d_add _ dt) in *. apply Rabs_le_inv in S. assert (Q : 2000000000 * bpow radix2 (21 - 54) <= 233 / 1000) by (simpl bpow; lra).
  unfold lin_time. fold d. rewrite (from_sec_exact d (t + k) F2); [|lia|rewrite plus_IZR; apply Rabs_def1; lra].
  cbn [obind]. rewrite stamp_ns_in_range.
  - unfold instant_ns, giga. cbn [sec nsec]. f_equal. rewrite Z.mul_comm. symmetry. apply Z.div_mod. lia.
  - unfold normalised, giga. cbn [nsec]. apply Z.mod_pos_bound. lia.
  - cbn [sec]. split; [apply Z.le_trans with 0%Z; [lia|apply Z.div_pos; lia]|apply Z.div_le_upper_bound; lia].
Qed.
