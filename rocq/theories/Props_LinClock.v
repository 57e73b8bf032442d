(** C105: the clock of the first shipped example's estimator (the timestamps its predictions give their beliefs). *)
From Coq Require Import ZArith List Reals Lra Lia Bool.
From Flocq Require Import Core IEEE754.BinarySingleNaN.
From Verif Require Import Outcome TimestampModel DoubleModel Spec_Time TimestampProofs DoubleProofs EpochProofs LinModel LinProofs.
Import ListNotations.
Local Open Scope outcome_scope.
Local Open Scope R_scope.

(** the time after n predictions from t *)
Fixpoint ticks (dt : double) (n : nat) (t : Z) : outcome Z :=
  match n with O => Ok t | S n => let! t' := lin_time dt t in ticks dt n t' end.

(** a finite, nonnegative step within 1/8 ns of k ns *)
Definition step_of (dt : double) (k : Z) : Prop := is_finite dt = true /\ 0 <= B2R dt /\ Rabs (B2R dt * 1000000000 - IZR k) <= / 8.
(** a step that is (nearly) k ns long advances the clock by exactly k ns, any number of times, up to 24 days *)
Theorem C105_clock_exact : forall (dt : double) k n t, step_of dt k ->
  (0 <= t)%Z -> (0 <= k)%Z -> (t + Z.of_nat n * k + 3 * 1000000000 <= 2 ^ 21 * 1000000000)%Z -> ticks dt n t = Ok (t + Z.of_nat n * k)%Z.
Proof.
  intros dt k n t [F [P E]] Ht Hk. revert t Ht. induction n as [|n IH]; intros t Ht B; cbn [ticks]; [f_equal; lia|].
  rewrite (step_exact t k dt Ht Hk) by (assumption || nia). cbn [obind]. rewrite IH by nia. f_equal. lia.
Qed.
(** the step of an undefined system is 0: the clock stands still *)
Theorem C105_clock_zero : forall t, (0 <= t)%Z -> (t + 3 * 1000000000 <= 2 ^ 21 * 1000000000)%Z -> lin_time (d_of_Z 0) t = Ok t.
Proof.
  intros t Ht B. rewrite <- (Z.add_0_r t) at 2. apply step_exact; try lia; [reflexivity|simpl; lra|].
  simpl. rewrite Rmult_0_l, Rminus_0_r, Rabs_R0. lra.
Qed.
(** any other step: at most 1.5 ns of drift per prediction below 2^23 s *)
Theorem C105_clock_drift : forall (dt : double) n t, is_finite dt = true -> 0 <= B2R dt -> (0 <= t)%Z ->
  IZR t + INR n * (B2R dt * 1000000000 + 3 / 2) + 2000000000 <= 8388608 * 1000000000 ->
  exists t', ticks dt n t = Ok t' /\ (0 <= t')%Z /\ Rabs (IZR t' - (IZR t + INR n * (B2R dt * 1000000000))) <= INR n * (3 / 2).
Proof.
  intros dt n t F P. revert t. induction n as [|n IH]; intros t Ht B; cbn [ticks].
  { exists t. split; [reflexivity|]. split; [exact Ht|]. simpl INR. rewrite !Rmult_0_l, Rplus_0_r, Rminus_eq_0, Rabs_R0. lra. }
  rewrite S_INR in *. pose proof (pos_INR n) as Pn. assert (P0 : 0 <= IZR t) by (apply IZR_le; lia).
  assert (Q : 0 <= INR n * (B2R dt * 1000000000 + 3 / 2)) by (apply Rmult_le_pos; lra).
  destruct (step_err 23 t dt) as [t1 [E1 [N1 B1]]]; [lia| |exact F|exact P| |].
  { split; [exact Ht|]. apply lt_IZR. unfold epoch_max. rewrite mult_IZR. lra. }
  { change (bpow radix2 23) with 8388608. lra. }
  assert (S23 : 2000000000 * bpow radix2 (23 - 54) <= 94 / 100) by (simpl bpow; lra). apply Rabs_le_inv in B1.
  destruct (IH t1 N1) as [t' [E' [N' B']]]; [lra|]. apply Rabs_le_inv in B'.
  exists t'. rewrite E1. cbn [obind]. split; [exact E'|]. split; [exact N'|]. apply Rabs_le. lra.
Qed.
(** at most 240 ns per prediction until 2038 *)
Theorem C105_clock_epoch : forall (dt : double) n t, is_finite dt = true -> 0 <= B2R dt -> (0 <= t)%Z ->
  IZR t + INR n * (B2R dt * 1000000000 + 240) + 3000000000 <= 2147483647 * 1000000000 ->
  exists t', ticks dt n t = Ok t' /\ (0 <= t')%Z /\ Rabs (IZR t' - (IZR t + INR n * (B2R dt * 1000000000))) <= INR n * 240.
Proof.
  intros dt n t F P. revert t. induction n as [|n IH]; intros t Ht B; cbn [ticks].
  { exists t. split; [reflexivity|]. split; [exact Ht|]. simpl INR. rewrite !Rmult_0_l, Rplus_0_r, Rminus_eq_0, Rabs_R0. lra. }
  rewrite S_INR in *. pose proof (pos_INR n) as Pn. assert (P0 : 0 <= IZR t) by (apply IZR_le; lia).
  assert (Q : 0 <= INR n * (B2R dt * 1000000000 + 240)) by (apply Rmult_le_pos; lra).
  destruct (step_err 31 t dt) as [t1 [E1 [N1 B1]]]; [lia| |exact F|exact P| |].
  { split; [exact Ht|]. apply lt_IZR. unfold epoch_max. rewrite mult_IZR. lra. }
  { change (bpow radix2 31) with 2147483648. lra. }
  assert (S31 : 2000000000 * bpow radix2 (31 - 54) <= 239) by (simpl bpow; lra). apply Rabs_le_inv in B1.
  destruct (IH t1 N1) as [t' [E' [N' B']]]; [lra|]. apply Rabs_le_inv in B'.
  exists t'. rewrite E1. cbn [obind]. split; [exact E'|]. split; [exact N'|]. apply Rabs_le. lra.
Qed.

(** 10 ms, as the example computes it for 100 Hz: 1.0 / 100 *)
Definition ms10 : double := Bdiv mode_NE (d_of_Z 1) (d_of_Z 100).
Example C105_clock_example : step_of ms10 10000000 /\
  ticks ms10 100 0 = Ok 1000000000%Z.
Proof.
  assert (F : is_finite ms10 = true) by (vm_compute; reflexivity).
  assert (V : B2R ms10 = F2R (Float radix2 5764607523034235 (-59))) by (vm_compute; reflexivity).
  assert (D : B2R ms10 = 5764607523034235 * / 576460752303423488) by (rewrite V; unfold F2R; simpl; lra).
  assert (E : Rabs (B2R ms10 * 1000000000 - IZR 10000000) <= / 8) by (rewrite D; apply Rabs_le; lra).
  assert (P : 0 <= B2R ms10) by (rewrite D; lra).
  assert (St : step_of ms10 10000000) by (repeat split; assumption). split; [exact St|].
  exact (C105_clock_exact ms10 10000000 100 0 St ltac:(lia) ltac:(lia) ltac:(lia)).
Qed.
(** at today's epoch times a step of 100 ns gets lost: the clock stands still *)
Example C105_clock_stuck : lin_time (d_mul (d_of_Z 100) d_1em9) 1720712106123456717 = Ok 1720712106123456717%Z.
Proof. vm_compute. reflexivity. Qed.
Print Assumptions C105_clock_exact.
Print Assumptions C105_clock_drift.
Print Assumptions C105_clock_epoch.
Print Assumptions C105_clock_zero.
