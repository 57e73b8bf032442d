(** C108: the trajectories of the example programs are motions, sampled at equidistant times. *)
From Coq Require Import Reals ZArith List Lia Lra.
From Verif Require Import Outcome TrajModel.
Import ListNotations.
Local Open Scope R_scope.

(** ** counting samples *)
Lemma int_part_nonneg x : 0 <= x -> (0 <= Int_part x)%Z.
Proof.
intros H; pose proof (base_Int_part x) as [H1 H2].
enough (-1 < Int_part x)%Z by lia. apply lt_IZR. lra.
Qed.
Lemma count_spec x y : 0 < y -> 0 <= x -> x / y + 1 < IZR (2 ^ 64) ->
  exists k, count_of x y = Ok (S k) /\ INR k * y <= x < INR (S k) * y.
Proof.
intros Hy Hx Hs. unfold count_of, to_size.
assert (Hq : 0 <= x / y) by (apply Rmult_le_pos; [lra | left; apply Rinv_0_lt_compat; lra]).
destruct (Req_EM_T y 0) as [E|_]; [lra|].
destruct (Rlt_dec (-1) (x / y + 1)) as [_|N]; [|lra].
destruct (Rlt_dec (x / y + 1) (IZR (2 ^ 64))) as [_|N]; [|lra].
destruct (Rlt_dec (x / y + 1) 0) as [N|_]; [lra|].
pose proof (base_Int_part (x / y + 1)) as [H1 H2].
assert (Hi : (1 <= Int_part (x / y + 1))%Z).
{ enough (0 < Int_part (x / y + 1))%Z by lia. apply lt_IZR. simpl (IZR 0). lra. }
set (z := Int_part (x / y + 1)) in *.
exists (Z.to_nat (z - 1)). split; [f_equal; rewrite <- Z2Nat.inj_succ by lia; f_equal; lia|].
rewrite S_INR, INR_IZR_INZ, Z2Nat.id, minus_IZR by lia.
assert (E : x = x / y * y) by (field; lra).
split; rewrite E at 1.
- apply Rmult_le_compat_r; lra.
- apply Rmult_lt_compat_r; lra.
Qed.
Lemma lin_spaced_nth n low high i : (i < n)%nat -> nth i (lin_spaced n low high) 0 = lin_at n low high i.
Proof.
intros Hi. unfold lin_spaced.
rewrite nth_indep with (d' := lin_at n low high 0) by (rewrite map_length, seq_length; lia).
rewrite map_nth, seq_nth by lia. reflexivity.
Qed.
Lemma lin_spaced_length n low high : length (lin_spaced n low high) = n.
Proof. unfold lin_spaced. now rewrite map_length, seq_length. Qed.

Theorem C108_samples dt D omega omega_0 amplitude offset (old : traj) :
  0 < dt -> 0 <= D -> D / dt + 1 < IZR (2 ^ 64) ->
  exists k tr, generate_sine dt D omega omega_0 amplitude offset old = Ok tr
    /\ (forall other, generate_sine dt D omega omega_0 amplitude offset other = Ok tr)
    /\ INR k * dt <= D < INR (S k) * dt
    /\ length (t_arr tr) = S k /\ length (p_arr tr) = S k /\ length (v_arr tr) = S k /\ length (a_arr tr) = S k
    /\ (k = 0%nat -> t_arr tr = [D])
    /\ ((0 < k)%nat -> (forall i, (i <= k)%nat -> nth i (t_arr tr) 0 = INR i * (D / INR k))
                      /\ dt <= D / INR k < 2 * dt /\ (D / INR k = dt <-> D = INR k * dt)).
Proof.
intros Hdt HD Hs. destruct (count_spec D dt Hdt HD Hs) as [k [E [Hk1 Hk2]]].
exists k. unfold generate_sine. rewrite E. cbn [obind]. eexists. split; [reflexivity|].
cbn [t_arr p_arr v_arr a_arr]. rewrite !map_length, lin_spaced_length.
split; [reflexivity|]. split; [split; assumption|]. do 4 (split; [reflexivity|]). split.
- intros ->. unfold lin_spaced. cbn. unfold lin_at. cbn.
  destruct (Rlt_dec (Rabs D) (Rabs D)); [reflexivity|]. f_equal. lra.
- intros Hk. assert (HK : 0 < INR k) by (apply lt_0_INR; lia).
  assert (H1 : dt <= D / INR k).
  { apply Rmult_le_reg_r with (INR k); [assumption|]. replace (D / INR k * INR k) with D by (field; lra). lra. }
  assert (H2 : D / INR k < 2 * dt).
  { apply Rmult_lt_reg_r with (INR k); [assumption|]. replace (D / INR k * INR k) with D by (field; lra).
    rewrite S_INR in Hk2. assert (1 <= INR k) by (change 1 with (INR 1); apply le_INR; lia). nra. }
  split; [|split; [split; assumption|]].
  + intros i Hi. rewrite lin_spaced_nth by lia. unfold lin_at.
    destruct (Nat.eqb_spec (S k) 1); [lia|]. replace (S k - 1)%nat with k by lia.
    destruct (Rlt_dec (Rabs D) (Rabs 0)) as [N|_].
    { rewrite Rabs_R0 in N. pose proof (Rabs_pos D). lra. }
    destruct (Nat.eqb_spec i k) as [->|_]; [field; lra|]. unfold Rdiv. ring.
  + split; intros H.
    * rewrite <- H. field. lra.
    * rewrite H. field. lra.
Qed.

(** when the conversion of the number of samples to an integer is undefined *)
Theorem C108_undefined dt D omega omega_0 amplitude offset old :
  (exists r, generate_sine dt D omega omega_0 amplitude offset old = UB r)
  <-> dt = 0 \/ D / dt + 1 <= -1 \/ IZR (2 ^ 64) <= D / dt + 1.
Proof.
unfold generate_sine, count_of, to_size.
destruct (Req_EM_T dt 0) as [E|E]; cbn [obind]; [split; [auto | eauto]|].
destruct (Rlt_dec (-1) (D / dt + 1)); cbn [obind]; [|split; [intros _; right; left; lra | eauto]].
destruct (Rlt_dec (D / dt + 1) (IZR (2 ^ 64))) as [H|H]; cbn [obind].
- split; [intros [? Hd]; discriminate | intros [H0|[H0|H0]]; lra].
- split; [intros _; right; right; lra | eauto].
Qed.

Lemma dlim_eq f x l l' : derivable_pt_lim f x l -> l = l' -> derivable_pt_lim f x l'.
Proof. now intros H <-. Qed.

(** ** the motion: velocity and acceleration are the derivatives *)
Theorem C108_motion dt D omega omega_0 amplitude offset old tr :
  generate_sine dt D omega omega_0 amplitude offset old = Ok tr ->
  exists p v a : R -> R,
    (forall t, derivable_pt_lim p t (v t)) /\ (forall t, derivable_pt_lim v t (a t))
    /\ p_arr tr = map p (t_arr tr) /\ v_arr tr = map v (t_arr tr) /\ a_arr tr = map a (t_arr tr)
    /\ p 0 = amplitude * sin omega_0 + offset
    /\ (forall t, a t = - (omega * omega) * (p t - offset))
    /\ (forall t, Rabs (p t - offset) <= Rabs amplitude)
    /\ (forall t, (v t) * (v t) + (omega * omega) * ((p t - offset) * (p t - offset)) = omega * omega * (amplitude * amplitude)).
Proof.
unfold generate_sine. destruct (count_of D dt) as [n| |]; cbn [obind]; [|discriminate|discriminate].
intros [= <-]. cbn [p_arr v_arr a_arr t_arr].
exists (fun t => sin (t * omega + omega_0) * amplitude + offset), (fun t => omega * cos (t * omega + omega_0) * amplitude),
  (fun t => - omega * omega * sin (omega * t + omega_0) * amplitude).
assert (Hlin : forall t, derivable_pt_lim (fun t => t * omega + omega_0) t omega).
{ intros t. refine (dlim_eq _ _ _ _ (derivable_pt_lim_plus (fun t => t * omega) (fun _ => omega_0) t _ _
    (derivable_pt_lim_mult (fun t => t) (fun _ => omega) t _ _ (derivable_pt_lim_id t) (derivable_pt_lim_const omega t))
    (derivable_pt_lim_const omega_0 t)) _). ring. }
assert (Hsin : forall t, derivable_pt_lim (fun t => sin (t * omega + omega_0)) t (cos (t * omega + omega_0) * omega)).
{ intros t. exact (derivable_pt_lim_comp (fun t => t * omega + omega_0) sin t _ _ (Hlin t) (derivable_pt_lim_sin _)). }
assert (Hcos : forall t, derivable_pt_lim (fun t => cos (t * omega + omega_0)) t (- sin (t * omega + omega_0) * omega)).
{ intros t. exact (derivable_pt_lim_comp (fun t => t * omega + omega_0) cos t _ _ (Hlin t) (derivable_pt_lim_cos _)). }
split; [|split; [|split; [reflexivity|split; [reflexivity|split; [reflexivity|split; [|split; [|split]]]]]]].
- intros t. refine (dlim_eq _ _ _ _ (derivable_pt_lim_plus (fun t => sin (t * omega + omega_0) * amplitude) (fun _ => offset) t _ _
    (derivable_pt_lim_mult (fun t => sin (t * omega + omega_0)) (fun _ => amplitude) t _ _ (Hsin t) (derivable_pt_lim_const amplitude t))
    (derivable_pt_lim_const offset t)) _). cbv beta. ring.
- intros t. refine (dlim_eq _ _ _ _ (derivable_pt_lim_mult (fun t => omega * cos (t * omega + omega_0)) (fun _ => amplitude) t _ _
    (derivable_pt_lim_mult (fun _ => omega) (fun t => cos (t * omega + omega_0)) t _ _ (derivable_pt_lim_const omega t) (Hcos t))
    (derivable_pt_lim_const amplitude t)) _). cbv beta. rewrite (Rmult_comm omega t). ring.
- cbn. rewrite Rmult_0_l, Rplus_0_l. ring.
- intros t. cbn. rewrite (Rmult_comm omega t). ring.
- intros t. cbn. replace (sin (t * omega + omega_0) * amplitude + offset - offset) with (sin (t * omega + omega_0) * amplitude) by ring.
  rewrite Rabs_mult. rewrite <- (Rmult_1_l (Rabs amplitude)) at 2. apply Rmult_le_compat_r; [apply Rabs_pos|].
  pose proof (SIN_bound (t * omega + omega_0)). apply Rabs_le. lra.
- intros t. cbn. set (x := t * omega + omega_0). pose proof (sin2_cos2 x) as H. unfold Rsqr in H.
  transitivity (omega * omega * (amplitude * amplitude) * (sin x * sin x + cos x * cos x)); [ring | rewrite H; ring].
Qed.

(** ** noisy samples *)
Lemma zip_spec f a b : 
  (length a = length b -> exists r, zip f a b = Ok r /\ length r = length a
     /\ forall i, (i < length a)%nat -> nth i r 0 = f (nth i a 0) (nth i b 0))
  /\ (length a <> length b -> zip f a b = Abort EigenAssert).
Proof.
revert b. induction a as [|x a IH]; intros [|y b]; cbn; split; intros H; try discriminate; try congruence.
- exists []. repeat split. intros i Hi. lia.
- destruct (IH b) as [IH1 _]. destruct IH1 as [r [E [L Hn]]]; [lia|]. rewrite E. cbn. exists (f x y :: r). repeat split; [cbn; lia|].
  intros [|i] Hi; [reflexivity|]. apply Hn. lia.
- destruct (IH b) as [_ IH2]. rewrite IH2 by lia. reflexivity.
Qed.
Lemma noise_nth sd draw n i : (i < n)%nat -> nth i (noise sd draw n) 0 = sd * draw i.
Proof.
intros Hi. unfold noise. rewrite nth_indep with (d' := sd * draw 0%nat + 0) by (rewrite map_length, seq_length; lia).
rewrite (map_nth (fun i => sd * draw i + 0)), seq_nth by lia. cbn. ring.
Qed.
Lemma noise_length sd draw n : length (noise sd draw n) = n.
Proof. unfold noise. now rewrite map_length, seq_length. Qed.

(** [out] is [truth] with independent draws times [sd] added *)
Definition noisy_copy sd draw truth out :=
  length out = length truth /\ forall i, (i < length truth)%nat -> nth i out 0 = nth i truth 0 + sd * draw i.
Lemma noisy_one sd draw n truth : (n = length truth -> exists r, zip Rplus (noise sd draw n) truth = Ok r /\ noisy_copy sd draw truth r)
  /\ (n <> length truth -> zip Rplus (noise sd draw n) truth = Abort EigenAssert).
Proof.
destruct (zip_spec Rplus (noise sd draw n) truth) as [H1 H2]. rewrite noise_length in *. split; intros H; [|auto].
destruct (H1 H) as [r [E [L Hn]]]. exists r. split; [assumption|]. split; [lia|]. intros i Hi. rewrite Hn by lia.
rewrite noise_nth by lia. ring.
Qed.
Theorem C108_noisy sd draw tr : 
  (length (p_arr tr) = traj_size tr -> exists r, noisy_pos sd draw tr = Ok r /\ noisy_copy sd draw (p_arr tr) r)
  /\ (length (v_arr tr) = traj_size tr -> exists r, noisy_vel sd draw tr = Ok r /\ noisy_copy sd draw (v_arr tr) r)
  /\ (length (a_arr tr) = traj_size tr -> exists r, noisy_acc sd draw tr = Ok r /\ noisy_copy sd draw (a_arr tr) r)
  /\ (length (p_arr tr) <> traj_size tr -> noisy_pos sd draw tr = Abort EigenAssert)
  /\ (length (v_arr tr) <> traj_size tr -> noisy_vel sd draw tr = Abort EigenAssert)
  /\ (length (a_arr tr) <> traj_size tr -> noisy_acc sd draw tr = Abort EigenAssert).
Proof.
unfold noisy_pos, noisy_vel, noisy_acc, traj_size.
repeat split; intros H; apply noisy_one; congruence.
Qed.

(** ** relative positions *)
Theorem C108_relative sd draw other tr :
  length (p_arr tr) = traj_size tr -> length (p_arr other) = traj_size other -> traj_size tr = traj_size other ->
  (forall i, (i < traj_size tr)%nat -> nth i (t_arr tr) 0 = nth i (t_arr other) 0) ->
  exists r, noisy_rel_pos sd draw other tr = Ok r /\ length r = traj_size tr
    /\ forall i, (i < traj_size tr)%nat -> nth i r 0 = (nth i (p_arr other) 0 - nth i (p_arr tr) 0) + sd * draw i.
Proof.
unfold traj_size. intros Hp Hq Hn Ht. unfold noisy_rel_pos.
destruct (Nat.eqb_spec (length (t_arr tr)) (length (t_arr other))) as [_|N]; [cbn [negb] | contradiction].
destruct (zip_spec Rminus (t_arr tr) (t_arr other)) as [H1 _]. destruct (H1 Hn) as [d [E [Ld Hd]]]. rewrite E. cbn [obind].
assert (Hz : fold_right Rplus 0 d = 0).
{ assert (Hz : forall i, (i < length d)%nat -> nth i d 0 = 0).
  { intros i Hi. rewrite Hd by lia. rewrite (Ht i) by lia. ring. }
  clear -Hz. induction d as [|x d IH]; [reflexivity|]. cbn. rewrite IH.
  - specialize (Hz 0%nat). cbn in Hz. rewrite Hz by lia. ring.
  - intros i Hi. apply (Hz (S i)). cbn. lia. }
rewrite Hz. destruct (Rlt_dec 0 (1 / 10)) as [_|N]; [|lra].
destruct (zip_spec Rminus (p_arr other) (p_arr tr)) as [H2 _]. destruct H2 as [q [Eq [Lq Hqn]]]; [lia|]. rewrite Eq. cbn [obind].
destruct (zip_spec Rplus q (noise sd draw (length (t_arr tr)))) as [H3 _]. rewrite noise_length in H3.
destruct H3 as [r [Er [Lr Hr]]]; [lia|]. exists r. split; [assumption|]. split; [lia|].
intros i Hi. rewrite Hr by lia. rewrite Hqn by lia. rewrite noise_nth by lia. reflexivity.
Qed.
Lemma sum_shift (d : list R) c : (forall i, (i < length d)%nat -> nth i d 0 = c) -> fold_right Rplus 0 d = INR (length d) * c.
Proof.
induction d as [|x d IH]; intros H; [cbn; ring|]. cbn [fold_right length]. rewrite S_INR, IH.
- rewrite <- (H 0%nat) at 2 by (cbn; lia). cbn. rewrite <- (H 0%nat) at 1 by (cbn; lia). cbn. ring.
- intros i Hi. apply (H (S i)). cbn. lia.
Qed.
(** the check on the times looks at the signed sum: a trajectory that lies any time later is accepted, one that lies earlier is refused
    as soon as the shifts add up to 0.1 s *)
Theorem C108_time_check sd draw other tr shift :
  length (p_arr tr) = traj_size tr -> length (p_arr other) = traj_size other -> traj_size tr = traj_size other ->
  (forall i, (i < traj_size tr)%nat -> nth i (t_arr other) 0 = nth i (t_arr tr) 0 + shift) ->
  (0 <= shift -> exists r, noisy_rel_pos sd draw other tr = Ok r)
  /\ (1 / 10 <= INR (traj_size tr) * - shift -> noisy_rel_pos sd draw other tr = Abort RTVerificationFailed).
Proof.
unfold traj_size. intros Hp Hq Hn Ht. unfold noisy_rel_pos.
destruct (Nat.eqb_spec (length (t_arr tr)) (length (t_arr other))) as [_|N]; [cbn [negb] | contradiction].
destruct (zip_spec Rminus (t_arr tr) (t_arr other)) as [H1 _]. destruct (H1 Hn) as [d [E [Ld Hd]]]. rewrite E. cbn [obind].
assert (Hz : fold_right Rplus 0 d = INR (length (t_arr tr)) * - shift).
{ rewrite <- Ld. apply sum_shift. intros i Hi. rewrite Hd by lia. rewrite (Ht i) by lia. ring. }
rewrite Hz. split; intros Hs.
- destruct (Rlt_dec (INR (length (t_arr tr)) * - shift) (1 / 10)) as [_|N].
  2: { pose proof (pos_INR (length (t_arr tr))). exfalso. apply N. apply Rle_lt_trans with 0; [|lra]. nra. }
  destruct (zip_spec Rminus (p_arr other) (p_arr tr)) as [H2 _]. destruct H2 as [q [Eq [Lq Hqn]]]; [lia|]. rewrite Eq. cbn [obind].
  destruct (zip_spec Rplus q (noise sd draw (length (t_arr tr)))) as [H3 _]. rewrite noise_length in H3.
  destruct H3 as [r [Er _]]; [lia|]. eauto.
- destruct (Rlt_dec (INR (length (t_arr tr)) * - shift) (1 / 10)); [lra | reflexivity].
Qed.

(** ** linespace *)
Lemma line_loop_nth n val step i : (i < n)%nat -> nth i (line_loop n val step) 0 = val + INR i * step.
Proof.
revert val i. induction n as [|n IH]; intros val i Hi; [lia|]. destruct i as [|i]; cbn [line_loop nth].
- cbn. ring.
- rewrite IH by lia. rewrite S_INR. ring.
Qed.
Lemma line_loop_length n val step : length (line_loop n val step) = n.
Proof. revert val. induction n as [|n IH]; intros val; cbn; [reflexivity | now rewrite IH]. Qed.
Theorem C108_linespace start step stop :
  0 < step -> start <= stop -> (stop - start) / step + 1 < IZR (2 ^ 64) ->
  exists xs, linespace start step stop = Ok xs /\ (0 < length xs)%nat
    /\ (forall i, (i < length xs)%nat -> nth i xs 0 = start + INR i * step)
    /\ nth (length xs - 1) xs 0 <= stop < nth (length xs - 1) xs 0 + step.
Proof.
intros Hst Hle Hs. destruct (count_spec (stop - start) step Hst ltac:(lra) Hs) as [k [E [H1 H2]]].
unfold linespace. rewrite E. cbn [obind]. eexists. split; [reflexivity|]. rewrite line_loop_length.
split; [lia|]. split; [intros i Hi; now apply line_loop_nth|].
rewrite line_loop_nth by lia. replace (S k - 1)%nat with k by lia. rewrite S_INR in H2. lra.
Qed.

(** ** the reported error *)
Lemma sq_errors_spec n truth est : (n <= length truth)%nat -> (n <= length est)%nat ->
  exists s, sq_errors n truth est = Ok s /\ 0 <= s
    /\ (s = 0 <-> forall i, (i < n)%nat -> nth i truth 0 = nth i est 0)
    /\ (forall b, (forall i, (i < n)%nat -> Rabs (nth i truth 0 - nth i est 0) <= b) -> s <= INR n * (b * b))
    /\ (forall b, 0 <= b -> (forall i, (i < n)%nat -> b <= Rabs (nth i truth 0 - nth i est 0)) -> INR n * (b * b) <= s).
Proof.
induction n as [|n IH]; intros L1 L2.
- exists 0. cbn. repeat split; try lra; intros; try lia; lra.
- destruct IH as [s [E [P [Z [U L]]]]]; [lia|lia|]. cbn [sq_errors]. rewrite E. cbn [obind].
  rewrite (nth_error_nth' truth 0) by lia. rewrite (nth_error_nth' est 0) by lia.
  set (e := nth n truth 0 - nth n est 0). pose proof (Rle_0_sqr e) as Q. unfold Rsqr in Q.
  exists (s + e * e). split; [reflexivity|]. split; [lra|]. split; [|split].
  + split.
    * intros H i Hi. assert (s = 0) by lra. assert (e * e = 0) by lra.
      destruct (Nat.eq_dec i n) as [->|N]; [|apply Z; [assumption|lia]].
      apply Rmult_integral in H1. unfold e in H1. destruct H1; lra.
    * intros H. assert (s = 0) by (apply Z; intros i Hi; apply H; lia).
      assert (e = 0) by (unfold e; rewrite (H n) by lia; ring). rewrite H0, H1. ring.
  + intros b H. rewrite S_INR. assert (s <= INR n * (b * b)) by (apply U; intros i Hi; apply H; lia).
    assert (Rabs e <= b) by (apply H; lia). assert (e * e <= b * b).
    { rewrite <- (Rabs_pos_eq (e * e)) by lra. rewrite Rabs_mult. pose proof (Rabs_pos e). nra. }
    lra.
  + intros b Hb H. rewrite S_INR. assert (INR n * (b * b) <= s) by (apply L; [assumption | intros i Hi; apply H; lia]).
    assert (b <= Rabs e) by (apply H; lia). assert (b * b <= e * e).
    { rewrite <- (Rabs_pos_eq (e * e)) by lra. rewrite Rabs_mult. nra. }
    lra.
Qed.
Theorem C108_rmse tr est sel : (0 < traj_size tr)%nat -> (traj_size tr <= length (sel tr))%nat -> (traj_size tr <= length (sel est))%nat ->
  exists r, rmse tr est sel = Ok r /\ 0 <= r
    /\ (r = 0 <-> forall i, (i < traj_size tr)%nat -> nth i (sel tr) 0 = nth i (sel est) 0)
    /\ (forall b, (forall i, (i < traj_size tr)%nat -> Rabs (nth i (sel tr) 0 - nth i (sel est) 0) <= b) -> r <= b)
    /\ (forall b, 0 <= b -> (forall i, (i < traj_size tr)%nat -> b <= Rabs (nth i (sel tr) 0 - nth i (sel est) 0)) -> b <= r).
Proof.
unfold traj_size, rmse. set (n := length (t_arr tr)). intros Hn L1 L2.
destruct (sq_errors_spec n (sel tr) (sel est) L1 L2) as [s [E [P [Z [U L]]]]]. rewrite E. cbn [obind].
assert (HN : 0 < INR n) by (apply lt_0_INR; lia).
assert (Q : 0 <= s / INR n) by (apply Rmult_le_pos; [assumption | left; apply Rinv_0_lt_compat; assumption]).
assert (S1 : s = s / INR n * INR n) by (field; lra).
eexists. split; [reflexivity|]. split; [apply sqrt_pos|]. split; [|split].
- rewrite <- Z. split; intros H.
  + apply sqrt_eq_0 in H; [|assumption]. rewrite S1, H. ring.
  + rewrite H. unfold Rdiv. rewrite Rmult_0_l. apply sqrt_0.
- intros b H. assert (Hb : 0 <= b). { apply Rle_trans with (2 := H 0%nat Hn). apply Rabs_pos. }
  rewrite <- (sqrt_square b) by assumption. apply sqrt_le_1_alt.
  apply Rmult_le_reg_r with (INR n); [assumption|]. rewrite <- S1. specialize (U b H). lra.
- intros b Hb H. rewrite <- (sqrt_square b) at 1 by assumption. apply sqrt_le_1_alt.
  apply Rmult_le_reg_r with (INR n); [assumption|]. rewrite <- S1. specialize (L b Hb H). lra.
Qed.

(** ** concrete cases *)
Example C108_samples_ex : exists k tr, (0 < k)%nat /\ generate_sine 1 (5 / 2) 1 0 1 0 (traj_new 0) = Ok tr
   /\ length (t_arr tr) = S k /\ k = 2%nat /\ nth 1 (t_arr tr) 0 = 5 / 4.
Proof.
destruct (C108_samples 1 (5 / 2) 1 0 1 0 (traj_new 0)) as [k [tr [E [_ [[H1 H2] [L [_ [_ [_ [_ H]]]]]]]]]]; [lra|lra| |].
- apply Rlt_trans with 10; [lra|]. apply IZR_lt. reflexivity.
- assert (k = 2%nat) as ->.
  { assert (INR k < INR 3) by (cbn; lra). apply INR_lt in H0.
    assert (INR 1 < INR k). { rewrite S_INR in H2. cbn. lra. } apply INR_lt in H3. lia. }
  exists 2%nat, tr. repeat split; try assumption; try lia. destruct H as [Hn _]; [lia|]. rewrite (Hn 1%nat) by lia. cbn. lra.
Qed.
Example C108_motion_ex : exists tr, generate_sine 1 (5 / 2) 1 0 1 0 (traj_new 0) = Ok tr.
Proof. destruct C108_samples_ex as [k [tr [_ [E _]]]]. eauto. Qed.
Example C108_relative_ex : exists r, noisy_rel_pos 1 (fun _ => 1) (Traj [5] [0] [0] [0]) (Traj [2] [0] [0] [0]) = Ok r /\ nth 0 r 0 = 4.
Proof.
destruct (C108_relative 1 (fun _ => 1) (Traj [5] [0] [0] [0]) (Traj [2] [0] [0] [0])) as [r [E [_ H]]]; try reflexivity.
exists r. split; [assumption|]. rewrite H by (cbn; lia). cbn. lra.
Qed.
(** an hour apart, and accepted *)
Example C108_time_check_ex : exists r, noisy_rel_pos 1 (fun _ => 1) (Traj [5] [0] [0] [3600]) (Traj [2] [0] [0] [0]) = Ok r.
Proof.
apply (C108_time_check 1 (fun _ => 1) (Traj [5] [0] [0] [3600]) (Traj [2] [0] [0] [0]) 3600); try reflexivity; [|lra].
intros [|i] Hi; cbn in *; [lra|lia].
Qed.
Example C108_linespace_ex : exists xs, linespace 0 1 (5 / 2) = Ok xs /\ nth 0 xs 0 = 0.
Proof.
destruct (C108_linespace 0 1 (5 / 2)) as [xs [E [L [H _]]]]; [lra|lra| |].
- apply Rlt_trans with 10; [lra|]. apply IZR_lt. reflexivity.
- exists xs. split; [assumption|]. rewrite H by assumption. cbn. lra.
Qed.
Example C108_rmse_ex : exists r, rmse (Traj [1; 2] [] [] [0; 1]) (Traj [4; 5] [] [] []) p_arr = Ok r /\ r = 3.
Proof.
destruct (C108_rmse (Traj [1; 2] [] [] [0; 1]) (Traj [4; 5] [] [] []) p_arr) as [r [E [P [_ [U L]]]]]; try (cbn; lia).
exists r. split; [assumption|]. apply Rle_antisym.
- apply U. intros [|[|i]] Hi; cbn in *; try lia; apply Rabs_le; lra.
- apply L; [lra|]. intros [|[|i]] Hi; cbn in *; try lia; rewrite Rabs_left; lra.
Qed.
Print Assumptions C108_samples.
Print Assumptions C108_undefined.
Print Assumptions C108_motion.
Print Assumptions C108_noisy.
Print Assumptions C108_relative.
Print Assumptions C108_time_check.
Print Assumptions C108_linespace.
Print Assumptions C108_rmse.
