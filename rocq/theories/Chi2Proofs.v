(** The lower incomplete gamma series with rigorous bounds, and a checker over the integers for the tabulated thresholds. *)
From Coq Require Import Reals Machin ZArith List Lia Lra Psatz.
From Coquelicot Require Import Coquelicot.
From Verif Require Import Spec_Chi2.
Local Open Scope R_scope.

(** ** the terms of the series *)
(** Pr k x = (x/2)^(k/2) / Gamma(k/2 + 1) *)
Fixpoint Pr (k : nat) (x : R) : R :=
  match k with
  | O => 1
  | 1%nat => sqrt (2 * x / PI)
  | S (S j) => Pr j x * x / INR k
  end.
Definition A (k : nat) (x : R) : R := Pr k x * exp (- x / 2).
Fixpoint G (k N : nat) (x : R) : R := match N with O => 0 | S n => A k x + G (S (S k)) n x end.
Fixpoint Sr (k N : nat) (x : R) : R := match N with O => 0 | S n => 1 + x / INR (S (S k)) * Sr (S (S k)) n x end.

Lemma two_step (P : nat -> Prop) : P 0%nat -> P 1%nat -> (forall k, P k -> P (S (S k))) -> forall k, P k.
Proof. intros H0 H1 H k. assert (P k /\ P (S k)) as [X _]; [|exact X]. induction k; [now split|]. destruct IHk. split; auto. Qed.
Lemma INR_pos k : 0 < INR (S k).
Proof. apply lt_0_INR; lia. Qed.
Lemma SS k : INR (S (S k)) = INR k + 2.
Proof. rewrite !S_INR; lra. Qed.
Lemma PrS k x : Pr (S (S k)) x = Pr k x * x / INR (S (S k)).
Proof. reflexivity. Qed.
Lemma AS k x : A (S (S k)) x = A k x * x / INR (S (S k)).
Proof. unfold A. rewrite PrS. field. pose proof (INR_pos (S k)); lra. Qed.
Lemma Pr_ge0 k x : 0 <= x -> 0 <= Pr k x.
Proof.
  intros X. revert k. apply two_step; [cbn; lra|apply sqrt_pos|]. intros k H. rewrite PrS.
  pose proof (INR_pos (S k)). apply Rdiv_le_0_compat; nra.
Qed.
Lemma Pr_mono k x y : 0 <= x <= y -> Pr k x <= Pr k y.
Proof.
  intros X. revert k. apply two_step; [cbn; lra| |].
  - cbn. apply sqrt_le_1_alt. pose proof PI_RGT_0. unfold Rdiv. apply Rmult_le_compat_r; [left; now apply Rinv_0_lt_compat|lra].
  - intros k H. rewrite !PrS. pose proof (INR_pos (S k)). unfold Rdiv. apply Rmult_le_compat_r; [left; now apply Rinv_0_lt_compat|].
    apply Rmult_le_compat; try lra. now apply Pr_ge0.
Qed.
Lemma exp_le1 x : 0 <= x -> exp (- x / 2) <= 1.
Proof. intros X. rewrite <- exp_0. destruct (Req_dec x 0) as [->|N]; [right; f_equal; lra|left; apply exp_increasing; lra]. Qed.
Lemma A_ge0 k x : 0 <= x -> 0 <= A k x.
Proof. intros X. unfold A. apply Rmult_le_pos; [now apply Pr_ge0|left; apply exp_pos]. Qed.
Lemma A_le k x : 0 <= x -> A k x <= Pr k x.
Proof. intros X. unfold A. rewrite <- (Rmult_1_r (Pr k x)) at 2. apply Rmult_le_compat_l; [now apply Pr_ge0|now apply exp_le1]. Qed.
Lemma Pr_pos k x : 0 < x -> 0 < Pr k x.
Proof.
  intros X. revert k. apply two_step; [cbn; lra| |].
  - cbn. apply sqrt_lt_R0. pose proof PI_RGT_0. apply Rdiv_lt_0_compat; lra.
  - intros k H. rewrite PrS. pose proof (INR_pos (S k)). apply Rdiv_lt_0_compat; nra.
Qed.

(** ** the density and its terms *)
Lemma gamma_pos k : 0 < gamma_half (S k).
Proof.
  revert k. apply two_step; [cbn; apply sqrt_lt_R0, PI_RGT_0|cbn; lra|].
  intros k H. change (gamma_half (S (S (S k)))) with (INR (S k) / 2 * gamma_half (S k)). pose proof (INR_pos k). apply Rmult_lt_0_compat; lra.
Qed.
Lemma density_step k x : 0 < x -> chi2_density (S (S (S k))) x = chi2_density (S k) x * x / INR (S k).
Proof.
  intros X. unfold chi2_density. change (gamma_half (S (S (S k)))) with (INR (S k) / 2 * gamma_half (S k)).
  rewrite SS. replace ((INR (S k) + 2) / 2 - 1) with (INR (S k) / 2 - 1 + 1) by lra. replace ((INR (S k) + 2) / 2) with (INR (S k) / 2 + 1) by lra.
  rewrite !Rpower_plus, !Rpower_1 by lra. field. pose proof (INR_pos k). pose proof (gamma_pos k). repeat split; try lra.
  unfold Rpower. apply Rgt_not_eq, exp_pos.
Qed.
Lemma density2 x : 0 < x -> chi2_density 2 x = A 0 x / 2.
Proof.
  intros X. unfold chi2_density, A. cbn [gamma_half Pr INR]. replace ((1 + 1) / 2 - 1) with 0 by lra. replace ((1 + 1) / 2) with 1 by lra.
  rewrite Rpower_O, Rpower_1 by lra. field.
Qed.
Lemma density1 x : 0 < x -> chi2_density 1 x = exp (- x / 2) / sqrt (2 * PI * x).
Proof.
  intros X. unfold chi2_density. cbn [gamma_half INR]. replace (1 / 2 - 1) with (- / 2) by lra. replace (1 / 2) with (/ 2) by lra.
  rewrite Rpower_Ropp, !Rpower_sqrt by lra. pose proof PI_RGT_0. rewrite sqrt_mult, sqrt_mult by nra.
  field. repeat split; apply Rgt_not_eq, sqrt_lt_R0; lra.
Qed.
Lemma density3 x : 0 < x -> chi2_density 3 x = A 1 x / 2.
Proof.
  intros X. rewrite density_step, density1 by lra. unfold A. cbn [Pr INR]. pose proof PI_RGT_0.
  replace (2 * x / PI) with (2 * x * / PI) by lra. rewrite sqrt_mult, sqrt_mult, sqrt_mult, sqrt_mult, sqrt_inv by (try lra; try nra; left; now apply Rinv_0_lt_compat).
  assert (H2 : sqrt 2 * sqrt 2 = 2) by (apply sqrt_sqrt; lra). assert (Hx : sqrt x * sqrt x = x) by (apply sqrt_sqrt; lra).
  assert (0 < sqrt 2) by (apply sqrt_lt_R0; lra). assert (0 < sqrt x) by (apply sqrt_lt_R0; lra). assert (0 < sqrt PI) by (apply sqrt_lt_R0; lra).
  replace (exp (- x / 2) / (sqrt 2 * sqrt PI * sqrt x) * x / 1) with (exp (- x / 2) / (sqrt 2 * sqrt PI * sqrt x) * (sqrt x * sqrt x) / 1) by (now rewrite Hx).
  replace (sqrt 2 * sqrt x * / sqrt PI * exp (- x / 2) / 2) with (sqrt 2 * sqrt x * / sqrt PI * exp (- x / 2) / (sqrt 2 * sqrt 2)) by (now rewrite H2).
  field. lra.
Qed.
Lemma density_A k x : 0 < x -> chi2_density (S (S k)) x = A k x / 2.
Proof.
  intros X. revert k. apply two_step; [now apply density2|now apply density3|]. intros k H.
  rewrite density_step, H, AS by lra. field. pose proof (INR_pos (S k)); lra.
Qed.
Lemma density_pos k x : 0 < x -> 0 < chi2_density (S k) x.
Proof.
  intros X. unfold chi2_density. pose proof (gamma_pos k).
  apply Rdiv_lt_0_compat; apply Rmult_lt_0_compat; try apply exp_pos; lra.
Qed.

(** ** derivatives *)
Lemma A_derive k x : 0 < x -> is_derive (A (S k)) x (chi2_density (S k) x - chi2_density (S (S (S k))) x).
Proof.
  intros X. pose proof PI_RGT_0. revert k. apply two_step.
  - rewrite density1, density3 by lra. unfold A, Pr. assert (0 < 2 * x / PI) by (apply Rdiv_lt_0_compat; lra).
    assert (P : 0 < sqrt (2 * x / PI)) by now apply sqrt_lt_R0.
    auto_derive; [repeat split; easy|].
    assert (Q : sqrt (2 * PI * x) = PI * sqrt (2 * x / PI)).
    { replace (2 * PI * x) with (PI * PI * (2 * x / PI)) by (field; lra). rewrite sqrt_mult by nra. now rewrite sqrt_square by lra. }
    rewrite Q. change (2 * x * / PI) with (2 * x / PI). change (- x * / 2) with (- x / 2). set (s := sqrt (2 * x / PI)) in *. field. lra.
  - rewrite density2, density_A by lra. unfold A. rewrite PrS. cbn [Pr INR].
    apply is_derive_ext with (fun x => x / 2 * exp (- x / 2)); [intros t; lra|]. auto_derive; [easy|]. unfold Rdiv. field.
  - intros k IH. apply is_derive_ext with (fun t => A (S k) t * (t / INR (S (S (S k))))).
    { intros t. rewrite AS. unfold Rdiv. symmetry. apply Rmult_assoc. }
    pose proof (INR_pos (S (S k))) as Hk. pose proof (INR_pos k) as Hk1.
    evar (l : R). assert (E : is_derive (fun t => A (S k) t * (t / INR (S (S (S k))))) x l).
    { subst l. apply (is_derive_mult (A (S k)) (fun t => t / INR (S (S (S k))))); [exact IH| |intros; apply Rmult_comm].
      auto_derive; [easy|reflexivity]. }
    subst l. replace (chi2_density (S (S (S k))) x - chi2_density (S (S (S (S (S k))))) x) with
      (plus (mult (chi2_density (S k) x - chi2_density (S (S (S k))) x) (x / INR (S (S (S k)))))
         (mult (A (S k) x) (1 * / INR (S (S (S k)))))); [exact E|].
    unfold plus, mult; cbn -[INR chi2_density].
    rewrite (density_step (S (S k)) x), (density_step k x) by lra.
    replace (A (S k) x) with (2 * (chi2_density (S k) x * x / INR (S k))) by (rewrite <- density_step, density_A by lra; field).
    rewrite SS. field. lra.
Qed.
Lemma exd (f : R -> R) (x : R) : ex_derive f x -> continuous f x.
Proof. exact (ex_derive_continuous (K := R_AbsRing) (V := R_NormedModule) f x). Qed.
Lemma A0_derive x : is_derive (A 0) x (- A 0 x / 2).
Proof. unfold A. cbn [Pr]. auto_derive; [easy|]. unfold Rdiv. field. Qed.
Lemma A_cont k x : continuous (A k) x.
Proof.
  revert k. apply two_step.
  - apply exd. eexists. apply A0_derive.
  - unfold A, Pr. apply (continuous_mult (fun x => sqrt (2 * x / PI)) (fun x => exp (- x / 2))).
    + apply (continuous_comp (fun x => 2 * x / PI) sqrt); [apply exd; auto_derive; easy|].
      apply continuous_sqrt.
    + apply exd. auto_derive. easy.
  - intros k H. apply continuous_ext with (fun t => A k t * (t / INR (S (S k)))).
    { intros t. rewrite AS. unfold Rdiv. symmetry. apply Rmult_assoc. }
    apply (continuous_mult (A k) (fun t => t / INR (S (S k)))); [exact H|].
    apply exd. auto_derive. easy.
Qed.
Lemma A_at0 k : A (S k) 0 = 0.
Proof.
  revert k. apply two_step.
  - unfold A, Pr. replace (2 * 0 / PI) with 0 by (unfold Rdiv; ring). rewrite sqrt_0. ring.
  - rewrite AS. unfold Rdiv. ring.
  - intros k H. rewrite AS, H. unfold Rdiv. ring.
Qed.
Lemma G_cont k N x : continuous (G k N) x.
Proof.
  revert k. induction N as [|N IH]; intros k; [apply continuous_const|].
  apply continuous_ext with (fun t => plus (A k t) (G (S (S k)) N t)); [reflexivity|].
  apply (continuous_plus (A k) (G (S (S k)) N)); [apply A_cont|apply IH].
Qed.
Lemma shift_twice k N : (S (S k) + 2 * N = k + 2 * S N)%nat.
Proof. lia. Qed.
Lemma G_derive N : forall k x, 0 < x -> is_derive (G (S k) N) x (chi2_density (S k) x - chi2_density (S k + 2 * N) x).
Proof.
  induction N as [|N IH]; intros k x X.
  - replace (S k + 2 * 0)%nat with (S k) by lia. rewrite Rminus_diag_eq by reflexivity. apply (is_derive_const (K := R_AbsRing) (V := R_NormedModule)).
  - apply is_derive_ext with (fun t => plus (A (S k) t) (G (S (S (S k))) N t)); [reflexivity|].
    replace (chi2_density (S k) x - chi2_density (S k + 2 * S N) x) with
      (plus (chi2_density (S k) x - chi2_density (S (S (S k))) x) (chi2_density (S (S (S k))) x - chi2_density (S (S (S k)) + 2 * N) x)).
    { apply (is_derive_plus (K := R_AbsRing) (V := R_NormedModule)); [now apply A_derive|now apply IH]. }
    rewrite (shift_twice (S k) N). unfold plus; cbn -[INR chi2_density]. ring.
Qed.
Lemma G_at0 k N : G (S k) N 0 = 0.
Proof. revert k. induction N as [|N IH]; intros k; cbn; [reflexivity|]. rewrite A_at0, IH. lra. Qed.
Lemma cont_pt f x : continuous f x -> continuity_pt f x.
Proof. intros H. apply continuity_pt_filterlim. exact H. Qed.

(** the series from below, with its remainder from above *)
Lemma series_bounds k N F x : chi2_cdf (S k) F -> 0 <= x -> (0 < N)%nat ->
  G (S k) N x <= F x <= G (S k) N x + x / 2 * Pr (S k + 2 * (N - 1)) x.
Proof.
  intros [F0 [Fc Fd]] X HN. pose (j := (S k + 2 * (N - 1))%nat).
  assert (Ej : (S k + 2 * N = S (S j))%nat) by (unfold j; lia).
  destruct (MVT_gen (fun t => F t - G (S k) N t) 0 x (fun t => A j t / 2)) as [c [Hc E]].
  - rewrite Rmin_left, Rmax_right by lra. intros t Ht.
    replace (A j t / 2) with (minus (chi2_density (S k) t) (chi2_density (S k) t - chi2_density (S k + 2 * N) t)).
    2: { rewrite Ej, (density_A j) by lra. unfold minus, plus, opp; cbn -[chi2_density A]. ring. }
    apply (is_derive_minus (K := R_AbsRing) (V := R_NormedModule)); [apply Fd; lra|apply G_derive; lra].
  - intros t _. apply cont_pt. apply (continuous_minus F (G (S k) N)); [apply Fc|apply G_cont].
  - rewrite Rmin_left, Rmax_right in Hc by lra. cbv beta in E. rewrite (F0 0), G_at0 in E by lra.
    pose proof (A_ge0 j c (proj1 Hc)). pose proof (A_le j c (proj1 Hc)). pose proof (Pr_mono j c x Hc). fold j.
    assert (0 <= A j c * x) by nra. assert (A j c * x <= Pr j x * x) by nra. lra.
Qed.
(** the exponential *)
Lemma exp_bounds N x : 0 <= x -> (0 < N)%nat -> 1 - x / 2 * Pr (2 * (N - 1)) x <= G 0 N x <= 1.
Proof.
  intros X HN. pose (j := (2 * (N - 1))%nat).
  assert (D : forall t, 0 < t -> is_derive (G 0 N) t (- (A j t / 2))).
  { intros t T. destruct N as [|n]; [lia|].
    apply is_derive_ext with (fun t => plus (A 0 t) (G 2 n t)); [reflexivity|].
    replace (- (A j t / 2)) with (plus (- A 0 t / 2) (chi2_density 2 t - chi2_density (2 + 2 * n) t)).
    2: { replace (2 + 2 * n)%nat with (S (S j)) by (unfold j; lia). rewrite density2, (density_A j) by lra. unfold plus; cbn -[A]. field. }
    apply (is_derive_plus (K := R_AbsRing) (V := R_NormedModule)); [apply A0_derive|now apply (G_derive n 1)]. }
  destruct (MVT_gen (G 0 N) 0 x (fun t => - (A j t / 2))) as [c [Hc E]].
  - rewrite Rmin_left, Rmax_right by lra. intros t Ht. apply D. lra.
  - intros t _. apply cont_pt, G_cont.
  - rewrite Rmin_left, Rmax_right in Hc by lra.
    assert (G0 : G 0 N 0 = 1). { destruct N as [|n]; [lia|]. cbn [G]. rewrite G_at0. unfold A. cbn [Pr]. replace (- 0 / 2) with 0 by lra. rewrite exp_0. lra. }
    rewrite G0 in E. pose proof (A_ge0 j c (proj1 Hc)). pose proof (A_le j c (proj1 Hc)). pose proof (Pr_mono j c x Hc). fold j.
    assert (0 <= A j c * x) by nra. assert (A j c * x <= Pr j x * x) by nra. lra.
Qed.
Lemma G_S k N x : G k N x = A k x * Sr k N x.
Proof.
  revert k. induction N as [|N IH]; intros k; cbn [G Sr]; [ring|]. rewrite IH, AS. field. pose proof (INR_pos (S k)); lra.
Qed.
(** ** the distribution function exists and is unique, and grows strictly *)
Lemma cdf_unique k F F' : chi2_cdf (S k) F -> chi2_cdf (S k) F' -> forall x, F x = F' x.
Proof.
  intros [F0 [Fc Fd]] [F0' [Fc' Fd']] x. destruct (Rle_lt_dec x 0) as [L|L]; [now rewrite F0, F0'|].
  destruct (MVT_gen (fun t => F t - F' t) 0 x (fun _ => 0)) as [c [Hc E]].
  - rewrite Rmin_left, Rmax_right by lra. intros t Ht.
    replace 0 with (minus (chi2_density (S k) t) (chi2_density (S k) t)) by (unfold minus, plus, opp; cbn -[chi2_density]; ring).
    apply (is_derive_minus (K := R_AbsRing) (V := R_NormedModule)); [apply Fd|apply Fd']; lra.
  - intros t _. apply cont_pt. apply (continuous_minus F F'); [apply Fc|apply Fc'].
  - cbv beta in E. rewrite (F0 0), (F0' 0) in E by lra. lra.
Qed.
Lemma cdf_increasing k F x y : chi2_cdf (S k) F -> 0 <= x < y -> F x < F y.
Proof.
  intros [F0 [Fc Fd]] L. pose (m := (x + y) / 2).
  destruct (MVT_gen F x m (fun t => if Rlt_dec 0 t then chi2_density (S k) t else 0)) as [c [Hc E]].
  - unfold m in *. rewrite Rmin_left, Rmax_right by lra. intros t Ht. destruct (Rlt_dec 0 t); [apply Fd; lra|lra].
  - intros t _. apply cont_pt, Fc.
  - destruct (MVT_gen F m y (fun t => chi2_density (S k) t)) as [c' [Hc' E']].
    + unfold m in *. rewrite Rmin_left, Rmax_right by lra. intros t Ht. apply Fd; lra.
    + intros t _. apply cont_pt, Fc.
    + unfold m in *. rewrite Rmin_left, Rmax_right in Hc, Hc' by lra.
      assert (0 < chi2_density (S k) c') by (apply density_pos; lra).
      assert (0 <= (if Rlt_dec 0 c then chi2_density (S k) c else 0)) by (destruct (Rlt_dec 0 c); [left; now apply density_pos|lra]).
      nra.
Qed.
Lemma cdf_exists k : exists F, chi2_cdf (S k) F.
Proof.
  pose (F := fun x => A (S k) (Rmax x 0) + RInt (fun t => A (S k) t / 2) 0 (Rmax x 0)).
  assert (C2 : forall t, continuous (fun t => A (S k) t / 2) t).
  { intros t. apply (continuous_mult (A (S k)) (fun _ => / 2)); [apply A_cont|apply continuous_const]. }
  assert (D : forall x, is_derive (fun x => RInt (fun t => A (S k) t / 2) 0 x) x (A (S k) x / 2)).
  { intros x. apply (is_derive_RInt (fun t => A (S k) t / 2) (RInt (fun t => A (S k) t / 2) 0) 0).
    - exists (mkposreal 1 Rlt_0_1). intros y _. apply (RInt_correct (V := R_CompleteNormedModule) (fun t => A (S k) t / 2)). apply (ex_RInt_continuous (V := R_CompleteNormedModule) (fun t => A (S k) t / 2)). intros z _. apply C2.
    - apply C2. }
  exists F. split; [|split].
  - intros x L. unfold F. rewrite Rmax_right by lra. rewrite A_at0, RInt_point. unfold zero; cbn. lra.
  - intros x. unfold F.
    assert (M : continuous (fun x => Rmax x 0) x).
    { apply (continuous_ext (fun x => (x + Rabs x) / 2)).
      - intros y. unfold Rmax, Rabs. destruct (Rle_dec y 0), (Rcase_abs y); lra.
      - apply (continuous_mult (fun x => x + Rabs x) (fun _ => / 2)); [|apply continuous_const].
        apply (continuous_plus (fun x => x) Rabs); [apply continuous_id|apply continuity_pt_filterlim, Rcontinuity_abs]. }
    apply (continuous_plus (fun x => A (S k) (Rmax x 0)) (fun x => RInt (fun t => A (S k) t / 2) 0 (Rmax x 0))).
    + apply (continuous_comp (fun x => Rmax x 0) (A (S k))); [exact M|apply A_cont].
    + apply (continuous_comp (fun x => Rmax x 0) (fun y => RInt (fun t => A (S k) t / 2) 0 y)); [exact M|].
      apply exd. eexists. apply D.
  - intros x X. apply (is_derive_ext_loc (fun t => plus (A (S k) t) (RInt (fun t => A (S k) t / 2) 0 t))).
    { exists (mkposreal x X). intros y B. unfold F. assert (0 < y).
      { unfold ball in B. cbn in B. unfold AbsRing_ball, abs, minus, plus, opp in B. cbn in B. apply Rabs_def2 in B. lra. }
      rewrite Rmax_left by lra. reflexivity. }
    replace (chi2_density (S k) x) with (plus (chi2_density (S k) x - chi2_density (S (S (S k))) x) (A (S k) x / 2)).
    { apply (is_derive_plus (K := R_AbsRing) (V := R_NormedModule)); [now apply A_derive|apply D]. }
    rewrite density_A by lra. unfold plus; cbn -[chi2_density A]. ring.
Qed.

(** ** an upper bound for the whole series: stop after n steps when the ratio is at most 1/2 from there on *)
Fixpoint Ur (k n : nat) (x : R) : R := match n with O => 2 | S m => 1 + x / INR (S (S k)) * Ur (S (S k)) m x end.
Lemma Sr_ge0 k n x : 0 <= x -> 0 <= Sr k n x.
Proof.
  intros X. revert k. induction n as [|n IH]; intros k; cbn [Sr]; [lra|]. specialize (IH (S (S k))). pose proof (INR_pos (S k)).
  assert (0 <= x / INR (S (S k))) by (apply Rdiv_le_0_compat; lra). nra.
Qed.
Lemma half_ratio k x : 0 <= x -> 2 * x <= INR (S (S k)) -> 0 <= x / INR (S (S k)) <= 1 / 2.
Proof.
  intros X H. pose proof (INR_pos (S k)). split; [apply Rdiv_le_0_compat; lra|]. apply (Rmult_le_reg_r (INR (S (S k)))); [lra|].
  unfold Rdiv. rewrite Rmult_assoc, Rinv_l by lra. lra.
Qed.
Lemma Sr_2 M : forall k x, 0 <= x -> 2 * x <= INR (S (S k)) -> Sr k M x <= 2.
Proof.
  induction M as [|M IH]; intros k x X H; cbn [Sr]; [lra|]. pose proof (half_ratio k x X H). pose proof (Sr_ge0 (S (S k)) M x X).
  assert (H' : 2 * x <= INR (S (S (S (S k))))) by (rewrite (SS (S (S k))); lra). specialize (IH (S (S k)) x X H'). nra.
Qed.
Lemma Sr_Ur n M : forall k x, 0 <= x -> 2 * x <= INR (S (S (k + 2 * n))) -> Sr k (n + M) x <= Ur k n x.
Proof.
  induction n as [|n IH]; intros k x X H; cbn [Nat.add Ur Sr].
  - apply Sr_2; [exact X|]. now replace (k + 2 * 0)%nat with k in H by lia.
  - assert (H' : 2 * x <= INR (S (S (S (S k) + 2 * n)))) by (now replace (S (S k) + 2 * n)%nat with (k + 2 * S n)%nat by lia).
    specialize (IH (S (S k)) x X H'). pose proof (INR_pos (S k)). assert (0 <= x / INR (S (S k))) by (apply Rdiv_le_0_compat; lra). nra.
Qed.
Lemma Pr_half m : forall k x, 0 <= x -> 2 * x <= INR (S (S k)) -> Pr (k + 2 * m) x <= Pr k x * (1 / 2) ^ m.
Proof.
  induction m as [|m IH]; intros k x X H; [replace (k + 2 * 0)%nat with k by lia; cbn; lra|].
  replace (k + 2 * S m)%nat with (S (S k) + 2 * m)%nat by lia.
  assert (H' : 2 * x <= INR (S (S (S (S k))))) by (rewrite (SS (S (S k))); lra).
  eapply Rle_trans; [apply IH; assumption|]. rewrite PrS. pose proof (half_ratio k x X H) as [R0 R1]. pose proof (Pr_ge0 k x X).
  assert (0 < (1 / 2) ^ m) by (apply pow_lt; lra).
  replace (Pr k x * x / INR (S (S k))) with (Pr k x * (x / INR (S (S k)))) by (unfold Rdiv; ring).
  change ((1 / 2) ^ S m) with (1 / 2 * (1 / 2) ^ m). rewrite <- Rmult_assoc. apply Rmult_le_compat_r; [lra|]. apply Rmult_le_compat_l; lra.
Qed.
Lemma vanish f a C : 0 <= C -> (forall m, f <= a + C * (1 / 2) ^ m) -> f <= a.
Proof.
  intros HC H. apply Rnot_lt_le. intros L.
  destruct (pow_lt_1_zero (1 / 2) ltac:(rewrite Rabs_pos_eq; lra) ((f - a) / (C + 1))) as [N HN]; [apply Rdiv_lt_0_compat; lra|].
  specialize (HN N (le_n N)). specialize (H N). assert (P : 0 < (1 / 2) ^ N) by (apply pow_lt; lra). rewrite Rabs_pos_eq in HN by lra.
  assert ((C + 1) * (1 / 2) ^ N < f - a). { replace (f - a) with ((C + 1) * ((f - a) / (C + 1))) by (field; lra). apply Rmult_lt_compat_l; lra. }
  nra.
Qed.
Lemma upper f k n x : 0 <= x -> 2 * x <= INR (S (S (k + 2 * n))) ->
  (forall M, (0 < M)%nat -> f <= G k M x + x / 2 * Pr (k + 2 * (M - 1)) x) -> f <= A k x * Ur k n x.
Proof.
  intros X H B. pose proof (Pr_ge0 (k + 2 * n) x X) as P0.
  apply (vanish _ _ (x / 2 * Pr (k + 2 * n) x)); [nra|]. intros m.
  eapply Rle_trans; [apply (B (n + S m)%nat); lia|]. rewrite G_S.
  replace (k + 2 * (n + S m - 1))%nat with (k + 2 * n + 2 * m)%nat by lia.
  pose proof (Sr_Ur n (S m) k x X H). pose proof (A_ge0 k x X). pose proof (Pr_half m (k + 2 * n) x X H).
  apply Rplus_le_compat; [apply Rmult_le_compat_l; lra|]. rewrite Rmult_assoc. apply Rmult_le_compat_l; lra.
Qed.
Lemma cdf_upper k n F x : chi2_cdf (S k) F -> 0 <= x -> 2 * x <= INR (S (S (S k + 2 * n))) -> F x <= A (S k) x * Ur (S k) n x.
Proof. intros HF X H. apply upper; [exact X|exact H|]. intros M HM. exact (proj2 (series_bounds k M F x HF X HM)). Qed.
Lemma cdf_lower k n F x : chi2_cdf (S k) F -> 0 <= x -> A (S k) x * Sr (S k) (S n) x <= F x.
Proof. intros HF X. rewrite <- G_S. exact (proj1 (series_bounds k (S n) F x HF X ltac:(lia))). Qed.
Lemma exp_upper n x : 0 <= x -> 2 * x <= INR (S (S (2 * n))) -> 1 <= exp (- x / 2) * Ur 0 n x.
Proof.
  intros X H. replace (exp (- x / 2)) with (A 0 x) by (unfold A; cbn [Pr]; ring). apply upper; [exact X|exact H|]. intros M HM. pose proof (proj1 (exp_bounds M x X HM)). cbn [Nat.add]. lra.
Qed.
Lemma exp_lower n x : 0 <= x -> exp (- x / 2) * Sr 0 (S n) x <= 1.
Proof.
  intros X. replace (exp (- x / 2)) with (A 0 x) by (unfold A; cbn [Pr]; ring). rewrite <- G_S. exact (proj2 (exp_bounds (S n) x X ltac:(lia))).
Qed.

(** ** bounds computed with integers in units of 2^-32, at x = X / 2^24 *)
Local Open Scope Z_scope.
Definition Bz : Z := 2 ^ 32.
Fixpoint hlo (sh : Z) (n : nat) (k X : Z) : Z := match n with O => 0 | S m => Bz + Z.shiftr (X * hlo sh m (k + 2) X) sh / (k + 2) end.
Fixpoint hup (sh : Z) (n : nat) (k X : Z) : Z := match n with O => 2 * Bz | S m => Bz + Z.shiftr (X * hup sh m (k + 2) X) sh / (k + 2) + 1 end.
Definition PL : Z := 314159265358979.
Definition PH : Z := 314159265358980.
Definition CC : Z := 2 ^ 40 * 10 ^ 14.
Fixpoint plo (k : nat) (X : Z) : Z :=
  match k with O => Bz | 1%nat => Z.sqrt (2 * X * CC / PH) | S (S j) => Z.shiftr (plo j X * X) 24 / Z.of_nat k end.
Fixpoint phi (k : nat) (X : Z) : Z :=
  match k with O => Bz | 1%nat => Z.sqrt (2 * X * CC / PL + 1) + 1 | S (S j) => Z.shiftr (phi j X * X) 24 / Z.of_nat k + 1 end.
Definition n1 (X : Z) : nat := Z.to_nat (20 + X / 2 ^ 26).
Definition n2 (X : Z) : nat := Z.to_nat (25 + X / 2 ^ 24).
Definition pow4 (a : Z) : Z := let b := a * a in b * b.
Definition above (k : nat) (X c : Z) : bool := c * pow4 (hup 26 (S (n1 X)) 0 X) <? 1000 * plo k X * hlo 24 (S (n2 X)) (Z.of_nat k) X * (Bz * Bz).
Definition below (k : nat) (X c : Z) : bool := 1000 * phi k X * hup 24 (S (n2 X)) (Z.of_nat k) X * (Bz * Bz) <? c * pow4 (hlo 26 (S (n1 X)) 0 X).
Local Open Scope R_scope.

Lemma pi_lo : IZR PL / 10 ^ 14 <= PI.
Proof. pose proof (proj1 (PI_2_3_7_ineq 7)) as H. unfold PL. cbn [sum_f_R0 tg_alt Nat.mul Nat.add] in H. unfold tg_alt, PI_2_3_7_tg, Ratan_seq in H. cbn [pow Nat.mul Nat.add INR] in H. lra. Qed.
Lemma pi_hi : PI <= IZR PH / 10 ^ 14.
Proof. pose proof (proj2 (PI_2_3_7_ineq 7)) as H. unfold PH. cbn [sum_f_R0 tg_alt Nat.mul Nat.add] in H. unfold tg_alt, PI_2_3_7_tg, Ratan_seq in H. cbn [pow Nat.mul Nat.add INR] in H. lra. Qed.

(** X / 2^sh *)
Definition xr (sh : Z) (X : Z) : R := IZR X / IZR (2 ^ sh).
Lemma sh_pos sh : (0 <= sh)%Z -> 0 < IZR (2 ^ sh).
Proof. intros H. apply IZR_lt. apply Z.pow_pos_nonneg; lia. Qed.
Lemma xr_ge0 sh X : (0 <= sh)%Z -> (0 <= X)%Z -> 0 <= xr sh X.
Proof. intros H HX. unfold xr. apply Rdiv_le_0_compat; [now apply IZR_le|now apply sh_pos]. Qed.
Lemma div_le a b : (0 < b)%Z -> IZR (a / b) <= IZR a / IZR b < IZR (a / b) + 1.
Proof.
  intros H. pose proof (Z.mul_div_le a b H). pose proof (Z.mul_succ_div_gt a b H) as M. apply IZR_lt in H. split.
  - apply (Rmult_le_reg_r (IZR b)); [exact H|]. unfold Rdiv. rewrite Rmult_assoc, Rinv_l by lra. rewrite Rmult_1_r, <- mult_IZR. apply IZR_le. lia.
  - apply (Rmult_lt_reg_r (IZR b)); [exact H|]. unfold Rdiv. rewrite Rmult_assoc, Rinv_l by lra. rewrite Rmult_1_r, <- plus_IZR, <- mult_IZR. apply IZR_lt. unfold Z.succ in M. lia.
Qed.
Lemma step_div sh X h k : (0 <= sh)%Z -> IZR (Z.shiftr (X * h) sh / Z.of_nat (S k)) <= xr sh X * IZR h / INR (S k) < IZR (Z.shiftr (X * h) sh / Z.of_nat (S k)) + 1.
Proof.
  intros H. rewrite Z.shiftr_div_pow2 by exact H. rewrite Z.div_div by (try apply Z.pow_nonzero; lia).
  pose proof (sh_pos sh H). pose proof (INR_pos k).
  replace (xr sh X * IZR h / INR (S k)) with (IZR (X * h) / IZR (2 ^ sh * Z.of_nat (S k))).
  - apply div_le. apply Z.mul_pos_pos; [apply Z.pow_pos_nonneg; lia|lia].
  - rewrite !mult_IZR, <- INR_IZR_INZ. unfold xr. field. lra.
Qed.
Lemma ZS k : (Z.of_nat k + 2 = Z.of_nat (S (S k)))%Z.
Proof. lia. Qed.
Lemma Bz_pos : 0 < IZR Bz.
Proof. apply IZR_lt. reflexivity. Qed.
Lemma hlo_ok sh n : (0 <= sh)%Z -> forall k X, (0 <= X)%Z -> IZR (hlo sh n (Z.of_nat k) X) <= IZR Bz * Sr k n (xr sh X).
Proof.
  intros Hs. induction n as [|n IH]; intros k X HX; cbn [hlo Sr]; [rewrite Rmult_0_r; lra|].
  rewrite plus_IZR. specialize (IH (S (S k)) X HX). rewrite ZS. pose proof (proj1 (step_div sh X (hlo sh n (Z.of_nat (S (S k))) X) (S k) Hs)) as D.
  pose proof (xr_ge0 sh X Hs HX). pose proof (INR_pos (S k)).
  set (s := IZR (hlo sh n (Z.of_nat (S (S k))) X)) in *. set (r := Sr (S (S k)) n (xr sh X)) in *. set (m := INR (S (S k))) in *.
  assert (xr sh X * s / m <= IZR Bz * (xr sh X / m * r)).
  { replace (IZR Bz * (xr sh X / m * r)) with (xr sh X * (IZR Bz * r) / m) by (field; lra).
    unfold Rdiv. apply Rmult_le_compat_r; [left; apply Rinv_0_lt_compat; lra|]. apply Rmult_le_compat_l; lra. }
  lra.
Qed.
Lemma hup_ok sh n : (0 <= sh)%Z -> forall k X, (0 <= X)%Z -> IZR Bz * Ur k n (xr sh X) <= IZR (hup sh n (Z.of_nat k) X).
Proof.
  intros Hs. induction n as [|n IH]; intros k X HX; cbn [hup Ur]; [rewrite mult_IZR; lra|].
  rewrite !plus_IZR. specialize (IH (S (S k)) X HX). rewrite ZS. pose proof (proj2 (step_div sh X (hup sh n (Z.of_nat (S (S k))) X) (S k) Hs)) as D.
  pose proof (xr_ge0 sh X Hs HX). pose proof (INR_pos (S k)).
  set (s := IZR (hup sh n (Z.of_nat (S (S k))) X)) in *. set (r := Ur (S (S k)) n (xr sh X)) in *. set (m := INR (S (S k))) in *.
  assert (IZR Bz * (xr sh X / m * r) <= xr sh X * s / m).
  { replace (IZR Bz * (xr sh X / m * r)) with (xr sh X * (IZR Bz * r) / m) by (field; lra).
    unfold Rdiv. apply Rmult_le_compat_r; [left; apply Rinv_0_lt_compat; lra|]. apply Rmult_le_compat_l; lra. }
  lra.
Qed.
Lemma CC_pos : (0 < CC)%Z. Proof. reflexivity. Qed.
Lemma sqrt_lo X (w P t25 t14 : R) (Pz : Z) : (0 <= X)%Z -> (0 < Pz)%Z -> IZR (CC) = t25 * t14 -> 0 < t25 -> 0 < t14 -> 0 < P -> P <= IZR Pz / t14 ->
  w = 2 * IZR X * t25 / P -> IZR (Z.sqrt (2 * X * CC / Pz)) <= sqrt w.
Proof.
  intros HX HP E39 H25 H14 P0 P2 Ew. assert (HX' := IZR_le _ _ HX). assert (HP' := IZR_lt _ _ HP).
  pose proof (Z.sqrt_spec (2 * X * CC / Pz)) as [Q _]; [apply Z.div_pos; [pose proof CC_pos; nia|exact HP]|]. revert Q. generalize (Z.sqrt_nonneg (2 * X * CC / Pz)).
  set (q := Z.sqrt _). intros q0 Q.
  apply IZR_le in q0. apply IZR_le in Q. rewrite mult_IZR in Q.
  assert (L : IZR (2 * X * CC / Pz) <= w).
  { eapply Rle_trans; [now apply div_le|]. rewrite !mult_IZR, E39, Ew.
    replace (2 * IZR X * t25 / P) with (2 * IZR X * t25 * / P) by (unfold Rdiv; ring).
    replace (2 * IZR X * (t25 * t14) / IZR Pz) with (2 * IZR X * t25 * / (IZR Pz / t14)) by (field; lra).
    apply Rmult_le_compat_l; [nra|]. apply Rinv_le_contravar; lra. }
  rewrite <- (sqrt_square (IZR q)) by lra. apply sqrt_le_1_alt. lra.
Qed.
Lemma sqrt_hi X (w P t25 t14 : R) (Pz : Z) : (0 <= X)%Z -> (0 < Pz)%Z -> IZR (CC) = t25 * t14 -> 0 < t25 -> 0 < t14 -> IZR Pz / t14 <= P ->
  w = 2 * IZR X * t25 / P -> sqrt w <= IZR (Z.sqrt (2 * X * CC / Pz + 1) + 1).
Proof.
  intros HX HP E39 H25 H14 P2 Ew. assert (HX' := IZR_le _ _ HX). assert (HP' := IZR_lt _ _ HP).
  assert (P1 : 0 < IZR Pz / t14) by (apply Rdiv_lt_0_compat; lra).
  assert (V0 : (0 <= 2 * X * CC / Pz)%Z) by (apply Z.div_pos; [pose proof CC_pos; nia|exact HP]).
  pose proof (Z.sqrt_spec (2 * X * CC / Pz + 1)) as [_ Q]; [lia|]. revert Q. generalize (Z.sqrt_nonneg (2 * X * CC / Pz + 1)). set (q := Z.sqrt _). intros q0 Q.
  unfold Z.succ in Q. assert (q1 : 0 <= IZR (q + 1)) by (apply IZR_le; lia).
  assert (L : w <= IZR (2 * X * CC / Pz + 1)).
  { apply Rle_trans with (IZR (2 * X * CC) / IZR Pz).
    - rewrite !mult_IZR, E39, Ew.
      replace (2 * IZR X * t25 / P) with (2 * IZR X * t25 * / P) by (unfold Rdiv; ring).
      replace (2 * IZR X * (t25 * t14) / IZR Pz) with (2 * IZR X * t25 * / (IZR Pz / t14)) by (field; lra).
      apply Rmult_le_compat_l; [nra|]. apply Rinv_le_contravar; lra.
    - pose proof (Z.mul_succ_div_gt (2 * X * CC) Pz HP) as M. unfold Z.succ in M.
      apply IZR_lt in M. rewrite (mult_IZR Pz) in M. apply (Rmult_le_reg_r (IZR Pz)); [exact HP'|].
      unfold Rdiv. rewrite Rmult_assoc, Rinv_l by lra. lra. }
  apply IZR_lt in Q. rewrite mult_IZR in Q. rewrite <- (sqrt_square (IZR (q + 1))) by lra. apply sqrt_le_1_alt. lra.
Qed.
Lemma e40 : IZR CC = IZR (2 ^ 40) * 10 ^ 14. Proof. rewrite pow_IZR. rewrite <- mult_IZR. reflexivity. Qed.
Lemma root_scaled X : (0 <= X)%Z -> sqrt (2 * xr 24 X / PI) * IZR Bz = sqrt (2 * IZR X * IZR (2 ^ 40) / PI).
Proof.
  intros HX. apply IZR_le in HX. pose proof PI_RGT_0. pose proof Bz_pos as B. unfold xr. pose proof (sh_pos 24 ltac:(lia)) as D.
  assert (E : IZR (2 ^ 40) * IZR (2 ^ 24) = IZR Bz * IZR Bz) by (rewrite <- !mult_IZR; reflexivity).
  revert E B D. generalize (IZR (2 ^ 40)) (IZR (2 ^ 24)) (IZR Bz). intros a d t E B D.
  replace (2 * IZR X * a / PI) with (2 * (IZR X / d) / PI * (t * t)) by (rewrite <- E; field; lra).
  rewrite sqrt_mult, sqrt_square; [reflexivity|lra| |nra]. apply Rdiv_le_0_compat; [|lra]. apply Rmult_le_pos; [lra|]. apply Rdiv_le_0_compat; lra.
Qed.
Lemma plo_ok X : (0 <= X)%Z -> forall k, IZR (plo k X) <= IZR Bz * Pr k (xr 24 X).
Proof.
  intros HX. pose proof (xr_ge0 24 X ltac:(lia) HX) as x0. pose proof PI_RGT_0 as P0. pose proof pi_hi as P2.
  apply two_step; [cbn; lra| |].
  - change (Pr 1 (xr 24 X)) with (sqrt (2 * xr 24 X / PI)). rewrite Rmult_comm, root_scaled by exact HX.
    apply (sqrt_lo X _ PI (IZR (2 ^ 40)) (10 ^ 14) PH); try assumption; try reflexivity; try (apply sh_pos; lia); [exact e40|apply pow_lt; lra].
  - intros k H. rewrite PrS. change (plo (S (S k)) X) with (Z.shiftr (plo k X * X) 24 / Z.of_nat (S (S k)))%Z. rewrite (Z.mul_comm (plo k X)).
    eapply Rle_trans; [apply (proj1 (step_div 24 X (plo k X) (S k) ltac:(lia)))|]. pose proof (INR_pos (S k)).
    replace (IZR Bz * (Pr k (xr 24 X) * xr 24 X / INR (S (S k)))) with (xr 24 X * (IZR Bz * Pr k (xr 24 X)) / INR (S (S k))) by (field; lra).
    unfold Rdiv. apply Rmult_le_compat_r; [left; apply Rinv_0_lt_compat; lra|]. apply Rmult_le_compat_l; lra.
Qed.
Lemma phi_ok X : (0 <= X)%Z -> forall k, IZR Bz * Pr k (xr 24 X) <= IZR (phi k X).
Proof.
  intros HX. pose proof (xr_ge0 24 X ltac:(lia) HX) as x0. pose proof PI_RGT_0 as P0. pose proof pi_lo as P1.
  apply two_step; [cbn; lra| |].
  - change (Pr 1 (xr 24 X)) with (sqrt (2 * xr 24 X / PI)). rewrite Rmult_comm, root_scaled by exact HX.
    apply (sqrt_hi X _ PI (IZR (2 ^ 40)) (10 ^ 14) PL); try assumption; try reflexivity; try (apply sh_pos; lia); [exact e40|apply pow_lt; lra].
  - intros k H. rewrite PrS. change (phi (S (S k)) X) with (Z.shiftr (phi k X * X) 24 / Z.of_nat (S (S k)) + 1)%Z. rewrite (Z.mul_comm (phi k X)).
    rewrite plus_IZR. eapply Rle_trans; [|left; apply (proj2 (step_div 24 X (phi k X) (S k) ltac:(lia)))]. pose proof (INR_pos (S k)).
    replace (IZR Bz * (Pr k (xr 24 X) * xr 24 X / INR (S (S k)))) with (xr 24 X * (IZR Bz * Pr k (xr 24 X)) / INR (S (S k))) by (field; lra).
    unfold Rdiv. apply Rmult_le_compat_r; [left; apply Rinv_0_lt_compat; lra|]. apply Rmult_le_compat_l; lra.
Qed.
Lemma enough sh X n k : (0 <= sh)%Z -> (0 <= X)%Z -> (X / 2 ^ sh + 1 <= Z.of_nat n)%Z -> 2 * xr sh X <= INR (S (S (k + 2 * n))).
Proof.
  intros Hs HX H. pose proof (proj2 (div_le X (2 ^ sh) ltac:(apply Z.pow_pos_nonneg; lia))) as D. fold (xr sh X) in D.
  apply IZR_le in H. rewrite plus_IZR, <- INR_IZR_INZ in H. rewrite !S_INR, plus_INR, mult_INR. cbn [INR]. pose proof (pos_INR k). lra.
Qed.
Lemma quarter X : xr 24 X = 4 * xr 26 X.
Proof. unfold xr. replace (IZR (2 ^ 26)) with (4 * IZR (2 ^ 24)) by (rewrite <- mult_IZR; reflexivity). pose proof (sh_pos 24 ltac:(lia)). field. lra. Qed.
Lemma exp4 X : exp (- xr 24 X / 2) = exp (- xr 26 X / 2) * exp (- xr 26 X / 2) * (exp (- xr 26 X / 2) * exp (- xr 26 X / 2)).
Proof. rewrite <- !exp_plus. f_equal. rewrite quarter. lra. Qed.
Lemma n1_ok X : (0 <= X)%Z -> (X / 2 ^ 26 + 1 <= Z.of_nat (S (n1 X)))%Z.
Proof. intros H. assert (0 <= X / 2 ^ 26)%Z by (apply Z.div_pos; [lia|reflexivity]). unfold n1. lia. Qed.
Lemma n2_ok X : (0 <= X)%Z -> (X / 2 ^ 24 + 1 <= Z.of_nat (S (n2 X)))%Z.
Proof. intros H. assert (0 <= X / 2 ^ 24)%Z by (apply Z.div_pos; [lia|reflexivity]). unfold n2. lia. Qed.
Lemma hlo_nonneg sh n : forall k X, (0 <= k)%Z -> (0 <= X)%Z -> (0 <= hlo sh n k X)%Z.
Proof.
  induction n as [|n IH]; intros k X Hk HX; cbn [hlo]; [lia|]. specialize (IH (k + 2)%Z X ltac:(lia) HX).
  assert (0 <= Z.shiftr (X * hlo sh n (k + 2) X) sh / (k + 2))%Z by (apply Z.div_pos; [apply Z.shiftr_nonneg|]; nia).
  assert (0 < Bz)%Z by reflexivity. lia.
Qed.
Lemma plo_nonneg X : (0 <= X)%Z -> forall k, (0 <= plo k X)%Z.
Proof.
  intros HX. apply two_step; [discriminate|apply Z.sqrt_nonneg|]. intros k H.
  change (plo (S (S k)) X) with (Z.shiftr (plo k X * X) 24 / Z.of_nat (S (S k)))%Z. apply Z.div_pos; [apply Z.shiftr_nonneg; nia|lia].
Qed.
(** four factors at once *)
Lemma pow4_IZR a : IZR (pow4 a) = IZR a * IZR a * (IZR a * IZR a).
Proof. unfold pow4. now rewrite !mult_IZR. Qed.
Lemma mono4 a b : 0 <= a <= b -> a * a * (a * a) <= b * b * (b * b).
Proof. intros H. assert (0 <= a * a <= b * b) by nra. nra. Qed.
Lemma above_ok k X c F : chi2_cdf (S k) F -> (0 <= X)%Z -> (0 <= c)%Z -> above (S k) X c = true -> IZR c / 1000 < F (xr 24 X).
Proof.
  intros HF HX Hc C. unfold above in C. apply Z.ltb_lt in C. apply IZR_lt in C. rewrite !mult_IZR, pow4_IZR in C.
  pose proof (cdf_lower k (n2 X) F (xr 24 X) HF (xr_ge0 24 X ltac:(lia) HX)) as L. unfold A in L. rewrite exp4 in L.
  pose proof (exp_upper (S (n1 X)) (xr 26 X) (xr_ge0 26 X ltac:(lia) HX) (enough 26 X (S (n1 X)) 0 ltac:(lia) HX (n1_ok X HX))) as E.
  pose proof (hup_ok 26 (S (n1 X)) ltac:(lia) 0 X HX) as U. change (Z.of_nat 0) with 0%Z in U.
  pose proof (hlo_ok 24 (S (n2 X)) ltac:(lia) (S k) X HX) as V. pose proof (plo_ok X HX (S k)) as W.
  pose proof (hlo_nonneg 24 (S (n2 X)) (Z.of_nat (S k)) X ltac:(lia) HX) as V0. pose proof (plo_nonneg X HX (S k)) as W0.
  pose proof (Pr_ge0 (S k) (xr 24 X) (xr_ge0 24 X ltac:(lia) HX)) as P0. pose proof Bz_pos as B0.
  apply IZR_le in V0. apply IZR_le in W0. apply IZR_le in Hc.
  revert L E U V W V0 W0 P0 C B0. generalize (exp_pos (- xr 26 X / 2)). generalize (exp (- xr 26 X / 2)) (Sr (S k) (S (n2 X)) (xr 24 X)) (Ur 0 (S (n1 X)) (xr 26 X)) (Pr (S k) (xr 24 X)) (F (xr 24 X)).
  generalize (IZR (hup 26 (S (n1 X)) 0 X)) (IZR (hlo 24 (S (n2 X)) (Z.of_nat (S k)) X)) (IZR (plo (S k) X)) (IZR Bz).
  intros hu hl pl B e s u p f e0 L E U V W V0 W0 P0 C B0. clear HF HX.
  assert (E1 : B <= e * hu). { apply Rle_trans with (e * (B * u)); [nra|apply Rmult_le_compat_l; lra]. }
  assert (E4 : B * B * (B * B) <= e * e * (e * e) * (hu * hu * (hu * hu))).
  { replace (e * e * (e * e) * (hu * hu * (hu * hu))) with (e * hu * (e * hu) * (e * hu * (e * hu))) by ring. apply mono4. lra. }
  assert (Q : pl * hl <= B * B * (p * s)).
  { apply Rle_trans with (B * p * hl); [apply Rmult_le_compat_r; lra|]. replace (B * B * (p * s)) with (B * p * (B * s)) by ring. apply Rmult_le_compat_l; [apply Rmult_le_pos; lra|lra]. }
  set (e4 := e * e * (e * e)) in *. assert (e40 : 0 < e4) by (unfold e4; repeat apply Rmult_lt_0_compat; exact e0).
  replace (p * e4 * s) with (p * s * e4) in L by ring.
  set (b4 := B * B * (B * B)) in *. assert (b40 : 0 < b4) by (unfold b4; repeat apply Rmult_lt_0_compat; exact B0).
  apply (Rmult_lt_reg_r (1000 * b4)); [lra|].
  replace (IZR c / 1000 * (1000 * b4)) with (IZR c * b4) by field.
  apply Rle_lt_trans with (IZR c * (e4 * (hu * hu * (hu * hu)))); [apply Rmult_le_compat_l; lra|].
  apply Rlt_le_trans with (1000 * pl * hl * (B * B) * e4); [nra|].
  apply Rle_trans with (1000 * (B * B * (p * s)) * (B * B) * e4).
  - apply Rmult_le_compat_r; [lra|]. apply Rmult_le_compat_r; [nra|]. lra.
  - replace (1000 * (B * B * (p * s)) * (B * B) * e4) with (p * s * e4 * (1000 * b4)) by (unfold b4; ring). apply Rmult_le_compat_r; lra.
Qed.
Lemma below_ok k X c F : chi2_cdf (S k) F -> (0 <= X)%Z -> (0 <= c)%Z -> below (S k) X c = true -> F (xr 24 X) < IZR c / 1000.
Proof.
  intros HF HX Hc C. unfold below in C. apply Z.ltb_lt in C. apply IZR_lt in C. rewrite !mult_IZR, pow4_IZR in C.
  pose proof (cdf_upper k (S (n2 X)) F (xr 24 X) HF (xr_ge0 24 X ltac:(lia) HX) (enough 24 X (S (n2 X)) (S k) ltac:(lia) HX (n2_ok X HX))) as L.
  unfold A in L. rewrite exp4 in L.
  pose proof (exp_lower (n1 X) (xr 26 X) (xr_ge0 26 X ltac:(lia) HX)) as E.
  pose proof (hlo_ok 26 (S (n1 X)) ltac:(lia) 0 X HX) as U. change (Z.of_nat 0) with 0%Z in U.
  pose proof (hup_ok 24 (S (n2 X)) ltac:(lia) (S k) X HX) as V. pose proof (phi_ok X HX (S k)) as W.
  pose proof (hlo_nonneg 26 (S (n1 X)) 0 X ltac:(lia) HX) as U0.
  pose proof (Pr_ge0 (S k) (xr 24 X) (xr_ge0 24 X ltac:(lia) HX)) as P0. pose proof Bz_pos as B0.
  assert (S0 : 0 <= Ur (S k) (S (n2 X)) (xr 24 X)).
  { eapply Rle_trans; [|apply (Sr_Ur (S (n2 X)) 0); [apply xr_ge0; [lia|exact HX]|exact (enough 24 X (S (n2 X)) (S k) ltac:(lia) HX (n2_ok X HX))]]. apply Sr_ge0. apply xr_ge0; [lia|exact HX]. }
  apply IZR_le in U0. apply IZR_le in Hc.
  revert L E U V W U0 S0 P0 C B0. generalize (exp_pos (- xr 26 X / 2)). generalize (exp (- xr 26 X / 2)) (Ur (S k) (S (n2 X)) (xr 24 X)) (Sr 0 (S (n1 X)) (xr 26 X)) (Pr (S k) (xr 24 X)) (F (xr 24 X)).
  generalize (IZR (hlo 26 (S (n1 X)) 0 X)) (IZR (hup 24 (S (n2 X)) (Z.of_nat (S k)) X)) (IZR (phi (S k) X)) (IZR Bz).
  intros hl hu ph B e s u p f e0 L E U V W U0 S0 P0 C B0. clear HF HX.
  assert (E1 : e * hl <= B). { apply Rle_trans with (e * (B * u)); [apply Rmult_le_compat_l; lra|nra]. }
  assert (E4 : e * e * (e * e) * (hl * hl * (hl * hl)) <= B * B * (B * B)).
  { replace (e * e * (e * e) * (hl * hl * (hl * hl))) with (e * hl * (e * hl) * (e * hl * (e * hl))) by ring. apply mono4. split; [apply Rmult_le_pos; lra|lra]. }
  assert (Q : B * B * (p * s) <= ph * hu).
  { replace (B * B * (p * s)) with (B * p * (B * s)) by ring. apply Rmult_le_compat; try lra; apply Rmult_le_pos; lra. }
  set (e4 := e * e * (e * e)) in *. assert (e40 : 0 < e4) by (unfold e4; repeat apply Rmult_lt_0_compat; exact e0).
  replace (p * e4 * s) with (p * s * e4) in L by ring.
  set (b4 := B * B * (B * B)) in *. assert (b40 : 0 < b4) by (unfold b4; repeat apply Rmult_lt_0_compat; exact B0).
  apply (Rmult_lt_reg_r (1000 * b4)); [lra|].
  replace (IZR c / 1000 * (1000 * b4)) with (IZR c * b4) by field.
  apply Rlt_le_trans with (IZR c * (e4 * (hl * hl * (hl * hl)))); [|apply Rmult_le_compat_l; lra].
  apply Rle_lt_trans with (1000 * ph * hu * (B * B) * e4); [|nra].
  apply Rle_trans with (1000 * (B * B * (p * s)) * (B * B) * e4).
  - replace (1000 * (B * B * (p * s)) * (B * B) * e4) with (p * s * e4 * (1000 * b4)) by (unfold b4; ring). apply Rmult_le_compat_r; lra.
  - apply Rmult_le_compat_r; [lra|]. apply Rmult_le_compat_r; [nra|]. lra.
Qed.
