(** Horizon checks and the age test for exact times and for wall-clock epoch times in one statement. *)
From Coq Require Import ZArith List Bool Reals Lra Lia Arith Sorted.
From Flocq Require Import Core IEEE754.BinarySingleNaN.
From Verif Require Import Outcome TimestampModel DoubleModel Spec_Time TimestampProofs DoubleProofs BufModel Spec_Buf BufProofs HorizonModel HorizonProofs EpochProofs MeasModel HandlerModel Spec_Handler AgeProofs.
Import ListNotations.
Local Open Scope Z_scope.
Local Open Scope outcome_scope.

Section Noop.
Context {T : Type}.
Variables tmax sl : Z.
Hypothesis Ck : clock tmax sl.
Implicit Types (l : buf T).
Lemma clock_bounds : 0 <= sl /\ tmax <= epoch_max /\ 2097151 * 1000000000 <= tmax.
Proof. unfold epoch_max. destruct Ck as [[-> ->]|[-> ->]]; lia. Qed.
Lemma trim_from_noop h hz a l : wsorted l -> h_near h hz -> 0 <= hz < 2097151 * 1000000000 -> 0 <= a < tmax ->
  (forall e, In e l -> a - fst e <= hz - sl) -> trim_from h (from_stamp_ns a) l = Ok l.
Proof.
  intros W N Hh Ha Hl.
  assert (K : exists c, trim_from h (from_stamp_ns a) l = Ok (remove_before_t c l) /\ forall e, In e l -> c <= fst e).
  { destruct Ck as [[-> ->]|[-> ->]].
    - exists (a - hz). split; [now apply trim_exact|]. intros e I. specialize (Hl e I). lia.
    - destruct (trim_key_31 h hz a N ltac:(unfold epoch_max; lia) Ha) as [o [c [Eo [Ec Bc]]]]. exists c.
      split; [unfold trim_from; rewrite Eo; cbn [obind]; now rewrite Ec|]. intros e I. specialize (Hl e I). lia. }
  destruct K as [c [-> K]]. f_equal. rewrite remove_before_filter by exact W. destruct (existsb _ l); [|reflexivity].
  apply filter_all_true. rewrite Forall_forall. intros e I. specialize (K e I). lia.
Qed.
Lemma check_clock h hz l : wsorted l -> h_near h hz -> 0 <= hz < 2097151 * 1000000000 -> (forall e, In e l -> 0 <= fst e < tmax) ->
  (forall e e', In e l -> In e' l -> fst e - fst e' <= hz - sl) -> check_horizon h l = Ok l.
Proof.
  intros W N Hh Hb Hl. unfold check_horizon. destruct (negb (empty l) && _); [|reflexivity]. destruct (get_latest_t l) as [a|] eqn:E; [|reflexivity].
  destruct (latest_t_spec l a W E) as [[v I] _]. apply (trim_from_noop h hz); auto; [exact (Hb _ I)|]. intros e Ie. exact (Hl _ _ I Ie).
Qed.
Lemma check_restricted_clock h hz n l : wsorted l -> h_near h hz -> 0 <= hz < 2097151 * 1000000000 -> (forall e, In e l -> 0 <= fst e < tmax) ->
  (forall e e', In e l -> In e' l -> fst e - fst e' <= hz - sl) -> check_horizon_restricted h n l = Ok l.
Proof.
  intros W N Hh Hb Hl. unfold check_horizon_restricted. destruct (_ && _); [|reflexivity]. destruct (get_latest_t l) as [a|] eqn:E; [|reflexivity].
  destruct (latest_t_spec l a W E) as [[v I] _]. apply (trim_from_noop h hz); auto; [exact (Hb _ I)|]. intros e Ie. exact (Hl _ _ I Ie).
Qed.
Lemma check_from_clock h hz t l : wsorted l -> h_near h hz -> 0 <= hz < 2097151 * 1000000000 -> 0 <= t < tmax ->
  (forall e, In e l -> t - fst e <= hz - sl) -> check_horizon_from_t h (from_stamp_ns t) l = Ok l.
Proof. intros W N Hh Hb Hl. unfold check_horizon_from_t. destruct (negb _); [|reflexivity]. now apply (trim_from_noop h hz). Qed.
Lemma check_keeps h hz a l : wsorted l -> h_near h hz -> sl <= hz < 2097151 * 1000000000 -> (forall e, In e l -> 0 <= fst e < tmax) ->
  get_latest_t l = Some a -> exists c, check_horizon h l = Ok (filter (fun e => c <=? fst e) l) /\ c <= a - hz + sl.
Proof.
  intros W N Hh Hb E. destruct Ck as [[-> ->]|[-> ->]].
  - exists (a - hz). split; [|lia]. exact (check_horizon_exact h hz a l W N Hh Hb E).
  - assert (Hh' : 239 <= hz < epoch_max) by (unfold epoch_max; lia).
    destruct (check_horizon_31 h hz a l W N Hh' Hb E) as [c [Q B]]. exists c. split; [exact Q|lia].
Qed.
End Noop.

(** ** age at epoch times *)
Local Open Scope R_scope.
Lemma to_sec_mono a b : (0 <= a <= b)%Z -> (b < epoch_max)%Z -> B2R (to_sec (from_stamp_ns a)) <= B2R (to_sec (from_stamp_ns b)).
Proof.
  intros L Lb. destruct (from_ns_31 a ltac:(lia)) as [Sa [Na Ia]], (from_ns_31 b ltac:(lia)) as [Sb [Nb Ib]].
  set (x := from_stamp_ns a) in *. set (y := from_stamp_ns b) in *. unfold normalised, instant_ns, giga in *.
  destruct d_1em9_spec as [Fc Ec]. apply Rabs_le_inv in Ec. assert (Bc : bpow radix2 (-83) <= / 9000000000000000000000000) by (simpl bpow; lra).
  assert (G : forall t, (0 <= sec t < 2147483647)%Z -> (0 <= nsec t < 1000000000)%Z ->
    B2R (to_sec t) = rnd (IZR (sec t) + rnd (B2R d_1em9 * IZR (nsec t))) /\ 0 <= rnd (B2R d_1em9 * IZR (nsec t)) <= 1).
  { intros t Hs Hn. destruct (d_of_Z_exact (sec t)) as [Es Fs]; [lia|]. destruct (d_of_Z_exact (nsec t)) as [En Fn]; [lia|].
    assert (Hn' : 0 <= IZR (nsec t) <= 999999999) by (split; apply IZR_le; lia).
    assert (P : IZR 0 <= B2R d_1em9 * B2R (d_of_Z (nsec t)) <= IZR 1) by (rewrite En; split; nra).
    destruct (d_mul_spec _ _ Fc Fn) as [Em Fm]. { rewrite Rabs_pos_eq by (apply P). eapply Rle_trans; [apply P|]. apply (IZR_le 1). lia. }
    assert (Pm : IZR 0 <= rnd (B2R d_1em9 * B2R (d_of_Z (nsec t))) <= IZR 1) by (apply rnd_between; [lia|lia|exact P]).
    assert (Hs' : 0 <= IZR (sec t) <= 2147483647) by (split; apply IZR_le; lia).
    destruct (d_add_spec (d_of_Z (sec t)) (d_mul d_1em9 (d_of_Z (nsec t))) Fs Fm) as [Ea Fa].
    { rewrite Es, Em. apply Rabs_le. assert (4294967296 <= IZR (2^100)) by (apply IZR_le; lia). lra. }
    unfold to_sec. rewrite En in Pm, Em. split; [|exact Pm]. rewrite Ea, Es, Em. reflexivity. }
  destruct (G x ltac:(lia) ltac:(lia)) as [-> Px], (G y ltac:(lia) ltac:(lia)) as [-> Py]. apply rnd_le.
  destruct (Z.eq_dec (sec x) (sec y)) as [E|E].
  - rewrite E. apply Rplus_le_compat_l. apply rnd_le. apply Rmult_le_compat_l; [lra|]. apply IZR_le. lia.
  - assert (IZR (sec x) + 1 <= IZR (sec y)) by (rewrite <- plus_IZR; apply IZR_le; lia). lra.
Qed.
Lemma sub_near_31 a b : (0 <= a < epoch_max)%Z -> (0 <= b < epoch_max)%Z ->
  is_finite (d_sub (to_sec (from_stamp_ns a)) (to_sec (from_stamp_ns b))) = true /\
  B2R (d_sub (to_sec (from_stamp_ns a)) (to_sec (from_stamp_ns b))) = rnd (B2R (to_sec (from_stamp_ns a)) - B2R (to_sec (from_stamp_ns b))) /\
  Rabs (B2R (d_sub (to_sec (from_stamp_ns a)) (to_sec (from_stamp_ns b))) * 1000000000 - IZR (a - b)) <= 357.65.
Proof.
  intros Ha Hb. destruct (from_ns_31 a Ha) as [Sa [Na Ia]], (from_ns_31 b Hb) as [Sb [Nb Ib]].
  destruct (to_sec_31 _ Sa Na) as [Fa [Ea Ba]], (to_sec_31 _ Sb Nb) as [Fb [Eb Bb]]. rewrite Ia in Ea, Ba. rewrite Ib in Eb, Bb. apply Rabs_le_inv in Ea, Eb.
  set (x := B2R (to_sec (from_stamp_ns a))) in *. set (z := B2R (to_sec (from_stamp_ns b))) in *.
  destruct (d_sub_spec _ _ Fa Fb) as [E F].
  { fold x z. apply Rabs_le. assert (4294967296 <= IZR (2^100)) by (apply IZR_le; lia). lra. }
  fold x z in E. assert (R : Rabs (rnd (x - z) - (x - z)) <= / 8388608) by (apply rnd_err31, Rabs_lt; lra). apply Rabs_le_inv in R.
  split; [exact F|]. split; [exact E|]. rewrite E, minus_IZR. apply Rabs_le. lra.
Qed.
Local Open Scope Z_scope.
Lemma too_old_clock {P} tmax sl (m : meas P) l : clock tmax sl -> wsorted l -> (forall e, In e l -> 0 <= fst e < tmax) -> 0 <= m_t m < tmax ->
  (too_old m l = true -> l <> [] /\ forall e, In e l -> m_t m <= fst e + sl) /\
  (l <> [] -> (forall e, In e l -> m_t m <= fst e) -> too_old m l = true).
Proof.
  intros Ck W Hl Hm. destruct Ck as [[-> ->]|[-> ->]].
  { rewrite too_old_exact by assumption. split.
    - intros H. destruct (get_oldest_t l) as [b|] eqn:E; [|discriminate]. split; [intros ->; discriminate|].
      destruct (oldest_t_spec _ _ W E) as [_ Mb]. intros e I. specialize (Mb e I). lia.
    - intros N H. destruct (nonempty_oldest l N) as [b E]. rewrite E. destruct (oldest_t_spec _ _ W E) as [[v I] _]. specialize (H _ I). cbn in H. lia. }
  change (2147483647 * 1000000000) with epoch_max in *. unfold too_old. destruct (get_latest_t l) as [a|] eqn:Ea.
  2:{ split; [discriminate|]. intros N. destruct (nonempty_latest l N) as [a E]. congruence. }
  destruct (latest_t_spec _ _ W Ea) as [[va Ia] Ma]. pose proof (Hl _ Ia) as Ba. cbn in Ba.
  assert (Nl : l <> []) by (intros ->; contradiction). destruct (nonempty_oldest l Nl) as [b Eb].
  destruct (oldest_t_spec _ _ W Eb) as [[vb Ib] Mb]. pose proof (Hl _ Ib) as Bb. cbn in Bb.
  destruct (sub_near_31 a (m_t m) Ba Hm) as [Fm [Em Rm]]. destruct (sub_near_31 a b Ba Bb) as [Fb [Efb Rb]]. apply Rabs_le_inv in Rm, Rb.
  assert (S : is_finite (span_sec l) = true /\ (Rabs (B2R (span_sec l) * 1000000000 - IZR (a - b)) <= 357.65)%R /\
     (m_t m <= b -> (B2R (span_sec l) <= B2R (d_sub (to_sec (from_stamp_ns a)) (to_sec (from_stamp_ns (m_t m)))))%R)).
  { unfold span_sec, size. destruct (Nat.ltb_spec 1 (length l)) as [L|L].
    - rewrite Ea, Eb. split; [exact Fb|]. split; [apply Rabs_le; lra|]. intros Lm. rewrite Em, Efb. apply rnd_le.
      pose proof (to_sec_mono (m_t m) b ltac:(lia) ltac:(unfold epoch_max in *; lia)). lra.
    - destruct (d_of_Z_exact 0) as [Z0 F0]; [lia|]. rewrite Z0. assert (a = b).
      { destruct l as [|x [|y r]]; cbn in L; try lia; [contradiction|]. destruct Ia as [->|[]], Ib as [Q|[]]. congruence. }
      subst b. split; [exact F0|]. split; [rewrite Z.sub_diag; apply Rabs_le; lra|]. intros Lm. rewrite Em.
      pose proof (to_sec_mono (m_t m) a ltac:(lia) ltac:(unfold epoch_max in *; lia)).
      rewrite <- (rnd_Z 0) by lia. apply rnd_le. cbn. lra. }
  destruct S as [Fs [Rs Ms]]. apply Rabs_le_inv in Rs. rewrite Bleb_correct by assumption. split.
  - intros H. split; [exact Nl|]. intros e I. specialize (Mb e I). pose proof (Rle_bool_spec (B2R (span_sec l)) (B2R (d_sub (to_sec (from_stamp_ns a)) (to_sec (from_stamp_ns (m_t m)))))) as Q. rewrite H in Q. inversion Q as [Q'|].
    assert (A : (IZR (m_t m) < IZR (b + 1000 + 1))%R). { rewrite !minus_IZR in *. rewrite !plus_IZR. lra. }
    apply lt_IZR in A. lia.
  - intros _ H. apply Rle_bool_true, Ms. exact (H _ Ib).
Qed.
