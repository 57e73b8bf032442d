(** Timestamps, closest queries and horizons at wall-clock epoch times (up to January 2038), where seconds stored in a double
    resolve about 238 ns: error bounds. *)
From Coq Require Import ZArith List Bool Reals Lra Lia Arith.
From Flocq Require Import Core IEEE754.BinarySingleNaN.
From Verif Require Import Outcome TimestampModel DoubleModel Spec_Time TimestampProofs DoubleProofs BufModel Spec_Buf BufProofs HorizonModel HorizonProofs.
Import ListNotations.
Local Open Scope R_scope.
Local Open Scope outcome_scope.

(** 2^31 - 1 seconds *)
Definition epoch_max : Z := 2147483647 * 1000000000.

Lemma b23 : bpow radix2 (31 - 54) = / 8388608.
Proof. simpl bpow. lra. Qed.
Lemma rnd_err31 x : Rabs x < 2147483648 -> Rabs (rnd x - x) <= / 8388608.
Proof. intros H. rewrite <- b23. apply rnd_err; [lia|]. change (bpow radix2 31) with 2147483648. exact H. Qed.
Lemma rnd_err32 x : Rabs x < 4294967296 -> Rabs (rnd x - x) <= / 4194304.
Proof. intros H. eapply Rle_trans; [apply (rnd_err 32); [lia|]|simpl bpow; lra]. change (bpow radix2 32) with 4294967296. exact H. Qed.

Lemma to_sec_31 t : (0 <= sec t < 2147483647)%Z -> normalised t ->
  is_finite (to_sec t) = true /\ Rabs (B2R (to_sec t) - IZR (instant_ns t) / 1000000000) <= / 8388608 + / 3000000000000000 /\
  0 <= IZR (instant_ns t) <= 2147483647 * 1000000000.
Proof.
  intros Hs Hn. unfold normalised, giga in Hn.
  destruct (to_sec_err t 31) as [F E]; [lia|exact Hn|lia| |].
  { rewrite <- abs_IZR. change (bpow radix2 31) with (IZR (2^31)). rewrite <- plus_IZR. apply IZR_le. lia. }
  rewrite b23 in E. split; [exact F|]. split; [exact E|].
  unfold instant_ns, giga. split; [apply IZR_le; lia|rewrite <- mult_IZR; apply IZR_le; lia].
Qed.
Lemma from_ns_31 k : (0 <= k < epoch_max)%Z -> (0 <= sec (from_stamp_ns k) < 2147483647)%Z /\ normalised (from_stamp_ns k) /\ instant_ns (from_stamp_ns k) = k.
Proof.
  unfold epoch_max. intros H. destruct (from_ns_nonneg_normalised k) as [N I]; [unfold is_int64; lia|lia|].
  split; [|split; assumption]. unfold normalised, instant_ns, giga in *. lia.
Qed.

(** back to a timestamp *)
Lemma back x (k e : R) : is_finite x = true -> Rabs k <= 5000000000 * 1000000000 -> Rabs (B2R x * 1000000000 - k) <= e -> e <= 1000 ->
  exists r, from_sec x = Ok r /\ normalised r /\ stamp_ns r = Ok (instant_ns r) /\ Rabs (IZR (instant_ns r) - k) <= e + / 2 + / 4000000.
Proof.
  intros F Hk E He. apply Rabs_le_inv in Hk, E.
  assert (Fl : (-5000000003 <= Zfloor (B2R x) <= 5000000002)%Z).
  { pose proof (Zfloor_lb (B2R x)). pose proof (Zfloor_ub (B2R x)).
    assert (A : IZR (-5000000004) < IZR (Zfloor (B2R x))) by lra. assert (B : IZR (Zfloor (B2R x)) < IZR 5000000003) by lra.
    apply lt_IZR in A. apply lt_IZR in B. lia. }
  destruct (from_sec_normalised x F) as [r [Er [Nr Br]]]; [unfold int64_min; lia|].
  change (instant r) with (instant_ns r) in Br. apply Rabs_le_inv in Br.
  exists r. split; [exact Er|]. split; [exact Nr|]. split.
  - apply stamp_ns_in_range; [exact Nr|].
    assert (A : IZR (instant_ns r) < IZR 5000000003000000000) by lra. assert (B : IZR (-5000000003000000000) < IZR (instant_ns r)) by lra.
    apply lt_IZR in A. apply lt_IZR in B. unfold instant_ns, giga in A, B. lia.
  - apply Rabs_le. lra.
Qed.
Lemma round_bound a b e n : Rabs (IZR a - IZR b) <= e -> e < IZR n + 1 -> (Z.abs (a - b) <= n)%Z.
Proof.
  intros H L. rewrite <- minus_IZR, <- abs_IZR in H. assert (A : IZR (Z.abs (a - b)) < IZR (n + 1)) by (rewrite plus_IZR; lra).
  apply lt_IZR in A. lia.
Qed.

Lemma epoch_roundtrip t : (0 <= sec t < 2147483647)%Z -> normalised t ->
  exists r, from_sec (to_sec t) = Ok r /\ normalised r /\ (Z.abs (instant_ns r - instant_ns t) <= 119)%Z.
Proof.
  intros Hs Hn. destruct (to_sec_31 t Hs Hn) as [F [E B]]. apply Rabs_le_inv in E.
  destruct (back (to_sec t) (IZR (instant_ns t)) (119.21) F) as [r [Er [Nr [_ Br]]]]; [apply Rabs_le; lra|apply Rabs_le; lra|lra|].
  exists r. split; [exact Er|]. split; [exact Nr|]. eapply round_bound; [exact Br|]. simpl; lra.
Qed.
Lemma add_epoch a b : (0 <= sec a < 2147483647)%Z -> normalised a -> (0 <= sec b < 2147483647)%Z -> normalised b ->
  exists r, ts_add a b = Ok r /\ normalised r /\ (Z.abs (instant_ns r - (instant_ns a + instant_ns b)) <= 477)%Z.
Proof.
  intros Ha Na Hb Nb. destruct (to_sec_31 a Ha Na) as [Fa [Ea Ba]], (to_sec_31 b Hb Nb) as [Fb [Eb Bb]]. apply Rabs_le_inv in Ea, Eb.
  set (x := B2R (to_sec a)) in *. set (y := B2R (to_sec b)) in *.
  destruct (d_add_spec _ _ Fa Fb) as [E F].
  { fold x y. apply Rabs_le. assert (4294967296 <= IZR (2^100)) by (apply IZR_le; lia). lra. }
  fold x y in E. assert (R : Rabs (rnd (x + y) - (x + y)) <= / 4194304) by (apply rnd_err32, Rabs_lt; lra). apply Rabs_le_inv in R.
  destruct (back (d_add (to_sec a) (to_sec b)) (IZR (instant_ns a) + IZR (instant_ns b)) (476.85) F) as [r [Er [Nr [_ Br]]]];
    [apply Rabs_le; lra|rewrite E; apply Rabs_le; lra|lra|].
  exists r. split; [exact Er|]. split; [exact Nr|]. rewrite <- plus_IZR in Br. eapply round_bound; [exact Br|]. simpl; lra.
Qed.
Lemma sub_epoch a b : (0 <= sec a < 2147483647)%Z -> normalised a -> (0 <= sec b < 2147483647)%Z -> normalised b ->
  exists r, ts_sub a b = Ok r /\ normalised r /\ (Z.abs (instant_ns r - (instant_ns a - instant_ns b)) <= 358)%Z.
Proof.
  intros Ha Na Hb Nb. destruct (to_sec_31 a Ha Na) as [Fa [Ea Ba]], (to_sec_31 b Hb Nb) as [Fb [Eb Bb]]. apply Rabs_le_inv in Ea, Eb.
  set (x := B2R (to_sec a)) in *. set (y := B2R (to_sec b)) in *.
  destruct (d_sub_spec _ _ Fa Fb) as [E F].
  { fold x y. apply Rabs_le. assert (4294967296 <= IZR (2^100)) by (apply IZR_le; lia). lra. }
  fold x y in E. assert (R : Rabs (rnd (x - y) - (x - y)) <= / 8388608) by (apply rnd_err31, Rabs_lt; lra). apply Rabs_le_inv in R.
  destruct (back (d_sub (to_sec a) (to_sec b)) (IZR (instant_ns a) - IZR (instant_ns b)) (357.65) F) as [r [Er [Nr [_ Br]]]];
    [apply Rabs_le; lra|rewrite E; apply Rabs_le; lra|lra|].
  exists r. split; [exact Er|]. split; [exact Nr|]. rewrite <- minus_IZR in Br. eapply round_bound; [exact Br|]. simpl; lra.
Qed.

(** trimming *)
Lemma trim_key_31 h hz a : h_near h hz -> (0 <= hz < epoch_max)%Z -> (0 <= a < epoch_max)%Z ->
  exists o c, from_sec (d_sub (to_sec (from_stamp_ns a)) h) = Ok o /\ stamp_ns o = Ok c /\ (Z.abs (c - (a - hz)) <= 239)%Z.
Proof.
  intros [Fh Eh] Hh Ha. destruct (from_ns_31 a Ha) as [Sa [Na Ia]]. destruct (to_sec_31 _ Sa Na) as [Fa [Ea Ba]]. rewrite Ia in Ea, Ba.
  apply Rabs_le_inv in Eh, Ea. unfold epoch_max in Hh.
  assert (Rh : 0 <= IZR hz <= 2147483647 * 1000000000) by (split; [apply IZR_le; lia|rewrite <- mult_IZR; apply IZR_le; lia]).
  set (x := B2R (to_sec (from_stamp_ns a))) in *. set (y := B2R h) in *.
  destruct (d_sub_spec _ _ Fa Fh) as [E F].
  { fold x y. apply Rabs_le. assert (4294967296 <= IZR (2^100)) by (apply IZR_le; lia). lra. }
  fold x y in E. assert (R : Rabs (rnd (x - y) - (x - y)) <= / 8388608) by (apply rnd_err31, Rabs_lt; lra). apply Rabs_le_inv in R.
  destruct (back (d_sub (to_sec (from_stamp_ns a)) h) (IZR a - IZR hz) (238.6) F) as [r [Er [Nr [Kr Br]]]];
    [apply Rabs_le; lra|rewrite E; apply Rabs_le; lra|lra|].
  exists r, (instant_ns r). split; [exact Er|]. split; [exact Kr|]. rewrite <- minus_IZR in Br. eapply round_bound; [exact Br|]. simpl; lra.
Qed.
Lemma span_lt_31 h hz a b : h_near h hz -> (0 <= hz < epoch_max)%Z -> (0 <= a < epoch_max)%Z -> (0 <= b < epoch_max)%Z -> (hz + 358 < a - b)%Z ->
  Bltb h (d_sub (to_sec (from_stamp_ns a)) (to_sec (from_stamp_ns b))) = true.
Proof.
  intros [Fh Eh] Hh Ha Hb L. destruct (from_ns_31 a Ha) as [Sa [Na Ia]], (from_ns_31 b Hb) as [Sb [Nb Ib]].
  destruct (to_sec_31 _ Sa Na) as [Fa [Ea Ba]], (to_sec_31 _ Sb Nb) as [Fb [Eb Bb]]. rewrite Ia in Ea, Ba. rewrite Ib in Eb, Bb.
  apply Rabs_le_inv in Eh, Ea, Eb.
  assert (RL : IZR hz + 359 <= IZR a - IZR b) by (rewrite <- minus_IZR, <- plus_IZR; apply IZR_le; lia).
  set (x := B2R (to_sec (from_stamp_ns a))) in *. set (z := B2R (to_sec (from_stamp_ns b))) in *. set (y := B2R h) in *.
  destruct (d_sub_spec _ _ Fa Fb) as [E F].
  { fold x z. apply Rabs_le. assert (4294967296 <= IZR (2^100)) by (apply IZR_le; lia). lra. }
  fold x z in E. assert (R : Rabs (rnd (x - z) - (x - z)) <= / 8388608) by (apply rnd_err31, Rabs_lt; lra). apply Rabs_le_inv in R.
  rewrite Bltb_correct by assumption. apply Rlt_bool_true. fold y. rewrite E. lra.
Qed.

(** horizons of up to 9223372034 s (292 years) are defined, horizons of 11370855686 s (360 years) and more never *)
Lemma nonneg_31 t : (0 <= t < epoch_max)%Z -> is_finite (to_sec (from_stamp_ns t)) = true /\ 0 <= B2R (to_sec (from_stamp_ns t)) <= 2147483648.
Proof.
  intros Ht. destruct (from_ns_31 t Ht) as [St [Nt It]]. destruct (to_sec_31 _ St Nt) as [F [E B]]. split; [exact F|].
  apply Rabs_le_inv in E. rewrite It in E, B. split; [|lra].
  destruct (Rle_lt_dec 0 (B2R (to_sec (from_stamp_ns t)))) as [L|L]; [exact L|exfalso].
  destruct (d_of_Z_exact (sec (from_stamp_ns t))) as [Es Fs]; [lia|]. unfold normalised, giga in Nt.
  destruct (d_of_Z_exact (nsec (from_stamp_ns t))) as [En Fn]; [lia|].
  destruct d_1em9_spec as [Fc Ec]. apply Rabs_le_inv in Ec.
  assert (Bc : bpow radix2 (-83) <= / 9000000000000000000000000) by (simpl bpow; lra).
  assert (Hn : 0 <= IZR (nsec (from_stamp_ns t)) <= 999999999) by (split; apply IZR_le; lia).
  assert (P : IZR 0 <= B2R d_1em9 * B2R (d_of_Z (nsec (from_stamp_ns t))) <= IZR 1) by (rewrite En; split; nra).
  destruct (d_mul_spec _ _ Fc Fn) as [Em Fm]. { rewrite Rabs_pos_eq by (apply P). eapply Rle_trans; [apply P|]. apply (IZR_le 1). lia. }
  assert (Pm : IZR 0 <= B2R (d_mul d_1em9 (d_of_Z (nsec (from_stamp_ns t)))) <= IZR 1) by (rewrite Em; apply rnd_between; [lia|lia|exact P]).
  assert (Sr : 0 <= IZR (sec (from_stamp_ns t)) <= IZR 2147483647) by (split; apply IZR_le; lia).
  destruct (d_add_spec _ _ Fs Fm) as [Ea _]. { rewrite Es, Rabs_pos_eq by lra. assert (IZR 9223372037 <= IZR (2^100)) by (apply IZR_le; lia). lra. }
  unfold to_sec in L. rewrite Ea in L.
  assert (G : IZR 0 <= rnd (B2R (d_of_Z (sec (from_stamp_ns t))) + B2R (d_mul d_1em9 (d_of_Z (nsec (from_stamp_ns t))))) <= IZR 9223372037) by (apply rnd_between; [lia|lia|rewrite Es; lra]).
  lra.
Qed.
Lemma trim_defined T h t (l : buf T) : is_finite h = true -> 0 <= B2R h <= 9223372034 -> (0 <= t < epoch_max)%Z ->
  exists l', check_horizon_from_t h (from_stamp_ns t) l = Ok l'.
Proof.
  intros Fh Hh Ht. unfold check_horizon_from_t, trim_from. destruct (negb (empty l)); [|eauto].
  destruct (nonneg_31 t Ht) as [Fx Bx]. destruct (d_sub_spec _ _ Fx Fh) as [E F].
  { apply Rabs_le. assert (IZR 18446744074 <= IZR (2^100)) by (apply IZR_le; lia). lra. }
  assert (D : IZR (-9223372034) <= B2R (d_sub (to_sec (from_stamp_ns t)) h) <= IZR 2147483648) by (rewrite E; apply rnd_between; [lia|lia|lra]).
  assert (FL : (-9223372034 <= Zfloor (B2R (d_sub (to_sec (from_stamp_ns t)) h)) <= 2147483648)%Z).
  { split; [apply Zfloor_lub; apply D|]. apply le_IZR. eapply Rle_trans; [apply Zfloor_lb|apply D]. }
  destruct (from_sec_total _ F) as [r [-> [Nr Sr]]]. { unfold int64_min, int64_max. lia. }
  cbn [obind]. rewrite stamp_ns_in_range; [cbn [obind]; eauto|exact Nr|lia].
Qed.
Lemma trim_undefined T h t (l : buf T) : is_finite h = true -> 11370855686 <= B2R h -> (0 <= t < epoch_max)%Z -> l <> nil ->
  exists e, check_horizon_from_t h (from_stamp_ns t) l = UB e.
Proof.
  intros Fh Hh Ht Hl. unfold check_horizon_from_t, trim_from. destruct l as [|p q]; [congruence|]. cbn [empty negb].
  destruct (nonneg_31 t Ht) as [Fx Bx]. set (x := to_sec (from_stamp_ns t)) in *.
  pose proof (Bminus_correct prec64 emax64 _ _ mode_NE x h Fx Fh) as C. simpl round_mode in C.
  assert (Lo : rnd (B2R x - B2R h) <= IZR (-9223372038)). { rewrite <- (rnd_Z (-9223372038)) by lia. apply rnd_le. lra. }
  assert (Hi : - B2R h <= rnd (B2R x - B2R h)).
  { replace (- B2R h) with (rnd (- B2R h)); [apply rnd_le; lra|]. apply round_generic; [typeclasses eauto|]. apply generic_format_opp, fmt_B2R. }
  rewrite Rlt_bool_true in C.
  2:{ apply Rle_lt_trans with (Rabs (B2R h)); [|apply abs_B2R_lt_emax]. rewrite (Rabs_pos_eq (B2R h)) by lra. rewrite Rabs_left by lra. lra. }
  destruct C as [E [F _]]. fold (d_sub x h) in E, F.
  assert (FL : (Zfloor (B2R (d_sub x h)) <= -9223372038)%Z) by (apply le_IZR; eapply Rle_trans; [apply Zfloor_lb|rewrite E; exact Lo]).
  destruct (Z_lt_dec (Zfloor (B2R (d_sub x h))) int64_min) as [L|L].
  { rewrite from_sec_out_of_range by (try exact F; now left). cbn [obind]. eauto. }
  assert (R : (int64_min <= Zfloor (B2R (d_sub x h)) <= 8589934591)%Z) by lia.
  destruct (from_sec_spec _ F R) as [n [Hn [_ ->]]]. cbn [obind].
  assert (Q : (0 <= Z.quot n 1000000000 <= 1)%Z) by (split; [apply Z.quot_pos; lia|apply Z.quot_le_upper_bound; lia]).
  destruct (stamp_ns_boundary (mkTs (Zfloor (B2R (d_sub x h)) + Z.quot n 1000000000) (Z.rem n 1000000000))) as [U _].
  - unfold normalised, giga. cbn [nsec]. apply Z.rem_bound_pos; lia.
  - unfold is_int64, int64_min in *. cbn [sec]. lia.
  - rewrite U by (cbn [sec]; lia). cbn [obind]. eauto.
Qed.

Local Open Scope Z_scope.
Section Epoch.
Context {T : Type}.
Implicit Types (l : buf T).
Lemma check_horizon_31 h hz a l : wsorted l -> h_near h hz -> 239 <= hz < epoch_max -> (forall e, In e l -> 0 <= fst e < epoch_max) ->
  get_latest_t l = Some a ->
  exists c, check_horizon h l = Ok (filter (fun e => c <=? fst e) l) /\ a - hz - 358 <= c <= a - hz + 239.
Proof.
  intros W N Hh Hl E. unfold check_horizon. rewrite E.
  replace (empty l) with false by (destruct l; [discriminate|reflexivity]). cbn [negb andb].
  destruct (latest_t_spec l a W E) as [[v I] M]. pose proof (Hl _ I) as Ha. cbn [fst] in Ha.
  destruct (Bltb h (span_sec l)) eqn:X.
  { destruct (trim_key_31 h hz a N ltac:(lia) Ha) as [o [c [Eo [Ec Bc]]]]. exists c. unfold trim_from. rewrite Eo. cbn [obind]. rewrite Ec. cbn [obind].
    split; [|lia]. f_equal. rewrite remove_before_filter by exact W. replace (existsb _ l) with true; [reflexivity|]. symmetry. apply existsb_exists.
    exists (a, v). split; [exact I|]. cbn. lia. }
  exists (a - hz - 358). split; [|lia]. f_equal. symmetry. apply filter_all_true. rewrite Forall_forall. intros e Ie. apply Z.leb_le.
  destruct (Z_le_gt_dec (a - hz - 358) (fst e)) as [L|L]; [exact L|]. exfalso.
  unfold span_sec, size in X. rewrite E in X.
  destruct (nonempty_oldest l) as [b Eb]; [intros ->; destruct I|]. rewrite Eb in X.
  destruct (oldest_t_spec l b W Eb) as [[w Ib] Mb].
  assert (1 <? length l = true)%nat as L1.
  { apply Nat.ltb_lt. destruct l as [|p [|q r]]; [destruct I|exfalso|cbn; lia].
    destruct I as [->|[]]. destruct Ie as [<-|[]]. cbn in *. lia. }
  rewrite L1 in X. rewrite (span_lt_31 h hz a b) in X; [discriminate|exact N|lia|exact Ha|apply (Hl _ Ib)|].
  specialize (Mb _ Ie). lia.
Qed.

(** the element found is at most 716 ns farther away than the closest one *)
Lemma closest_31 k l e : wsorted l -> 0 <= k < epoch_max -> (forall e, In e l -> 0 <= fst e < epoch_max) ->
  get_closest_t k l = Ok (Some e) -> forall e', In e' l -> Z.abs (fst e - k) <= Z.abs (fst e' - k) + 716.
Proof.
  intros W Hk Hl H.
  unfold get_closest_t in H. destruct (empty l); [discriminate|].
  destruct (exist_at_t k l) eqn:X.
  { destruct (get_at_t k l) as [w|] eqn:G; [|discriminate]. cbn in H. injection H as <-. cbn. intros e' I'. lia. }
  assert (NK : forall e', In e' l -> fst e' <> k).
  { intros [k' v'] I' E. cbn in E. subst k'. assert (exist_at_t k l = true) by (apply exist_at_iff; eauto). congruence. }
  rewrite !hb_exist_before_get in H.
  pose proof (get_before_none k l W) as GBN. pose proof (get_after_none k l W) as GAN.
  assert (AB : forall b e0, get_before_t k l = Some b -> get_after_t k l = Some e0 ->
     fst b < k < fst e0 /\ forall e', In e' l -> fst e' <= fst b \/ fst e0 <= fst e').
  { intros [kb vb] [ka va] GB GA. apply get_after_spec in GA; [|exact W]. apply get_before_spec in GB; [|exact W].
    destruct GA as [IA [LA MA]], GB as [IB [LB MB]]. cbn in *. split; [lia|]. intros e' I'.
    specialize (NK _ I'). destruct (Z_lt_ge_dec (fst e') k); [left; now apply MB|right; apply MA; [exact I'|lia]]. }
  destruct (exist_after_t k l) eqn:XA; cbn [andb negb] in H.
  - apply exist_after_iff in XA. destruct (get_after_t k l) as [[ka va]|] eqn:GA.
    2:{ exfalso. destruct XA as [x [I L]]. apply (proj1 GAN eq_refl) in I. lia. }
    destruct (get_before_t k l) as [[kb vb]|] eqn:GB.
    + destruct (AB _ _ eq_refl eq_refl) as [O M]. cbn [fst] in *.
      assert (In (kb, vb) l) by (apply get_before_spec in GB; tauto). assert (In (ka, va) l) by (apply get_after_spec in GA; tauto).
      assert (Hkb : 0 <= kb < epoch_max) by (apply (Hl (kb, vb)); assumption). assert (Hka : 0 <= ka < epoch_max) by (apply (Hl (ka, va)); assumption).
      destruct (from_ns_31 k Hk) as [Sk [Nk Ik]], (from_ns_31 kb Hkb) as [Sb [Nb Ib]], (from_ns_31 ka Hka) as [Sa [Na Ia]].
      destruct (sub_epoch _ _ Sk Nk Sb Nb) as [d1 [E1 [N1 B1]]], (sub_epoch _ _ Sa Na Sk Nk) as [d2 [E2 [N2 B2]]].
      rewrite E1, E2 in H. cbn [obind] in H. rewrite Ik, Ib in B1. rewrite Ik, Ia in B2.
      pose proof (ts_lt_instant _ _ N1 N2) as TL. destruct (ts_lt d1 d2) eqn:L; injection H as <-; cbn [fst]; intros e' I'; specialize (M _ I').
      * assert (instant_ns d1 < instant_ns d2) by now apply TL. lia.
      * assert (~ instant_ns d1 < instant_ns d2) by (intros Q; apply TL in Q; discriminate). lia.
    + injection H as <-. apply get_after_spec in GA; [|exact W]. destruct GA as [IA [LA MA]]. cbn [fst].
      intros e' I'. assert (k <= fst e') by (now apply (proj1 GBN eq_refl)). specialize (NK _ I').
      assert (ka <= fst e') by (apply MA; [exact I'|lia]). lia.
  - destruct (get_before_t k l) as [[kb vb]|] eqn:GB; [|discriminate]. injection H as <-.
    apply get_before_spec in GB; [|exact W]. destruct GB as [IB [LB MB]]. cbn [fst].
    intros e' I'. specialize (NK _ I').
    destruct (Z_lt_ge_dec k (fst e')) as [L|L].
    { assert (exist_after_t k l = true) by (apply exist_after_iff; eauto). congruence. }
    assert (fst e' <= kb) by (apply MB; [exact I'|lia]). lia.
Qed.
End Epoch.
