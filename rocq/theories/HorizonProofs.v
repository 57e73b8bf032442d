(** Proofs about get_closest_t and the time-horizon trimming. *)
From Coq Require Import ZArith List Bool Lia Reals Lra Sorted.
From Flocq Require Import Core IEEE754.BinarySingleNaN.
From Verif Require Import Outcome TimestampModel DoubleModel Spec_Time TimestampProofs DoubleProofs
  BufModel Spec_Buf BufProofs HorizonModel.
Import ListNotations.
Local Open Scope R_scope.

Notation bigsec := (2097152 * 1000000000)%Z (only parsing).

(** ** Doubles *)
Lemma from_sec_total t : is_finite t = true -> (int64_min <= Zfloor (B2R t) <= int64_max)%Z ->
  exists r, from_sec t = Ok r /\ (0 <= nsec r < 1000000000)%Z /\
    (sec r = 0 \/ (Zfloor (B2R t) <= sec r <= 8589934592 /\ sec r <= Zfloor (B2R t) + 1))%Z.
Proof.
  intros F H. destruct (Z_le_gt_dec (Zfloor (B2R t)) 8589934591) as [L|L].
  - destruct (from_sec_spec t F) as [n [Hn [_ E]]]; [lia|]. eexists; split; [exact E|]. cbn [sec nsec].
    split; [apply Z.rem_bound_pos; lia|]. right.
    assert (0 <= Z.quot n 1000000000 <= 1)%Z.
    { split; [apply Z.quot_pos; lia|]. apply Z.quot_le_upper_bound; lia. }
    lia.
  - exists ts_zero. split; [apply from_sec_large; [exact F|lia]|]. cbn. lia.
Qed.

Lemma to_sec_bound t b : (Z.abs (sec t) <= b)%Z -> (0 < b <= 2^40)%Z -> (Z.abs (nsec t) < 1000000000)%Z ->
  is_finite (to_sec t) = true /\ IZR (- (b + 1)) <= B2R (to_sec t) <= IZR (b + 1).
Proof.
  intros Hs Hb Hn.
  destruct (d_of_Z_exact (sec t)) as [Es Fs]; [lia|].
  destruct (d_of_Z_exact (nsec t)) as [En Fn]; [lia|].
  destruct d_1em9_spec as [Fc Ec]. apply Rabs_le_inv in Ec.
  assert (Bc : bpow radix2 (-83) <= / 9000000000000000000000000). { simpl bpow. lra. }
  assert (Hnr : -999999999 <= IZR (nsec t) <= 999999999) by (split; apply IZR_le; lia).
  assert (Hc : 0 <= B2R d_1em9 <= / 1000000000 + / 9000000000000000000000000) by lra.
  assert (P : IZR (-1) <= B2R d_1em9 * B2R (d_of_Z (nsec t)) <= IZR 1).
  { rewrite En. split; nra. }
  destruct (d_mul_spec d_1em9 (d_of_Z (nsec t)) Fc Fn) as [Em Fm].
  { eapply Rle_trans; [apply Rabs_le; exact P|]. apply (IZR_le 1). lia. }
  assert (Pm : IZR (-1) <= B2R (d_mul d_1em9 (d_of_Z (nsec t))) <= IZR 1).
  { rewrite Em. apply rnd_between; [lia|lia|exact P]. }
  assert (Hsr : IZR (- b) <= IZR (sec t) <= IZR b) by (split; apply IZR_le; lia).
  assert (Sm : IZR (- (b + 1)) <= B2R (d_of_Z (sec t)) + B2R (d_mul d_1em9 (d_of_Z (nsec t))) <= IZR (b + 1)).
  { rewrite Es. replace (- (b + 1))%Z with (- b + -1)%Z by lia. rewrite !plus_IZR. lra. }
  destruct (d_add_spec _ _ Fs Fm) as [Ea Fa].
  { apply Rabs_le. assert (IZR (b + 1) <= IZR (2^100)) by (apply IZR_le; lia).
    rewrite opp_IZR in Sm. lra. }
  split; [exact Fa|]. unfold to_sec. rewrite Ea. apply rnd_between; [lia|lia|exact Sm].
Qed.

Lemma from_ns_small k : is_int64 k -> (Z.abs (sec (from_stamp_ns k)) <= 9223372036)%Z /\ (Z.abs (nsec (from_stamp_ns k)) < 1000000000)%Z.
Proof.
  intros H. unfold is_int64 in H. cbn [from_stamp_ns sec nsec].
  assert (R : (Z.abs (Z.rem k 1000000000) < 1000000000)%Z) by (apply Z.rem_bound_abs; lia).
  rewrite cast_int32_id by (unfold is_int32; lia).
  split; [|exact R]. pose proof (Z.quot_rem' k 1000000000). lia.
Qed.

Lemma to_sec_ns_bound k : is_int64 k ->
  is_finite (to_sec (from_stamp_ns k)) = true /\ IZR (- 9223372037) <= B2R (to_sec (from_stamp_ns k)) <= IZR 9223372037.
Proof. intros H. destruct (from_ns_small k H) as [A B]. apply (to_sec_bound _ 9223372036); lia. Qed.

Lemma ts_sub_total a b : is_int64 a -> is_int64 b -> exists r, ts_sub (from_stamp_ns a) (from_stamp_ns b) = Ok r.
Proof.
  intros Ha Hb. destruct (to_sec_ns_bound a Ha) as [Fa Ba], (to_sec_ns_bound b Hb) as [Fb Bb].
  assert (D : IZR (- 18446744074) <= B2R (to_sec (from_stamp_ns a)) - B2R (to_sec (from_stamp_ns b)) <= IZR 18446744074) by (lra).
  destruct (d_sub_spec _ _ Fa Fb) as [E F].
  { apply Rabs_le. assert (IZR 18446744074 <= IZR (2^100)) by (apply IZR_le; lia). lra. }
  apply rnd_between in D; [|lia|lia]. rewrite <- E in D. unfold ts_sub.
  destruct (from_sec_total _ F) as [r [Hr _]]; [|eauto].
  unfold int64_min, int64_max. split.
  - apply Zfloor_lub. eapply Rle_trans; [|apply D]. apply IZR_le. lia.
  - apply Z.lt_le_incl. apply lt_IZR. eapply Rle_lt_trans; [apply Zfloor_lb|]. eapply Rle_lt_trans; [apply D|].
    apply IZR_lt. lia.
Qed.

Lemma from_ns_ok k : (0 <= k < bigsec)%Z ->
  (0 <= sec (from_stamp_ns k) < 2^21)%Z /\ (0 <= nsec (from_stamp_ns k) < 1000000000)%Z /\ instant (from_stamp_ns k) = k.
Proof.
  intros H. cbn [from_stamp_ns sec nsec]. unfold instant. cbn [sec nsec from_stamp_ns].
  rewrite Z.quot_div_nonneg, Z.rem_mod_nonneg by lia.
  pose proof (Z.mod_pos_bound k 1000000000 ltac:(lia)). pose proof (Z.div_mod k 1000000000 ltac:(lia)).
  rewrite cast_int32_id by (unfold is_int32; lia). split; [|lia].
  split; [apply Z.div_pos; lia|apply Z.div_lt_upper_bound; lia].
Qed.

Lemma ts_sub_ns_exact a b : (0 <= a < bigsec)%Z -> (0 <= b < bigsec)%Z ->
  ts_sub (from_stamp_ns a) (from_stamp_ns b) = Ok (ts_of_instant (a - b)).
Proof.
  intros Ha Hb. destruct (from_ns_ok a Ha) as [A1 [A2 A3]], (from_ns_ok b Hb) as [B1 [B2 B3]].
  rewrite (ts_sub_exact _ _ A1 A2 B1 B2). rewrite A3, B3. reflexivity.
Qed.

(** error of to_sec for keys below 2^21 s *)
Lemma to_sec_ns_err k : (0 <= k < bigsec)%Z ->
  is_finite (to_sec (from_stamp_ns k)) = true /\
  Rabs (B2R (to_sec (from_stamp_ns k)) - IZR k / 1000000000) <= / 8000000000.
Proof.
  intros H. destruct (from_ns_ok k H) as [A1 [A2 A3]].
  destruct (to_sec_err (from_stamp_ns k) 21) as [F E]; [lia|lia|lia| |].
  { rewrite <- abs_IZR. change (bpow radix2 21) with (IZR (2^21)). rewrite <- plus_IZR. apply IZR_le. lia. }
  split; [exact F|]. rewrite A3 in E. eapply Rle_trans; [exact E|]. simpl bpow. lra.
Qed.

(** a double that is within a tenth of a nanosecond of [hz] ns *)
Definition h_near (h : double) (hz : Z) : Prop :=
  is_finite h = true /\ Rabs (B2R h * 1000000000 - IZR hz) <= / 10.

Lemma rnd_err21 x : Rabs x < bpow radix2 21 -> Rabs (rnd x - x) <= / 8000000000.
Proof. intros H. eapply Rle_trans; [apply (rnd_err 21); [lia|exact H]|]. simpl bpow. lra. Qed.

Lemma stamp_of_instant k : (- 2097153 * 1000000000 <= k <= 2097153 * 1000000000)%Z -> stamp_ns (ts_of_instant k) = Ok k.
Proof.
  intros H. pose proof (Z.mod_pos_bound k giga ltac:(unfold giga; lia)) as M.
  pose proof (Z.div_mod k giga ltac:(unfold giga; lia)) as D. unfold giga in *.
  rewrite stamp_ns_in_range.
  - unfold instant_ns, ts_of_instant. cbn [sec nsec]. unfold giga. f_equal. lia.
  - unfold normalised, ts_of_instant. cbn [nsec]. exact M.
  - unfold ts_of_instant. cbn [sec]. unfold giga. split; [apply Z.div_le_lower_bound; lia|apply Z.lt_succ_r; apply Z.div_lt_upper_bound; lia].
Qed.

(** cut-off computed by trim_from *)
Lemma trim_key h hz a : h_near h hz -> (0 <= hz < 2097151 * 1000000000)%Z -> (0 <= a < 2097151 * 1000000000)%Z ->
  from_sec (d_sub (to_sec (from_stamp_ns a)) h) = Ok (ts_of_instant (a - hz)).
Proof.
  intros [Fh Eh] Hh Ha. destruct (to_sec_ns_err a ltac:(lia)) as [Fa Ea].
  apply Rabs_le_inv in Eh, Ea.
  assert (Ra : 0 <= IZR a <= 2097151 * 1000000000) by (split; [apply IZR_le; lia|rewrite <- mult_IZR; apply IZR_le; lia]).
  assert (Rh : 0 <= IZR hz <= 2097151 * 1000000000) by (split; [apply IZR_le; lia|rewrite <- mult_IZR; apply IZR_le; lia]).
  set (x := B2R (to_sec (from_stamp_ns a))) in *. set (y := B2R h) in *.
  assert (D : -2097152 < x - y < 2097152) by (split; lra).
  destruct (d_sub_spec _ _ Fa Fh) as [E F].
  { fold x y. apply Rabs_le. assert (2097152 <= IZR (2^100)) by (apply IZR_le; lia). lra. }
  fold x y in E.
  assert (R : Rabs (rnd (x - y) - (x - y)) <= / 8000000000).
  { apply rnd_err21. change (bpow radix2 21) with 2097152. apply Rabs_lt. lra. }
  apply Rabs_le_inv in R. apply from_sec_exact; [exact F|lia|].
  rewrite E, minus_IZR. apply Rabs_lt. lra.
Qed.

Lemma span_lt h hz a b : h_near h hz -> (0 <= hz < 2097151 * 1000000000)%Z ->
  (0 <= a < 2097151 * 1000000000)%Z -> (0 <= b < 2097151 * 1000000000)%Z -> (hz < a - b)%Z ->
  Bltb h (d_sub (to_sec (from_stamp_ns a)) (to_sec (from_stamp_ns b))) = true.
Proof.
  intros [Fh Eh] Hh Ha Hb L. destruct (to_sec_ns_err a ltac:(lia)) as [Fa Ea], (to_sec_ns_err b ltac:(lia)) as [Fb Eb].
  apply Rabs_le_inv in Eh, Ea, Eb.
  assert (Ra : 0 <= IZR a <= 2097151 * 1000000000) by (split; [apply IZR_le; lia|rewrite <- mult_IZR; apply IZR_le; lia]).
  assert (Rb : 0 <= IZR b <= 2097151 * 1000000000) by (split; [apply IZR_le; lia|rewrite <- mult_IZR; apply IZR_le; lia]).
  assert (RL : IZR hz + 1 <= IZR a - IZR b) by (rewrite <- minus_IZR, <- plus_IZR; apply IZR_le; lia).
  set (x := B2R (to_sec (from_stamp_ns a))) in *. set (z := B2R (to_sec (from_stamp_ns b))) in *. set (y := B2R h) in *.
  assert (D : -2097152 < x - z < 2097152) by (split; lra).
  destruct (d_sub_spec _ _ Fa Fb) as [E F].
  { fold x z. apply Rabs_le. assert (2097152 <= IZR (2^100)) by (apply IZR_le; lia). lra. }
  fold x z in E.
  assert (R : Rabs (rnd (x - z) - (x - z)) <= / 8000000000).
  { apply rnd_err21. change (bpow radix2 21) with 2097152. apply Rabs_lt. lra. }
  apply Rabs_le_inv in R.
  rewrite Bltb_correct by assumption. apply Rlt_bool_true. fold y. rewrite E. lra.
Qed.

Local Open Scope Z_scope.
Section Hor.
Context {T : Type}.
Implicit Types (l : buf T).

Lemma wsorted_nil : @wsorted T []. Proof. constructor. Qed.

(** ** get_closest_t *)
Lemma closest_cases k l : wsorted l -> is_int64 k -> (forall e, In e l -> is_int64 (fst e)) ->
  exists r, get_closest_t k l = Ok r /\ (r = None <-> l = []) /\ (forall e, r = Some e -> In e l).
Proof.
  intros W Hk Hl. unfold get_closest_t. destruct l as [|x q] eqn:El; [exists None; cbn; split; [reflexivity|split; [tauto|discriminate]]|].
  rewrite <- El in *. replace (empty l) with false by (now subst).
  assert (NE : l <> []) by (now subst).
  destruct (exist_at_t k l) eqn:X.
  { apply exist_at_iff in X. destruct X as [v I].
    destruct (get_at_t k l) as [w|] eqn:G.
    - eexists; split; [reflexivity|]. cbn. split; [split; [discriminate|congruence]|]. intros e [= <-]. now apply get_at_In.
    - rewrite get_at_none in G. now apply G in I. }
  rewrite !hb_exist_before_get. pose proof (get_before_none k l W) as GBN. pose proof (get_after_none k l W) as GAN.
  assert (XA : exist_after_t k l = match get_after_t k l with Some _ => true | None => false end).
  { destruct (exist_after_t k l) eqn:E.
    - apply exist_after_iff in E. destruct E as [e [I L]]. destruct (get_after_t k l) as [p|]; [reflexivity|].
      destruct GAN as [G _]. apply G in I; [lia|reflexivity].
    - destruct (get_after_t k l) as [[ka va]|] eqn:G; [|reflexivity].
      apply get_after_spec in G; [|exact W]. destruct G as [I [L _]].
      assert (exist_after_t k l = true) by (apply exist_after_iff; eauto). congruence. }
  rewrite XA.
  destruct (get_after_t k l) as [[ka va]|] eqn:GA, (get_before_t k l) as [[kb vb]|] eqn:GB; cbn [andb negb].
  - apply get_after_spec in GA; [|exact W]. apply get_before_spec in GB; [|exact W].
    destruct GA as [IA _], GB as [IB _].
    destruct (ts_sub_total k kb Hk (Hl _ IB)) as [d1 ->], (ts_sub_total ka k (Hl _ IA) Hk) as [d2 ->]. cbn [obind].
    destruct (ts_lt d1 d2); eexists; (split; [reflexivity|]); (split; [split; [discriminate|congruence]|]);
      intros e [= <-]; assumption.
  - eexists; split; [reflexivity|]. split; [split; [discriminate|congruence]|]. intros e [= <-].
    apply get_after_spec in GA; tauto.
  - eexists; split; [reflexivity|]. split; [split; [discriminate|congruence]|]. intros e [= <-].
    apply get_before_spec in GB; tauto.
  - exfalso. destruct l as [|[k0 v0] q0]; [now apply NE|].
    assert (k0 <= k) by (apply (proj1 GAN eq_refl (k0, v0)); now left).
    assert (k <= k0) by (apply (proj1 GBN eq_refl (k0, v0)); now left).
    assert (E : exist_at_t k ((k0, v0) :: q0) = true). { apply exist_at_iff. exists v0. left. f_equal. lia. }
    congruence.
Qed.

Lemma ts_lt_of_instant a b : ts_lt (ts_of_instant a) (ts_of_instant b) = (a <? b).
Proof.
  assert (N : forall x, normalised (ts_of_instant x)) by (intros x; apply Z.mod_pos_bound; unfold giga; lia).
  assert (I : forall x, instant_ns (ts_of_instant x) = x).
  { intros x. unfold instant_ns, ts_of_instant. cbn [sec nsec]. pose proof (Z.div_mod x giga ltac:(unfold giga; lia)). lia. }
  pose proof (ts_lt_instant _ _ (N a) (N b)) as H. rewrite !I in H.
  destruct (Z.ltb_spec a b) as [L|L]; [now apply H|]. destruct (ts_lt _ _); [|reflexivity]. exfalso.
  assert (a < b) by now apply H. lia.
Qed.

(** minimal distance, later element on a tie *)
Lemma closest_minimal k l e : wsorted l -> 0 <= k < bigsec -> (forall e, In e l -> 0 <= fst e < bigsec) ->
  get_closest_t k l = Ok (Some e) ->
  In e l /\ forall e', In e' l -> Z.abs (fst e - k) < Z.abs (fst e' - k) \/
     (Z.abs (fst e - k) = Z.abs (fst e' - k) /\ fst e' <= fst e).
Proof.
  intros W Hk Hl H.
  split. { destruct (closest_cases k l W) as [r [E [_ I]]].
    - unfold is_int64. lia. - intros x Hx. apply Hl in Hx. unfold is_int64. lia.
    - rewrite E in H. injection H as ->. now apply I. }
  unfold get_closest_t in H. destruct (empty l); [discriminate|].
  destruct (exist_at_t k l) eqn:X.
  { destruct (get_at_t k l) as [w|] eqn:G; [|discriminate]. cbn in H. injection H as <-. cbn. intros e' I'. lia. }
  assert (NK : forall e', In e' l -> fst e' <> k).
  { intros [k' v'] I' E. cbn in E. subst k'. assert (exist_at_t k l = true) by (apply exist_at_iff; eauto). congruence. }
  rewrite !hb_exist_before_get in H.
  pose proof (get_before_none k l W) as GBN. pose proof (get_after_none k l W) as GAN.
  assert (AB : forall b e0, get_before_t k l = Some b -> get_after_t k l = Some e0 ->
     fst b < k < fst e0 /\ forall e', In e' l -> fst e' <= fst b \/ fst e0 <= fst e').
  { intros [kb vb] [ka va] GB GA. apply get_after_spec in GA; [|exact W]. apply get_before_spec in GB; [|exact W].
    destruct GA as [IA [LA MA]], GB as [IB [LB MB]]. cbn in *. split; [lia|]. intros e' I'.
    specialize (NK _ I'). destruct (Z_lt_ge_dec (fst e') k); [left; now apply MB|right; apply MA; [exact I'|lia]]. }
  destruct (exist_after_t k l) eqn:XA; cbn [andb negb] in H.
  - apply exist_after_iff in XA. destruct (get_after_t k l) as [[ka va]|] eqn:GA.
    2:{ exfalso. destruct XA as [x [I L]]. apply (proj1 GAN eq_refl) in I. lia. }
    destruct (get_before_t k l) as [[kb vb]|] eqn:GB.
    + destruct (AB _ _ eq_refl eq_refl) as [O M]. cbn [fst] in *.
      assert (In (kb, vb) l) by (apply get_before_spec in GB; tauto). assert (In (ka, va) l) by (apply get_after_spec in GA; tauto).
      rewrite ts_sub_ns_exact in H; [|exact Hk|apply (Hl (kb, vb)); assumption].
      rewrite ts_sub_ns_exact in H; [|apply (Hl (ka, va)); assumption|exact Hk]. cbn [obind] in H.
      rewrite ts_lt_of_instant in H. destruct (Z.ltb_spec (k - kb) (ka - k)) as [L|L]; injection H as <-; cbn [fst];
        intros e' I'; specialize (M _ I'); lia.
    + injection H as <-. apply get_after_spec in GA; [|exact W]. destruct GA as [IA [LA MA]]. cbn [fst].
      intros e' I'. assert (k <= fst e') by (now apply (proj1 GBN eq_refl)). specialize (NK _ I').
      assert (ka <= fst e') by (apply MA; [exact I'|lia]). lia.
  - destruct (get_before_t k l) as [[kb vb]|] eqn:GB; [|discriminate]. injection H as <-.
    apply get_before_spec in GB; [|exact W]. destruct GB as [IB [LB MB]]. cbn [fst].
    intros e' I'. specialize (NK _ I').
    destruct (Z_lt_ge_dec k (fst e')) as [L|L].
    { assert (exist_after_t k l = true) by (apply exist_after_iff; eauto). congruence. }
    assert (fst e' <= kb) by (apply MB; [exact I'|lia]). lia.
Qed.

(** ** Horizon *)
Lemma remove_before_suffix t l : exists p, l = p ++ remove_before_t t l.
Proof.
  unfold remove_before_t. destruct (negb _).
  - exists (firstn (lower_bound t l) l). now rewrite firstn_skipn.
  - now exists [].
Qed.

Lemma skipn_nonnil {A} n (l : list A) : (n < length l)%nat -> skipn n l <> [].
Proof. intros H E. apply (f_equal (@length A)) in E. rewrite skipn_length in E. cbn in E. lia. Qed.

Lemma remove_before_latest t l : get_latest (remove_before_t t l) = get_latest l.
Proof.
  destruct (remove_before_suffix t l) as [p E].
  assert (N : l <> [] -> remove_before_t t l <> []).
  { intros NE. unfold remove_before_t. destruct (Nat.eqb_spec (lower_bound t l) (length l)) as [H|H]; cbn [negb]; [exact NE|].
    apply skipn_nonnil. pose proof (lower_bound_le t l). lia. }
  destruct l as [|x q]; [reflexivity|]. set (l := x :: q) in *. set (r := remove_before_t t l) in *.
  destruct r as [|y r0] using rev_ind; [exfalso; now apply N|]. clear IHr0.
  rewrite get_latest_app. rewrite E, app_assoc, get_latest_app. reflexivity.
Qed.

Definition is_suffix l' l := exists p, l = p ++ l'.

Lemma trim_suffix h t l l' : trim_from h t l = Ok l' -> is_suffix l' l /\ get_latest l' = get_latest l.
Proof.
  unfold trim_from. destruct (from_sec _) as [o| |]; try discriminate. cbn [obind].
  destruct (stamp_ns o) as [k| |]; try discriminate. cbn [obind]. intros [= <-].
  split; [apply remove_before_suffix|apply remove_before_latest].
Qed.

Lemma check_suffix h l l' : check_horizon h l = Ok l' -> is_suffix l' l /\ get_latest l' = get_latest l.
Proof.
  unfold check_horizon. destruct (_ && _); [|intros [= <-]; split; [now exists []|reflexivity]].
  destruct (get_latest_t l) as [a|]; [apply trim_suffix|intros [= <-]; split; [now exists []|reflexivity]].
Qed.
Lemma check_from_suffix h t l l' : check_horizon_from_t h t l = Ok l' -> is_suffix l' l /\ get_latest l' = get_latest l.
Proof.
  unfold check_horizon_from_t. destruct (negb _); [apply trim_suffix|intros [= <-]; split; [now exists []|reflexivity]].
Qed.
Lemma check_restricted_suffix h n l l' : check_horizon_restricted h n l = Ok l' ->
  is_suffix l' l /\ get_latest l' = get_latest l /\ ((length l <= n)%nat -> l' = l).
Proof.
  unfold check_horizon_restricted, size. destruct (Nat.ltb_spec n (length l)) as [L|L]; cbn [andb].
  2:{ intros [= <-]. split; [now exists []|]. split; reflexivity. }
  assert (C : (length l <= n)%nat -> l' = l) by lia.
  destruct (Bltb _ _); [|intros [= <-]; split; [now exists []|]; split; reflexivity].
  destruct (get_latest_t l) as [a|]; [|intros [= <-]; split; [now exists []|]; split; reflexivity].
  intros H. apply trim_suffix in H. tauto.
Qed.

Lemma trim_exact h hz a l : h_near h hz -> 0 <= hz < 2097151 * 1000000000 -> 0 <= a < 2097151 * 1000000000 ->
  trim_from h (from_stamp_ns a) l = Ok (remove_before_t (a - hz) l).
Proof.
  intros N Hh Ha. unfold trim_from. rewrite (trim_key h hz a) by assumption. cbn [obind].
  rewrite stamp_of_instant by lia. reflexivity.
Qed.

Lemma latest_t_spec l a : wsorted l -> get_latest_t l = Some a -> (exists v, In (a, v) l) /\ forall e, In e l -> fst e <= a.
Proof.
  intros W. unfold get_latest_t. destruct (get_latest l) as [[k v]|] eqn:E; [|discriminate]. cbn. intros [= ->].
  apply get_latest_spec in E; [|exact W]. destruct E; eauto.
Qed.
Lemma oldest_t_spec l a : wsorted l -> get_oldest_t l = Some a -> (exists v, In (a, v) l) /\ forall e, In e l -> a <= fst e.
Proof.
  intros W. unfold get_oldest_t. destruct (get_oldest l) as [[k v]|] eqn:E; [|discriminate]. cbn. intros [= ->].
  apply get_oldest_spec in E; [|exact W]. destruct E; eauto.
Qed.

Lemma nonempty_latest l : l <> [] -> exists a, get_latest_t l = Some a.
Proof.
  intros N. unfold get_latest_t. destruct (get_latest l) as [p|] eqn:E; [eexists; reflexivity|].
  now apply get_latest_none in E.
Qed.
Lemma nonempty_oldest l : l <> [] -> exists a, get_oldest_t l = Some a.
Proof.
  intros N. unfold get_oldest_t. destruct (get_oldest l) as [p|] eqn:E; [eexists; reflexivity|].
  now apply get_oldest_none in E.
Qed.

Definition trimmed (hz a : Z) l : buf T := filter (fun e => a - hz <=? fst e) l.

Lemma remove_before_trim hz a l : wsorted l -> 0 <= hz -> get_latest_t l = Some a ->
  remove_before_t (a - hz) l = trimmed hz a l.
Proof.
  intros W H E. rewrite remove_before_filter by exact W.
  replace (existsb _ l) with true; [reflexivity|]. symmetry. apply existsb_exists.
  destruct (latest_t_spec l a W E) as [[v I] _]. exists (a, v). split; [exact I|]. cbn. lia.
Qed.

Lemma check_exact_gen (cond : bool) h hz a l : wsorted l -> h_near h hz -> 0 <= hz < 2097151 * 1000000000 ->
  (forall e, In e l -> 0 <= fst e < 2097151 * 1000000000) -> get_latest_t l = Some a ->
  (if Bltb h (span_sec l) then match get_latest_t l with Some a => trim_from h (from_stamp_ns a) l | None => Ok l end
   else Ok l) = Ok (trimmed hz a l).
Proof.
  intros W N Hh Hl E. rewrite E.
  destruct (latest_t_spec l a W E) as [[v I] M]. pose proof (Hl _ I) as Ha. cbn [fst] in Ha.
  destruct (Bltb h (span_sec l)) eqn:X.
  { rewrite (trim_exact h hz) by assumption. f_equal. now apply remove_before_trim. }
  f_equal. symmetry. unfold trimmed. apply filter_all_true. rewrite Forall_forall. intros e Ie. apply Z.leb_le.
  destruct (Z_le_gt_dec (a - hz) (fst e)) as [L|L]; [exact L|]. exfalso.
  unfold span_sec, size in X. rewrite E in X.
  destruct (nonempty_oldest l) as [b Eb]; [intros ->; destruct I|]. rewrite Eb in X.
  destruct (oldest_t_spec l b W Eb) as [[w Ib] Mb].
  assert (1 <? length l = true)%nat as L1.
  { apply Nat.ltb_lt. destruct l as [|p [|q r]]; [destruct I|exfalso|cbn; lia].
    destruct I as [->|[]]. destruct Ie as [<-|[]]. cbn in *. lia. }
  rewrite L1 in X. rewrite (span_lt h hz a b) in X; [discriminate|exact N|exact Hh|exact Ha|apply (Hl _ Ib)|].
  specialize (Mb _ Ie). lia.
Qed.

Lemma check_horizon_exact h hz a l : wsorted l -> h_near h hz -> 0 <= hz < 2097151 * 1000000000 ->
  (forall e, In e l -> 0 <= fst e < 2097151 * 1000000000) -> get_latest_t l = Some a ->
  check_horizon h l = Ok (trimmed hz a l).
Proof.
  intros W N Hh Hl E. unfold check_horizon.
  replace (empty l) with false by (destruct l; [discriminate|reflexivity]). cbn [negb andb].
  now apply (check_exact_gen true).
Qed.

Lemma check_restricted_exact h hz n a l : wsorted l -> h_near h hz -> 0 <= hz < 2097151 * 1000000000 ->
  (forall e, In e l -> 0 <= fst e < 2097151 * 1000000000) -> get_latest_t l = Some a ->
  check_horizon_restricted h n l = Ok (if (n <? length l)%nat then trimmed hz a l else l).
Proof.
  intros W N Hh Hl E. unfold check_horizon_restricted, size. destruct (n <? length l)%nat; cbn [andb]; [|reflexivity].
  now apply (check_exact_gen true).
Qed.

Lemma check_from_exact h hz t l : wsorted l -> h_near h hz -> 0 <= hz < 2097151 * 1000000000 ->
  0 <= t < 2097151 * 1000000000 ->
  check_horizon_from_t h (from_stamp_ns t) l = Ok (if existsb (fun e => t - hz <=? fst e) l
     then filter (fun e => t - hz <=? fst e) l else l).
Proof.
  intros W N Hh Ht. unfold check_horizon_from_t. destruct l as [|x q]; [reflexivity|]. cbn [empty negb].
  rewrite (trim_exact h hz) by assumption. f_equal. now apply remove_before_filter.
Qed.
End Hor.

(** totality for non-negative keys and any horizon set through set_horizon *)
Lemma check_horizon_total {T} (l : buf T) h : wsorted l -> (forall e, In e l -> 0 <= fst e < 2 ^ 63) ->
  exists l', check_horizon (set_horizon h) l = Ok l'.
Proof.
  intros W Hl. unfold check_horizon. destruct (empty l) eqn:E0; cbn [negb andb]; [eauto|].
  destruct (Bltb (set_horizon h) (span_sec l)) eqn:X; [|eauto].
  destruct (get_latest_t l) as [a|] eqn:E; [|eauto].
  destruct (latest_t_spec l a W E) as [[v I] M]. pose proof (Hl _ I) as Ha. cbn [fst] in Ha.
  destruct (to_sec_ns_bound a ltac:(unfold is_int64; lia)) as [Fa Ba].
  unfold span_sec in X. rewrite E in X. destruct (1 <? size l)%nat.
  2:{ exfalso. unfold set_horizon in X. destruct h; cbn in X; discriminate. }
  destruct (get_oldest_t l) as [b|] eqn:Eb.
  2:{ exfalso. unfold set_horizon in X. destruct h; cbn in X; discriminate. }
  destruct (oldest_t_spec l b W Eb) as [[w Ib] Mb]. pose proof (Hl _ Ib) as Hb. cbn [fst] in Hb.
  destruct (to_sec_ns_bound b ltac:(unfold is_int64; lia)) as [Fb Bb].
  set (x := to_sec (from_stamp_ns a)) in *. set (z := to_sec (from_stamp_ns b)) in *.
  assert (Z0 : (0 <= B2R z)%R).
  { assert (N : normalised (from_stamp_ns b) /\ 0 <= sec (from_stamp_ns b)).
    { destruct (from_ns_nonneg_normalised b ltac:(unfold is_int64; lia) ltac:(lia)) as [A B]. split; [exact A|].
      unfold normalised, instant_ns, giga in *. lia. }
    destruct N as [N S0]. unfold normalised, giga in N.
    destruct (d_of_Z_exact (sec (from_stamp_ns b))) as [Es Fs]. { destruct (from_ns_small b); [unfold is_int64; lia|]. lia. }
    destruct (d_of_Z_exact (nsec (from_stamp_ns b))) as [En Fn]; [lia|].
    destruct d_1em9_spec as [Fc Ec]. apply Rabs_le_inv in Ec.
    assert (Bc : (bpow radix2 (-83) <= / 9000000000000000000000000)%R). { simpl bpow. lra. }
    assert (Hnr : (0 <= IZR (nsec (from_stamp_ns b)) <= 999999999)%R) by (split; apply IZR_le; lia).
    assert (P : (IZR 0 <= B2R d_1em9 * B2R (d_of_Z (nsec (from_stamp_ns b))) <= IZR 1)%R). { rewrite En. split; nra. }
    destruct (d_mul_spec _ _ Fc Fn) as [Em Fm]. { rewrite Rabs_pos_eq by (apply P). eapply Rle_trans; [apply P|]. apply (IZR_le 1). lia. }
    assert (Pm : (IZR 0 <= B2R (d_mul d_1em9 (d_of_Z (nsec (from_stamp_ns b)))) <= IZR 1)%R).
    { rewrite Em. apply rnd_between; [lia|lia|exact P]. }
    assert (Sr : (0 <= IZR (sec (from_stamp_ns b)) <= IZR 9223372036)%R).
    { split; apply IZR_le; [lia|]. destruct (from_ns_small b); [unfold is_int64; lia|]. lia. }
    destruct (d_add_spec _ _ Fs Fm) as [Ea Fa'].
    { rewrite Es, Rabs_pos_eq by (lra). assert (IZR 9223372037 <= IZR (2^100))%R by (apply IZR_le; lia). lra. }
    unfold z, to_sec. rewrite Ea. 
    assert (G : (IZR 0 <= rnd (B2R (d_of_Z (sec (from_stamp_ns b))) + B2R (d_mul d_1em9 (d_of_Z (nsec (from_stamp_ns b))))) <= IZR 9223372037)%R).
    { apply rnd_between; [lia|lia|]. rewrite Es. lra. }
    apply G. }
  assert (Fh : is_finite (set_horizon h) = true /\ (0 <= B2R (set_horizon h))%R /\ (B2R (set_horizon h) <= B2R x)%R).
  { destruct (d_sub_spec x z Fa Fb) as [Es Fs].
    { apply Rabs_le. assert (IZR 18446744074 <= IZR (2^100))%R by (apply IZR_le; lia). lra. }
    assert (Fh : is_finite (set_horizon h) = true).
    { unfold set_horizon in *. destruct h; try reflexivity; exfalso.
      - destruct (d_sub x z) as [s1|s1| |s1 m e H]; cbn in X; try discriminate; destruct s1; discriminate.
      - destruct (d_sub x z) as [s0|s0| |s0 m e H]; cbn in X; try discriminate. }
    split; [exact Fh|]. split. { unfold set_horizon. rewrite B2R_Babs. apply Rabs_pos. }
    rewrite Bltb_correct in X by assumption. revert X. case Rlt_bool_spec; [|discriminate]. intros L _.
    apply Rlt_le. eapply Rlt_le_trans; [exact L|]. rewrite Es.
    replace (B2R x) with (rnd (B2R x)) at 2; [apply rnd_le; lra|].
    apply round_generic; [typeclasses eauto|apply fmt_B2R]. }
  destruct Fh as [Fh [H0 H1]].
  destruct (d_sub_spec x (set_horizon h) Fa Fh) as [Es Fs].
  { apply Rabs_le. assert (IZR 18446744074 <= IZR (2^100))%R by (apply IZR_le; lia). lra. }
  assert (D : (IZR 0 <= B2R (d_sub x (set_horizon h)) <= IZR 9223372037)%R).
  { rewrite Es. apply rnd_between; [lia|lia|]. lra. }
  unfold trim_from. fold x.
  assert (FL : 0 <= Zfloor (B2R (d_sub x (set_horizon h))) <= 9223372037).
  { split; [apply Zfloor_lub; apply D|]. apply le_IZR. eapply Rle_trans; [apply Zfloor_lb|apply D]. }
  destruct (from_sec_total _ Fs) as [r [-> [Nr Sr]]]. { unfold int64_min, int64_max. lia. }
  cbn [obind]. rewrite stamp_ns_in_range.
  - cbn [obind]. eauto.
  - exact Nr.
  - lia.
Qed.

(** ** insert + check_horizon as a long-running loop *)
Lemma hb_insert_front {T} t (v : T) l : (forall e, In e l -> t < fst e) -> hb_insert t v l = (t, v) :: l.
Proof.
  destruct l as [|[k w] r]; [reflexivity|]. intros H. cbn. specialize (H (k, w) (or_introl eq_refl)). cbn in H.
  replace (t <? k) with true by (symmetry; lia). reflexivity.
Qed.

Lemma hb_insert_filter {T} (p : Z -> bool) t (v : T) l : ssorted l ->
  filter (fun e => p (fst e)) (hb_insert t v l) =
  if p t then hb_insert t v (filter (fun e => p (fst e)) l) else filter (fun e => p (fst e)) l.
Proof.
  induction 1 as [|[k w] r S IH F]; cbn [hb_insert filter fst]; [now destruct (p t)|].
  rewrite Forall_forall in F. unfold klt in F. cbn [fst] in F.
  destruct (Z.ltb_spec t k) as [L|L].
  - cbn [filter fst]. destruct (p t) eqn:Pt; [|reflexivity]. symmetry. apply hb_insert_front.
    intros e I. change (if p k then (k, w) :: filter (fun e => p (fst e)) r else filter (fun e => p (fst e)) r)
      with (filter (fun e => p (fst e)) ((k, w) :: r)) in I. apply filter_In in I. destruct I as [[<-|I] _]; [exact L|].
    apply F in I. lia.
  - destruct (Z.eqb_spec t k) as [->|N]; cbn [filter fst].
    + destruct (p k) eqn:Pk; [|reflexivity]. cbn [hb_insert]. rewrite Z.ltb_irrefl, Z.eqb_refl. reflexivity.
    + rewrite IH. destruct (p t) eqn:Pt; [|reflexivity]. destruct (p k); [|reflexivity]. cbn [hb_insert].
      replace (t <? k) with false by (symmetry; lia). replace (t =? k) with false by (symmetry; lia). reflexivity.
Qed.

Lemma mb_insert_front {T} t (v : T) l : (forall e, In e l -> t < fst e) -> mb_insert t v l = (t, v) :: l.
Proof.
  destruct l as [|[k w] r]; [reflexivity|]. intros H. cbn. specialize (H (k, w) (or_introl eq_refl)). cbn in H.
  replace (t <? k) with true by (symmetry; lia). reflexivity.
Qed.

Lemma mb_insert_filter {T} (p : Z -> bool) t (v : T) l : wsorted l ->
  filter (fun e => p (fst e)) (mb_insert t v l) =
  if p t then mb_insert t v (filter (fun e => p (fst e)) l) else filter (fun e => p (fst e)) l.
Proof.
  induction 1 as [|[k w] r S IH F]; cbn [mb_insert filter fst]; [now destruct (p t)|].
  rewrite Forall_forall in F. unfold kle in F. cbn [fst] in F.
  destruct (Z.ltb_spec t k) as [L|L].
  - cbn [filter fst]. destruct (p t) eqn:Pt; [|reflexivity]. symmetry. apply mb_insert_front.
    intros e I. change (if p k then (k, w) :: filter (fun e => p (fst e)) r else filter (fun e => p (fst e)) r)
      with (filter (fun e => p (fst e)) ((k, w) :: r)) in I. apply filter_In in I. destruct I as [[<-|I] _]; [exact L|].
    apply F in I. lia.
  - cbn [filter fst]. rewrite IH. destruct (p t) eqn:Pt; [|reflexivity]. destruct (p k); [|reflexivity]. cbn [mb_insert].
    replace (t <? k) with false by (symmetry; lia). reflexivity.
Qed.

Lemma filter_weaken {T} (p q : Z -> bool) (l : buf T) : (forall k, q k = true -> p k = true) ->
  filter (fun e => q (fst e)) (filter (fun e => p (fst e)) l) = filter (fun e => q (fst e)) l.
Proof.
  intros H. rewrite filter_filter. apply filter_ext. intros e. specialize (H (fst e)).
  destruct (q (fst e)); [now rewrite H|now rewrite andb_false_r].
Qed.

Section Run.
Context {T : Type}.
Variable ins : Z -> T -> buf T -> buf T.
Variable srt : buf T -> Prop.
Hypothesis srt_nil : srt [].
Hypothesis srt_w : forall l, srt l -> wsorted l.
Hypothesis srt_ins : forall k v l, srt l -> srt (ins k v l).
Hypothesis srt_filter : forall p l, srt l -> srt (filter p l).
Hypothesis ins_In : forall k v l e, srt l -> In e (ins k v l) -> e = (k, v) \/ In e l.
Hypothesis ins_new : forall k v l, srt l -> In (k, v) (ins k v l).
Hypothesis ins_keys : forall k v l e, srt l -> In e l -> exists v', In (fst e, v') (ins k v l).
Hypothesis ins_filter : forall p k v l, srt l ->
  filter (fun e => p (fst e)) (ins k v l) =
  if p k then ins k v (filter (fun e => p (fst e)) l) else filter (fun e => p (fst e)) l.

(** the buffer without any trimming, and the newest instant ever inserted *)
Definition untrimmed (ev : list (Z * T)) : buf T := fold_left (fun l e => ins (fst e) (snd e) l) ev [].
Definition newest (ev : list (Z * T)) : Z := fold_left (fun m e => Z.max m (fst e)) ev 0.

Lemma untrimmed_snoc ev e : untrimmed (ev ++ [e]) = ins (fst e) (snd e) (untrimmed ev).
Proof. unfold untrimmed. now rewrite fold_left_app. Qed.
Lemma newest_snoc ev e : newest (ev ++ [e]) = Z.max (newest ev) (fst e).
Proof. unfold newest. now rewrite fold_left_app. Qed.
Lemma untrimmed_srt ev : srt (untrimmed ev).
Proof. induction ev as [|e ev IH] using rev_ind; [apply srt_nil|]. rewrite untrimmed_snoc. now apply srt_ins. Qed.

Lemma hor_run_snoc h ev e l : hor_run ins h l (ev ++ [e]) =
  obind (hor_run ins h l ev) (fun l' => check_horizon h (ins (fst e) (snd e) l')).
Proof.
  revert l. induction ev as [|[k v] ev IH]; intros l; cbn [hor_run app].
  - destruct e as [k v]. cbn [fst snd hor_run obind]. destruct (check_horizon h (ins k v l)); reflexivity.
  - destruct (check_horizon h (ins k v l)); cbn [obind]; [apply IH|reflexivity|reflexivity].
Qed.

Lemma untrimmed_newest ev : ev <> [] -> (forall e, In e ev -> 0 <= fst e) ->
  (exists v, In (newest ev, v) (untrimmed ev)) /\ forall e, In e (untrimmed ev) -> fst e <= newest ev.
Proof.
  induction ev as [|e ev IH] using rev_ind; [congruence|]. intros _ H. rewrite untrimmed_snoc, newest_snoc.
  pose proof (untrimmed_srt ev) as S.
  assert (He : 0 <= fst e) by (apply H; apply in_or_app; right; now left).
  destruct ev as [|e0 ev0].
  - cbn [untrimmed newest fold_left] in *. rewrite Z.max_r by lia. split.
    + exists (snd e). now apply ins_new.
    + intros e' I. apply ins_In in I; [|exact S]. destruct I as [->|[]]. cbn. lia.
  - destruct IH as [[v I] M]; [discriminate|intros x Hx; apply H; apply in_or_app; now left|]. split.
    + destruct (Z.max_spec (newest (e0 :: ev0)) (fst e)) as [[_ ->]|[_ ->]].
      * exists (snd e). now apply ins_new.
      * destruct (ins_keys (fst e) (snd e) _ _ S I) as [v' I']. eauto.
    + intros e' I'. apply ins_In in I'; [|exact S]. destruct I' as [->|I']; [cbn; lia|]. apply M in I'. lia.
Qed.

Lemma untrimmed_from_ev ev e : In e (untrimmed ev) -> In e ev.
Proof.
  induction ev as [|x ev IH] using rev_ind; [intros []|]. rewrite untrimmed_snoc. intros I.
  apply ins_In in I; [|apply untrimmed_srt]. apply in_or_app. destruct I as [->|I]; [right; left; now destruct x|left; auto].
Qed.

Lemma hor_run_exact h hz ev : h_near h hz -> 0 <= hz < 2097151 * 1000000000 ->
  (forall e, In e ev -> 0 <= fst e < 2097151 * 1000000000) ->
  hor_run ins h [] ev = Ok (filter (fun e => newest ev - hz <=? fst e) (untrimmed ev)).
Proof.
  intros N Hh. induction ev as [|e ev IH] using rev_ind; [reflexivity|]. intros H.
  rewrite hor_run_snoc, IH by (intros x Hx; apply H; apply in_or_app; now left). cbn [obind].
  set (L := filter (fun e0 => newest ev - hz <=? fst e0) (untrimmed ev)).
  pose proof (untrimmed_srt ev) as S. assert (SL : srt L) by now apply srt_filter.
  assert (LU : forall x, In x L -> In x ev). { intros x I. apply filter_In in I. apply untrimmed_from_ev. tauto. }
  assert (Lat : get_latest_t (ins (fst e) (snd e) L) = Some (newest (ev ++ [e]))).
  { pose proof (srt_ins (fst e) (snd e) L SL) as SI.
    destruct (nonempty_latest (ins (fst e) (snd e) L)) as [a E].
    { intros E. pose proof (ins_new (fst e) (snd e) L SL) as I. rewrite E in I. destruct I. }
    rewrite E. f_equal. destruct (latest_t_spec _ _ (srt_w _ SI) E) as [[v I] M].
    rewrite newest_snoc.
    assert (A1 : fst e <= a) by (apply (M (fst e, snd e)); now apply ins_new).
    assert (A2 : a <= Z.max (newest ev) (fst e)).
    { apply ins_In in I; [|exact SL]. destruct I as [[= ->]|I]; [lia|]. apply filter_In in I. destruct I as [I _].
      destruct ev as [|e0 ev0]; [destruct I|].
      destruct (untrimmed_newest (e0 :: ev0)) as [_ M']; [discriminate|intros x Hx; apply H; apply in_or_app; now left|].
      apply M' in I. cbn [fst] in I. lia. }
    assert (A3 : newest ev <= a).
    { destruct ev as [|e0 ev0]. { cbn. assert (0 <= fst e) by (apply H; now left). lia. }
      destruct (untrimmed_newest (e0 :: ev0)) as [[w I'] _]; [discriminate|intros x Hx; apply H; apply in_or_app; now left|].
      destruct (ins_keys (fst e) (snd e) L (newest (e0 :: ev0), w) SL) as [w' I'']; [|now apply M in I''].
      apply filter_In. split; [exact I'|]. cbn [fst]. lia. }
    lia. }
  rewrite (check_horizon_exact h hz (newest (ev ++ [e]))); [|now apply srt_w, srt_ins|exact N|exact Hh| |exact Lat].
  2:{ intros x I. apply H. apply ins_In in I; [|exact SL]. apply in_or_app. destruct I as [->|I]; [right; left; now destruct e|left; auto]. }
  f_equal. unfold trimmed. rewrite untrimmed_snoc.
  set (p := fun k => newest (ev ++ [e]) - hz <=? k). set (q := fun k => newest ev - hz <=? k).
  change (filter (fun e0 => newest (ev ++ [e]) - hz <=? fst e0)) with (filter (fun e0 : Z * T => p (fst e0))).
  rewrite !ins_filter by assumption.
  assert (W : filter (fun e0 => p (fst e0)) L = filter (fun e0 => p (fst e0)) (untrimmed ev)).
  { unfold L. apply (filter_weaken q p). intros k. unfold p, q. rewrite newest_snoc, !Z.leb_le. lia. }
  now rewrite W.
Qed.
End Run.

Lemma hb_insert_keys {T} k (v : T) l e : ssorted l -> In e l -> exists v', In (fst e, v') (hb_insert k v l).
Proof.
  intros S I. destruct (Z.eq_dec (fst e) k) as [->|N].
  - exists v. apply hb_insert_In; [exact S|now left].
  - exists (snd e). apply hb_insert_In; [exact S|]. right. split; [now destruct e|exact N].
Qed.

Lemma hb_hor_run_exact {T} h hz (ev : list (Z * T)) : h_near h hz -> 0 <= hz < 2097151 * 1000000000 ->
  (forall e, In e ev -> 0 <= fst e < 2097151 * 1000000000) ->
  hor_run hb_insert h [] ev = Ok (filter (fun e => newest ev - hz <=? fst e) (untrimmed hb_insert ev)).
Proof.
  apply (hor_run_exact hb_insert ssorted).
  - constructor.
  - apply ssorted_w.
  - intros; now apply hb_insert_ssorted.
  - intros; now apply ssorted_filter.
  - intros k v l e S I. apply hb_insert_In in I; [|exact S]. tauto.
  - intros k v l S. apply hb_insert_In; [exact S|now left].
  - intros; now apply hb_insert_keys.
  - intros; now apply hb_insert_filter.
Qed.

Lemma mb_insert_In {T} k (v : T) l e : wsorted l -> (In e (mb_insert k v l) <-> e = (k, v) \/ In e l).
Proof.
  intros S. destruct (mb_insert_remove_sub k v l S) as [l1 [l2 [-> ->]]]. rewrite !in_app_iff. cbn. intuition.
Qed.

Lemma mb_hor_run_exact {T} h hz (ev : list (Z * T)) : h_near h hz -> 0 <= hz < 2097151 * 1000000000 ->
  (forall e, In e ev -> 0 <= fst e < 2097151 * 1000000000) ->
  hor_run mb_insert h [] ev = Ok (filter (fun e => newest ev - hz <=? fst e) (untrimmed mb_insert ev)).
Proof.
  apply (hor_run_exact mb_insert wsorted).
  - constructor.
  - auto.
  - intros; now apply mb_insert_wsorted.
  - intros; now apply wsorted_filter.
  - intros k v l e S I. now apply mb_insert_In in I.
  - intros k v l S. apply mb_insert_In; [exact S|now left].
  - intros k v l e S I. exists (snd e). apply mb_insert_In; [exact S|]. right. now destruct e.
  - intros; now apply mb_insert_filter.
Qed.
