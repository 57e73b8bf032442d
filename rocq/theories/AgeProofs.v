From Coq Require Import ZArith List Bool Arith Lia Reals Lra.
From Flocq Require Import Core.Core IEEE754.BinarySingleNaN.
From Verif Require Import Outcome TimestampModel DoubleModel DoubleProofs BufModel Spec_Buf BufProofs HorizonModel HorizonProofs MeasModel HandlerModel.
Import ListNotations.
Local Open Scope R_scope.

(** a rounded difference of two stamps *)
Lemma sub_near a b : (0 <= a < 2097151 * 1000000000)%Z -> (0 <= b < 2097151 * 1000000000)%Z ->
  is_finite (d_sub (to_sec (from_stamp_ns a)) (to_sec (from_stamp_ns b))) = true /\
  B2R (d_sub (to_sec (from_stamp_ns a)) (to_sec (from_stamp_ns b))) = rnd (B2R (to_sec (from_stamp_ns a)) - B2R (to_sec (from_stamp_ns b))) /\
  Rabs (B2R (d_sub (to_sec (from_stamp_ns a)) (to_sec (from_stamp_ns b))) - IZR (a - b) / 1000000000) <= 3 / 8000000000.
Proof.
  intros Ha Hb. destruct (to_sec_ns_err a ltac:(lia)) as [Fa Ea], (to_sec_ns_err b ltac:(lia)) as [Fb Eb].
  apply Rabs_le_inv in Ea, Eb.
  assert (Ra : 0 <= IZR a <= 2097151 * 1000000000) by (split; [apply IZR_le; lia|rewrite <- mult_IZR; apply IZR_le; lia]).
  assert (Rb : 0 <= IZR b <= 2097151 * 1000000000) by (split; [apply IZR_le; lia|rewrite <- mult_IZR; apply IZR_le; lia]).
  set (x := B2R (to_sec (from_stamp_ns a))) in *. set (z := B2R (to_sec (from_stamp_ns b))) in *.
  assert (D : -2097152 < x - z < 2097152) by (split; lra).
  destruct (d_sub_spec _ _ Fa Fb) as [E F].
  { fold x z. apply Rabs_le. assert (2097152 <= IZR (2^100)) by (apply IZR_le; lia). lra. }
  fold x z in E.
  assert (R : Rabs (rnd (x - z) - (x - z)) <= / 8000000000).
  { apply rnd_err21. change (bpow radix2 21) with 2097152. apply Rabs_lt. lra. }
  apply Rabs_le_inv in R. split; [exact F|]. split; [exact E|]. rewrite E, minus_IZR. apply Rabs_le. lra.
Qed.

Lemma sub_cmp a b t : (0 <= a < 2097151 * 1000000000)%Z -> (0 <= b < 2097151 * 1000000000)%Z -> (0 <= t < 2097151 * 1000000000)%Z ->
  Bleb (d_sub (to_sec (from_stamp_ns a)) (to_sec (from_stamp_ns b))) (d_sub (to_sec (from_stamp_ns a)) (to_sec (from_stamp_ns t))) = (t <=? b)%Z.
Proof.
  intros Ha Hb Ht. destruct (sub_near a b Ha Hb) as [F1 [E1 N1]], (sub_near a t Ha Ht) as [F2 [E2 N2]].
  rewrite Bleb_correct by assumption. destruct (Z.leb_spec t b) as [L|L].
  - apply Rle_bool_true. destruct (Z.eq_dec t b) as [->|N]; [lra|].
    apply Rabs_le_inv in N1, N2. assert (IZR (a - b) + 1 <= IZR (a - t)) by (rewrite <- plus_IZR; apply IZR_le; lia). lra.
  - apply Rle_bool_false. apply Rabs_le_inv in N1, N2. assert (IZR (a - t) + 1 <= IZR (a - b)) by (rewrite <- plus_IZR; apply IZR_le; lia). lra.
Qed.

Lemma zero_cmp a t : (0 <= a < 2097151 * 1000000000)%Z -> (0 <= t < 2097151 * 1000000000)%Z ->
  Bleb (d_of_Z 0) (d_sub (to_sec (from_stamp_ns a)) (to_sec (from_stamp_ns t))) = (t <=? a)%Z.
Proof.
  intros Ha Ht. destruct (sub_near a t Ha Ht) as [F2 [E2 N2]]. destruct (d_of_Z_exact 0) as [Z0 F0]; [lia|].
  rewrite Bleb_correct by assumption. rewrite Z0. destruct (Z.leb_spec t a) as [L|L].
  - apply Rle_bool_true. destruct (Z.eq_dec t a) as [->|N].
    + rewrite E2, Rminus_diag_eq by reflexivity. rewrite round_0; [lra|typeclasses eauto].
    + apply Rabs_le_inv in N2. assert (1 <= IZR (a - t)) by (apply IZR_le; lia). lra.
  - apply Rle_bool_false. apply Rabs_le_inv in N2. assert (IZR (a - t) <= -1) by (apply IZR_le; lia). lra.
Qed.

Local Open Scope Z_scope.
Lemma too_old_exact {P} (m : meas P) l : wsorted l -> (forall e, In e l -> 0 <= fst e < 2097151 * 1000000000) ->
  0 <= m_t m < 2097151 * 1000000000 ->
  too_old m l = match get_oldest_t l with Some b => m_t m <=? b | None => false end.
Proof.
  intros W Hl Hm. unfold too_old. destruct (get_latest_t l) as [a|] eqn:Ea.
  2:{ unfold get_latest_t in Ea. destruct (get_latest l) eqn:G; [discriminate|]. apply get_latest_none in G. now subst. }
  destruct (latest_t_spec _ _ W Ea) as [[va Ia] Ma]. pose proof (Hl _ Ia) as Ba. cbn in Ba.
  destruct (nonempty_oldest l) as [b Eb]; [intros ->; contradiction|]. rewrite Eb.
  destruct (oldest_t_spec _ _ W Eb) as [[vb Ib] Mb]. pose proof (Hl _ Ib) as Bb. cbn in Bb.
  unfold span_sec, size. destruct (Nat.ltb_spec 1 (length l)) as [L|L].
  - rewrite Ea, Eb. now apply sub_cmp.
  - rewrite zero_cmp by assumption. replace b with a; [reflexivity|].
    destruct l as [|x [|y r]]; cbn in L; try lia; [contradiction|]. destruct Ia as [->|[]], Ib as [Q|[]]. congruence.
Qed.
