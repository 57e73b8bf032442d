(** The measurement history under the relaxed order. *)
From Coq Require Import ZArith List Bool Arith Lia Sorted Permutation.
From Flocq Require Import IEEE754.BinarySingleNaN.
From Verif Require Import Outcome TimestampModel DoubleModel BufModel Spec_Buf BufProofs HorizonModel HorizonProofs MeasModel HandlerModel Spec_Handler HandlerProofs ReplayProofs ArrivalProofs UtilModel RelaxModel.
Import ListNotations.
Local Open Scope Z_scope.
Local Open Scope outcome_scope.

Section RP.
Context {B M P : Type}.
Notation meas := (meas P). Notation inst := (inst B M). Notation dict := (dict B M). Notation handler := (handler B M P).
Implicit Types (h : handler) (m : meas) (d : dict) (l : buf meas).

(** no propagation after a private or joint measurement *)
Definition rler (a b : Z * meas) : Prop := (m_ty (snd a) = PRIVATE \/ m_ty (snd a) = JOINT) -> m_ty (snd b) <> PROPAGATION.
Definition ordered_r l : Prop := wsorted l /\ keyed_ok l /\ forall s, StronglySorted rler (elements_at s l).
Record rinv h : Prop := { ri_ord : ordered_r (h_meas h); ri_ooo : ssorted (h_ooo h); ri_redo : ssorted (h_redo h) }.

Lemma rle_rler a b : rle a b -> rler a b.
Proof. unfold rle, rler. intros [E|[E|E]] H; [|congruence|]. { rewrite E in H. destruct H; discriminate. }
  intros Q. rewrite Q in E. destruct H as [H|H]; rewrite H in E; cbn in E; lia. Qed.
Lemma ss_weaken {A} (R S : A -> A -> Prop) (l : list A) : (forall a b, R a b -> S a b) -> StronglySorted R l -> StronglySorted S l.
Proof. intros H. induction 1 as [|a r S0 IH F]; constructor; [exact IH|]. rewrite Forall_forall in *. auto. Qed.
Lemma ordered_weaken l : ordered l -> ordered_r l.
Proof. intros [W [K S]]. split; [exact W|]. split; [exact K|]. intros s. apply (ss_weaken rle); [apply rle_rler|apply S]. Qed.

Lemma sort_ordered_r t l : wsorted l -> keyed_ok l -> (forall s, s < t -> StronglySorted rler (elements_at s l)) ->
  existsb (fun e => t <=? fst e) l = true -> ordered_r (sort_from t l) /\ forall e, In e (sort_from t l) -> In e l.
Proof.
  intros W K H X. destruct (sort_from_spec t l W K) as [W' E]. rewrite X in E.
  assert (Sub : forall e, In e (sort_from t l) -> In e l).
  { intros e I. apply elements_at_all in I. rewrite E in I. destruct (fst e <? t).
    + unfold elements_at in I. apply filter_In in I. tauto.
    + apply by_type_In in I. destruct I as [I _]. unfold elements_at in I. apply filter_In in I. tauto. }
  split; [|exact Sub]. split; [exact W'|]. split; [intros e I; apply K; auto|].
  intros s. rewrite E. destruct (Z.ltb_spec s t) as [L|L]; [now apply H|]. apply (ss_weaken rle); [apply rle_rler|apply by_type_sorted].
Qed.
Lemma check_ordered_r hz l l' : ordered_r l -> check_horizon hz l = Ok l' -> ordered_r l' /\ forall e, In e l' -> In e l.
Proof.
  intros [W [K S]] E. apply check_suffix in E. destruct E as [[p ->] _]. apply ws_app in W. destruct W as [_ [W _]].
  split; [|intros e I; apply in_or_app; now right].
  split; [exact W|]. split; [intros e I; apply K; apply in_or_app; now right|].
  intros s. specialize (S s). unfold elements_at in *. rewrite filter_app in S.
  clear - S. induction (filter _ p) as [|a r IH]; [exact S|]. apply IH. cbn in S. now apply StronglySorted_inv in S.
Qed.
Lemma append_ordered_r m l : ordered_r l -> order_violated_relaxed m l = false -> ordered_r (mb_insert (m_t m) m l).
Proof.
  intros [W [K S]] V. split; [now apply mb_insert_wsorted|]. split.
  - intros e I. apply mb_insert_In in I; [|exact W]. destruct I as [->|I]; [reflexivity|auto].
  - intros s. rewrite mb_insert_at by exact W. destruct (Z.eqb_spec (m_t m) s) as [<-|N]; [|rewrite app_nil_r; apply S].
    apply ss_app; [apply S|repeat constructor|]. intros a b Ia [<-|[]]. unfold rler. cbn [snd]. intros Ta T.
    unfold order_violated_relaxed in V. rewrite get_all_eq in V by exact W. destruct (exist_after_t (m_t m) l); [discriminate|]. rewrite T in V.
    match type of V with existsb ?f ?q = _ => assert (X : existsb f q = true); [|congruence] end.
    apply existsb_exists. exists (snd a). split; [now apply in_map|]. destruct Ta as [-> | ->]; reflexivity.
Qed.

Section Step.
Variable deleg : dict -> meas -> dict * status.
Variable viol : meas -> buf meas -> bool.
Hypothesis Vr : forall m l, order_violated_relaxed m l = true -> viol m l = true.
(** every rule at least as strict as the relaxed one keeps the history in relaxed order, and only the arrival is added to it *)
Lemma process_rinv disc m h h' vec : rinv h -> process_gen deleg viol disc m h = Ok (h', vec) ->
  rinv h' /\ forall e, In e (h_meas h') -> e = (m_t m, m) \/ In e (h_meas h).
Proof.
  intros I0. pose proof I0 as [So Sf Sr]. assert (W : wsorted (h_meas h)) by apply So. unfold process_gen.
  destruct (negb _); [intros [= <- <-]; split; [exact I0|now right]|].
  destruct (too_old m (h_meas h)); [intros [= <- <-]; split; [exact I0|now right]|].
  destruct (serve_requests deleg h) as [h1| |] eqn:Es; cbn [obind]; try discriminate.
  destruct (serve_fields deleg h h1 W Sf Sr Es) as [A1 [A2 [A3 [A4 [A5 [A6 A7]]]]]].
  assert (I1 : rinv h1) by (constructor; rewrite ?A1, ?A7; auto; constructor).
  destruct (disc m h1); [intros [= <- <-]; split; [exact I1|rewrite A1; now right]|].
  destruct (check_horizon_from_t _ _ _) as [flags| |] eqn:Cf; cbn [obind]; try discriminate.
  assert (Sfl : ssorted flags) by (now apply check_from_sub in Cf; apply Cf).
  rewrite A1. set (b := hb_exist_before_t (m_t m) flags || exist_at_t (m_t m) flags).
  assert (Ins : forall e, In e (mb_insert (m_t m) m (h_meas h)) -> e = (m_t m, m) \/ In e (h_meas h)) by (intros e; now apply mb_insert_In).
  destruct (viol m (h_meas h) || b) eqn:V.
  - cbn [h_meas set_ooo h_max]. rewrite A1. destruct (check_horizon _ _) as [l| |] eqn:Ch; cbn [obind]; try discriminate.
    set (t0 := if b then _ else _).
    assert (T0 : t0 <= m_t m).
    { unfold t0. destruct b; [|lia]. destruct (get_oldest_t flags) as [x|]; [|lia]. destruct (Z.ltb_spec x (m_t m)); lia. }
    assert (Wi : wsorted (mb_insert (m_t m) m (h_meas h))) by (now apply mb_insert_wsorted).
    assert (Ki : keyed_ok (mb_insert (m_t m) m (h_meas h))).
    { intros e I. apply Ins in I. destruct I as [->|I]; [reflexivity|now apply So]. }
    pose proof Ch as Ch2. apply check_suffix in Ch2. destruct Ch2 as [[p Ep] Lat].
    assert (Wl : wsorted l) by (rewrite Ep in Wi; now apply ws_app in Wi).
    assert (Sl : forall e, In e l -> In e (mb_insert (m_t m) m (h_meas h))) by (intros e I; rewrite Ep; apply in_or_app; now right).
    assert (Kl : keyed_ok l) by (intros e I; apply Ki; auto).
    assert (Ol : ordered_r (sort_from t0 l) /\ forall e, In e (sort_from t0 l) -> In e l).
    { apply sort_ordered_r; auto.
      - intros s Ls. assert (Q : StronglySorted rler (elements_at s (mb_insert (m_t m) m (h_meas h)))).
        { rewrite mb_insert_at by exact W. replace (m_t m =? s) with false by lia. rewrite app_nil_r. apply So. }
        rewrite Ep in Q. unfold elements_at in *. rewrite filter_app in Q. clear -Q.
        induction (filter _ p) as [|a r IH]; [exact Q|]. apply IH. cbn in Q. now apply StronglySorted_inv in Q.
      - destruct (nonempty_latest (mb_insert (m_t m) m (h_meas h))) as [tl El].
        { intros Q. pose proof (insert_exists deleg m (h_meas h) W) as X. rewrite Q in X. discriminate. }
        destruct (latest_t_spec _ _ Wi El) as [_ Hmax].
        assert (El' : get_latest_t l = Some tl) by (unfold get_latest_t in *; now rewrite Lat).
        destruct (latest_t_spec _ _ Wl El') as [[v Iv] _]. apply existsb_exists. exists (tl, v). split; [exact Iv|]. cbn.
        assert (m_t m <= tl) by (apply (Hmax (m_t m, m)); apply mb_insert_In; [exact W|now left]). lia. }
    destruct Ol as [Ol Sub]. intros [= E]. set (h3 := set_meas _ _) in E.
    assert (W3 : wsorted (h_meas h3)) by apply Ol.
    destruct (redo_from_fields deleg t0 h3 W3) as [B1 [B2 [B3 [B4 [B5 [B6 B7]]]]]]. rewrite E in *. cbn [fst] in *.
    split; [constructor; [rewrite B1; exact Ol|exact B7|rewrite B2; cbn; rewrite A7; constructor]|].
    rewrite B1. cbn [h_meas set_meas]. intros e I. apply Ins, Sl, Sub, I.
  - apply orb_false_iff in V. destruct V as [V _].
    assert (V2 : order_violated_relaxed m (h_meas h) = false).
    { destruct (order_violated_relaxed m (h_meas h)) eqn:X; [|reflexivity]. apply Vr in X. congruence. }
    cbn [h_meas set_ooo h_dict]. destruct (h_delegate deleg (h_dict h1) m) as [d' r].
    assert (Sx : ssorted (if is_ooo (r_status r) then hb_insert (m_t m) true flags else flags)).
    { destruct (is_ooo _); [now apply hb_insert_ssorted|exact Sfl]. }
    destruct (negb (is_disc _)).
    + cbn [h_meas h_max set_dict set_ooo]. rewrite A1. destruct (check_horizon _ _) as [l| |] eqn:Ch; cbn [obind]; try discriminate.
      intros [= <- <-]. apply check_ordered_r in Ch; [|now apply append_ordered_r]. destruct Ch as [Ol Sub].
      split; [constructor; cbn; [exact Ol|exact Sx|rewrite A7; constructor]|]. cbn. intros e I. apply Ins, Sub, I.
    + intros [= <- <-]. split; [constructor; cbn; [now rewrite A1|exact Sx|rewrite A7; constructor]|]. cbn. rewrite A1. now right.
Qed.
End Step.

(** without a joint measurement stored at the time of a private one the two rules agree *)
Lemma rules_agree m l : wsorted l -> (m_ty m = PRIVATE -> forall x, In (m_t m, x) l -> m_ty x <> JOINT) ->
  order_violated_relaxed m l = order_violated m l.
Proof.
  intros W N. unfold order_violated_relaxed, order_violated. destruct (exist_after_t (m_t m) l); [reflexivity|]. destruct (m_ty m); try reflexivity.
  symmetry. rewrite get_all_eq by exact W. destruct (existsb _ _) eqn:E; [|reflexivity]. exfalso.
  apply existsb_exists in E. destruct E as [x [I E]]. apply in_map_iff in I. destruct I as [[k y] [Q I]]. cbn in Q. subst y.
  unfold elements_at in I. apply filter_In in I. destruct I as [I Ek]. cbn in Ek. assert (k = m_t m) by lia. subst k.
  apply obs_eqb_iff in E. exact (N eq_refl x I E).
Qed.
(** two rules that agree on the stored history give the same result *)
Lemma process_viol deleg v1 v2 disc m h : wsorted (h_meas h) -> ssorted (h_ooo h) -> ssorted (h_redo h) -> v1 m (h_meas h) = v2 m (h_meas h) ->
  process_gen deleg v1 disc m h = process_gen deleg v2 disc m h.
Proof.
  intros W So Sr E. unfold process_gen. destruct (negb _); [reflexivity|]. destruct (too_old _ _); [reflexivity|].
  destruct (serve_requests deleg h) as [h1| |] eqn:Es; cbn [obind]; try reflexivity.
  destruct (serve_fields deleg h h1 W So Sr Es) as [A1 _]. destruct (disc m h1); [reflexivity|]. now rewrite A1, E.
Qed.
End RP.
