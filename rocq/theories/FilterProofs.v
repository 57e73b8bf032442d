From Coq Require Import ZArith List Bool Lia Sorted.
From Flocq Require Import IEEE754.BinarySingleNaN.
From Verif Require Import Outcome TimestampModel DoubleModel BufModel Spec_Buf BufProofs HorizonModel HorizonProofs MeasModel FilterModel.
Import ListNotations.
Local Open Scope Z_scope.

Section FP.
Context {B P : Type}.
Variable prop_cb priv_cb : buf B -> meas P -> list (hb_op B) * status.
Notation delegate := (delegate prop_cb priv_cb).
Notation redo_one := (redo_one prop_cb priv_cb).
Notation redo := (redo_updates_after_t prop_cb priv_cb).
Notation process := (process_measurement prop_cb priv_cb).
Implicit Types (f : filt B P) (m : meas P) (b : buf B).

Record finv f : Prop := {
  fi_bel : ssorted (f_bel f);
  fi_meas : wsorted (f_meas f);
  fi_key : forall k m, In (k, m) (f_meas f) -> k = m_t m;
  fi_off : f_delayed f = false -> f_meas f = [];
  fi_hor : exists h, f_hor_meas f = set_horizon h }.

Lemma apply_ops_sorted ops b : ssorted b -> ssorted (apply_ops b ops).
Proof. revert b. induction ops as [|o r IH]; intros b S; [exact S|]. apply IH. now apply hb_step_ssorted. Qed.
Lemma delegate_sorted b m : ssorted b -> ssorted (fst (delegate b m)).
Proof.
  intros S. unfold FilterModel.delegate. destruct (m_ty m); cbn; try exact S.
  - destruct (prop_cb b m). now apply apply_ops_sorted.
  - destruct (priv_cb b m). now apply apply_ops_sorted.
Qed.
Lemma redo_one_sorted s m : ssorted (fst s) -> ssorted (fst (redo_one s m)).
Proof.
  destruct s as [b vec]. cbn [fst]. intros S. unfold FilterModel.redo_one.
  pose proof (delegate_sorted b m S). destruct (delegate b m). exact H.
Qed.
Lemma redo_fold_sorted ms s : ssorted (fst s) -> ssorted (fst (fold_left redo_one ms s)).
Proof. revert s. induction ms as [|m r IH]; intros s S; [exact S|]. cbn. apply IH. now apply redo_one_sorted. Qed.
Lemma remove_after_sorted t b : ssorted b -> ssorted (remove_after_t t b).
Proof. intros S. exact (hb_step_ssorted b (HRemoveAfter t) S). Qed.

(** ** replay *)
Definition later t (l : buf (meas P)) : list (meas P) := map snd (filter (fun e => t <? fst e) l).

Lemma latest_of_app (l : buf (meas P)) p : get_latest_t (l ++ [p]) = Some (fst p).
Proof. unfold get_latest_t. now rewrite get_latest_app. Qed.

Lemma filter_nonempty_latest t (l : buf (meas P)) a r : wsorted l -> filter (fun e => t <? fst e) l = a :: r ->
  exists t_last, get_latest_t l = Some t_last /\ fst a <= t_last /\ (forall e, In e l -> fst e <= t_last).
Proof.
  intros W E. assert (I : In a l). { assert (In a (filter (fun e => t <? fst e) l)) by (rewrite E; now left). apply filter_In in H. tauto. }
  destruct (nonempty_latest l) as [x X]; [intros ->; contradiction|]. exists x. split; [exact X|].
  destruct (latest_t_spec l x W X) as [_ H]. split; auto.
Qed.

Lemma redo_spec t f : wsorted (f_meas f) ->
  redo t f =
  let ms := later t (f_meas f) in
  let todo := match filter (fun e => t <? fst e) (f_meas f) with
              | [] => []
              | (k, m) :: r => if forallb (fun e => fst e =? k) r then [m] else ms
              end in
  let (b', vec) := fold_left redo_one todo (remove_after_t t (f_bel f), []) in
  (Filt b' (f_meas f) (f_delayed f) (f_hor_meas f), vec).
Proof.
  intros W. unfold FilterModel.redo_updates_after_t, later. rewrite get_after_hd by exact W.
  destruct (filter (fun e => t <? fst e) (f_meas f)) as [|[k m] r] eqn:E; [reflexivity|]. cbn [hd_error].
  destruct (filter_nonempty_latest t _ _ _ W E) as [tl [El [Hk Hmax]]]. cbn [fst] in Hk. rewrite El.
  assert (WF : wsorted ((k, m) :: r)) by (rewrite <- E; now apply wsorted_filter).
  apply ws_inv in WF. destruct WF as [Wr Fr]. rewrite Forall_forall in Fr.
  assert (Sub : forall e, In e ((k, m) :: r) -> In e (f_meas f) /\ t < fst e).
  { intros e I. rewrite <- E in I. apply filter_In in I. destruct I. split; [assumption|lia]. }
  destruct (latest_t_spec _ _ W El) as [[vl Il] _].
  assert (Lin : In (tl, vl) ((k, m) :: r)).
  { rewrite <- E. apply filter_In. split; [exact Il|]. cbn. destruct (Sub (k, m)) as [_ L]; [now left|]. cbn in L. lia. }
  destruct (Z.eqb_spec k tl) as [->|Nk].
  - replace (forallb (fun e => fst e =? tl) r) with true.
    2:{ symmetry. apply forallb_forall. intros e I. specialize (Fr e I). unfold kle in Fr. cbn in Fr.
        destruct (Sub e (or_intror I)) as [J _]. specialize (Hmax e J). lia. }
    rewrite get_at_first.
    assert (F : find (fun e => fst e =? tl) (f_meas f) = Some (tl, m)).
    { clear - E. induction (f_meas f) as [|[x y] l IH]; [discriminate|]. cbn [filter] in E. cbn [find fst].
      cbn [fst] in E. destruct (Z.ltb_spec t x) as [L|L].
      - injection E as -> -> _. now rewrite Z.eqb_refl.
      - destruct (Z.eqb_spec x tl) as [->|N]; [|exact (IH E)].
        exfalso. assert (In (tl, m) (filter (fun e => t <? fst e) l)) by (rewrite E; now left). apply filter_In in H. cbn in H. lia. }
    rewrite F. cbn [option_map snd fold_left]. destruct (redo_one _ m). reflexivity.
  - replace (forallb (fun e => fst e =? k) r) with false.
    2:{ symmetry. apply not_true_is_false. intros H. rewrite forallb_forall in H. destruct Lin as [Q|I]; [congruence|].
        specialize (H _ I). cbn in H. lia. }
    unfold mb_foreach_between. rewrite mb_accumulate_between_spec by exact W.
    replace (elements_in k tl (f_meas f)) with ((k, m) :: r); [reflexivity|].
    rewrite <- E. unfold elements_in. apply filter_ext_in'. intros e I.
    destruct (Sub (k, m)) as [_ L]; [now left|]. cbn in L. specialize (Hmax e I).
    destruct (Z.ltb_spec t (fst e)) as [T|T].
    + assert (J : In e ((k, m) :: r)) by (rewrite <- E; apply filter_In; split; [exact I|lia]).
      assert (k <= fst e). { destruct J as [<-|J]; [cbn; lia|]. exact (Fr e J). }
      symmetry. apply andb_true_iff. split; lia.
    + symmetry. apply andb_false_iff. left. lia.
Qed.

Lemma redo_fields t f : wsorted (f_meas f) ->
  f_meas (fst (redo t f)) = f_meas f /\ f_delayed (fst (redo t f)) = f_delayed f /\
  f_hor_meas (fst (redo t f)) = f_hor_meas f /\ (ssorted (f_bel f) -> ssorted (f_bel (fst (redo t f)))).
Proof.
  intros W. rewrite redo_spec by exact W. cbn zeta.
  destruct (fold_left _ _ _) as [b' vec] eqn:E. cbn. repeat split; auto.
  intros S. change b' with (fst (b', vec)). rewrite <- E. apply redo_fold_sorted. now apply remove_after_sorted.
Qed.

(** ** invariants *)
Lemma check_sub h (l l' : buf (meas P)) : check_horizon h l = Ok l' -> (forall e, In e l' -> In e l) /\ (wsorted l -> wsorted l').
Proof.
  intros E. apply check_suffix in E. destruct E as [[p ->] _]. split.
  - intros e I. apply in_or_app. now right.
  - intros W. now apply ws_app in W.
Qed.

Lemma process_inv m f f' vec : finv f -> process m f = Ok (f', vec) -> finv f'.
Proof.
  intros [Sb Wm Kk Off Hh]. unfold process_measurement.
  pose proof (delegate_sorted (f_bel f) m Sb) as SD.
  destruct (delegate (f_bel f) m) as [b1 res] eqn:D. cbn [fst] in SD.
  destruct (f_delayed f) eqn:Ed.
  2:{ intros [= <- <-]. constructor; cbn; auto. }
  set (f1 := Filt b1 (f_meas f) true (f_hor_meas f)).
  assert (A : forall f2 v2, (if is_ooo (r_status res) && exist_after_t (m_t m) (f_meas f1)
      then let (f2, after) := redo (m_t m) f1 in (f2, res :: after) else (f1, [res])) = (f2, v2) ->
      ssorted (f_bel f2) /\ f_meas f2 = f_meas f /\ f_delayed f2 = true /\ f_hor_meas f2 = f_hor_meas f).
  { intros f2 v2. destruct (_ && _).
    - destruct (redo_fields (m_t m) f1 Wm) as [A1 [A2 [A3 A4]]]. destruct (redo (m_t m) f1) as [f2' after]. cbn [fst] in *.
      intros [= <- <-]. repeat split; auto.
    - intros [= <- <-]. repeat split; auto. }
  destruct (if _ && _ then _ else _) as [f2 v2] eqn:E2. specialize (A f2 v2 eq_refl). destruct A as [A1 [A2 [A3 A4]]].
  destruct (negb _).
  - unfold insert_measurement. rewrite A3. cbn [f_meas f_hor_meas f_bel f_delayed].
    destruct (check_horizon _ _) as [h| |] eqn:C; cbn [obind]; try discriminate. intros [= <- <-].
    destruct (check_sub _ _ _ C) as [Sub Ws]. rewrite A2 in *.
    constructor; cbn; auto.
    + apply Ws. now apply mb_insert_wsorted.
    + intros k m' I. apply Sub in I. apply mb_insert_In in I; [|exact Wm]. destruct I as [[= -> ->]|I]; auto.
    + discriminate.
    + now rewrite A4.
  - intros [= <- <-]. constructor; rewrite ?A2, ?A3, ?A4; auto.
Qed.

Variable predict_cb : buf B -> Z -> list (hb_op B) * bool.
Notation getb := (get_belief_at_t predict_cb).
Notation fstep := (fstep prop_cb priv_cb predict_cb).
Notation frun := (frun prop_cb priv_cb predict_cb).
Lemma step_inv f o f' : finv f -> fstep f o = Ok f' -> finv f'.
Proof.
  intros I. pose proof I as [Sb Wm Kk Off Hh]. destruct o; cbn [FilterModel.fstep].
  - destruct (process m f) as [[g v]| |] eqn:E; cbn [omap]; try discriminate. intros [= <-]. exact (process_inv m f g v I E).
  - intros [= <-]. destruct v; constructor; cbn; auto; try constructor; try discriminate; contradiction.
  - intros [= <-]. constructor; cbn; auto. constructor.
  - intros [= <-]. constructor; cbn; auto. repeat constructor.
  - intros [= <-]. constructor; cbn; auto. now apply hb_insert_ssorted.
  - intros [= <-]. constructor; cbn; auto. unfold FilterModel.get_belief_at_t. destruct (negb _); [|exact Sb].
    destruct ty; try exact Sb. destruct (predict_cb _ _). cbn. now apply apply_ops_sorted.
Qed.

Lemma run_inv ops f f' : finv f -> frun f ops = Ok f' -> finv f'.
Proof.
  revert f. induction ops as [|o r IH]; intros f I; cbn [FilterModel.frun]; [now intros [= <-]|].
  destruct (fstep f o) as [g| |] eqn:E; cbn [obind]; try discriminate. intros R. apply (IH g); [|exact R].
  exact (step_inv f o g I E).
Qed.
Lemma new_inv h d : finv (new_filter h d).
Proof. constructor; cbn; eauto; try constructor. contradiction. Qed.

End FP.

Section Lookup.
Context {B : Type}.
Variable predict_cb : buf B -> Z -> list (hb_op B) * bool.
Notation getb := (get_belief_at_t predict_cb).
Implicit Types b : buf B.
(** ** lookup *)
Lemma exist_after_get t b : wsorted b -> get_after_t t b = None -> forall e, In e b -> fst e <= t.
Proof. intros W E. now apply get_after_none. Qed.

Lemma closest_spec t b b' r : ssorted b -> getb t CLOSEST b = (b', r) ->
  b' = b /\ (r = None <-> b = []) /\
  forall v, r = Some v -> exists k, In (k, v) b /\
    forall e, In e b -> Z.abs (k - t) < Z.abs (fst e - t) \/ (Z.abs (k - t) = Z.abs (fst e - t) /\ k <= fst e).
Proof.
  intros S. pose proof (ssorted_w b S) as W. unfold FilterModel.get_belief_at_t.
  destruct (exist_at_t t b) eqn:X; cbn [negb]; intros [= <- <-].
  - apply exist_at_iff in X. destruct X as [v I]. rewrite (proj2 (get_at_iff t v b S) I).
    split; [reflexivity|]. split; [split; [discriminate|intros ->; contradiction]|].
    intros v' [= <-]. exists t. split; [exact I|]. intros e _. rewrite Z.sub_diag. cbn [Z.abs].
    destruct (Z.eq_dec (fst e) t) as [E|N]; [right; rewrite E, Z.sub_diag; split; [reflexivity|lia]|left; lia].
  - assert (Nt : forall e, In e b -> fst e <> t).
    { intros e I E. assert (exist_at_t t b = true); [|congruence]. apply exist_at_iff. exists (snd e). subst t. now destruct e. }
    split; [reflexivity|].
    destruct (get_before_t t b) as [[kp vp]|] eqn:Eb.
    + apply get_before_spec in Eb; [|exact W]. destruct Eb as [Ip [Lp Mp]].
      destruct (get_after_t t b) as [[ka va]|] eqn:Ea.
      * apply get_after_spec in Ea; [|exact W]. destruct Ea as [Ia [La Ma]].
        split; [split; [destruct (_ <=? _); discriminate|intros ->; contradiction]|].
        destruct (Z.leb_spec (t - kp) (ka - t)) as [L|L]; intros v [= <-].
        -- exists kp. split; [exact Ip|]. intros e I. pose proof (Nt e I).
           destruct (Z_lt_dec (fst e) t) as [Q|Q]; [specialize (Mp e I Q)|specialize (Ma e I ltac:(lia))]; lia.
        -- exists ka. split; [exact Ia|]. intros e I. pose proof (Nt e I).
           destruct (Z_lt_dec (fst e) t) as [Q|Q]; [specialize (Mp e I Q)|specialize (Ma e I ltac:(lia))]; lia.
      * pose proof (proj1 (get_after_none t b W) Ea) as Ea2. clear Ea. rename Ea2 into Ea.
        assert (Em := Ea). split; [split; [discriminate|intros ->; contradiction]|]. intros v [= <-]. exists kp. split; [exact Ip|].
        intros e I. specialize (Em e I). pose proof (Nt e I). specialize (Mp e I ltac:(lia)). lia.
    + pose proof (proj1 (get_before_none t b W) Eb) as Eb2. clear Eb. rename Eb2 into Eb. assert (Em := Eb).
      destruct (get_after_t t b) as [[ka va]|] eqn:Ea; cbn [option_map snd].
      * apply get_after_spec in Ea; [|exact W]. destruct Ea as [Ia [La Ma]].
        split; [split; [discriminate|intros ->; contradiction]|]. intros v [= <-]. exists ka. split; [exact Ia|].
        intros e I. specialize (Em e I). pose proof (Nt e I). specialize (Ma e I ltac:(lia)). lia.
      * pose proof (proj1 (get_after_none t b W) Ea) as Ea2. clear Ea. rename Ea2 into Ea. split; [|discriminate]. split; [|reflexivity]. intros _.
        destruct b as [|e r]; [reflexivity|]. exfalso. specialize (Em e (or_introl eq_refl)).
        assert (Ea' := Ea e (or_introl eq_refl)). specialize (Nt e (or_introl eq_refl)). lia.
Qed.
End Lookup.
