From Coq Require Import ZArith List Bool Arith Lia Sorted Permutation Reals Lra.
From Flocq Require Import Core.Core IEEE754.BinarySingleNaN.
From Verif Require Import Outcome TimestampModel DoubleModel DoubleProofs BufModel Spec_Buf BufProofs HorizonModel HorizonProofs MeasModel HandlerModel Spec_Handler.
Import ListNotations.
Local Open Scope Z_scope.

Section HP.
Context {B M P : Type}.
Notation meas := (meas P). Notation inst := (inst B M). Notation dict := (dict B M). Notation handler := (handler B M P).
Implicit Types (h : handler) (m : meas) (d : dict) (l : buf meas).

(** ** which measurements a replay visits *)
Definition from_t (t : Z) l : list meas := map snd (filter (fun e => t <=? fst e) l).
Definition after_t (t : Z) l : list meas := map snd (filter (fun e => t <? fst e) l).

Lemma get_all_eq t l : wsorted l -> mb_get_all_at_t t l = map snd (elements_at t l).
Proof.
  intros W. unfold mb_get_all_at_t. rewrite equal_range_eq by exact W. destruct (exist_at_t t l) eqn:E; [reflexivity|].
  unfold elements_at. rewrite filter_all_false; [reflexivity|]. rewrite Forall_forall. intros e I. apply Z.eqb_neq. intros Q.
  assert (exist_at_t t l = true); [|congruence]. apply exist_at_iff. exists (snd e). subst t. now destruct e.
Qed.

Section Deleg.
Variable deleg : dict -> meas -> dict * status.
Notation step := (replay_step deleg).

Lemma redo_from_spec t h : wsorted (h_meas h) ->
  redo_from deleg t h =
  match fold_left step (from_t t (h_meas h)) (remove_beliefs_from t (h_dict h), [], []) with
  | (d', ooo, vec) => (set_ooo ooo (set_dict d' h), vec)
  end.
Proof.
  intros W. unfold redo_from, from_t. destruct (get_latest_t (h_meas h)) as [tl|] eqn:E.
  - destruct (latest_t_spec _ _ W E) as [_ Hmax]. destruct (Z.eqb_spec t tl) as [->|N].
    + rewrite get_all_eq by exact W. replace (elements_at tl (h_meas h)) with (filter (fun e => tl <=? fst e) (h_meas h)); [reflexivity|].
      unfold elements_at. apply filter_ext_in'. intros e I. specialize (Hmax e I).
      destruct (Z.leb_spec tl (fst e)), (Z.eqb_spec (fst e) tl); lia.
    + unfold mb_foreach_between. rewrite mb_accumulate_between_spec by exact W.
      replace (elements_in t tl (h_meas h)) with (filter (fun e => t <=? fst e) (h_meas h)); [reflexivity|].
      unfold elements_in. apply filter_ext_in'. intros e I. specialize (Hmax e I).
      replace (fst e <=? tl) with true by (symmetry; lia). now rewrite andb_true_r.
  - unfold get_latest_t in E. destruct (get_latest (h_meas h)) eqn:G; [discriminate|].
    apply get_latest_none in G. rewrite G. reflexivity.
Qed.

Lemma redo_after_spec t h : wsorted (h_meas h) ->
  redo_after deleg t h =
  match fold_left step (after_t t (h_meas h)) (remove_beliefs_after t (h_dict h), [], []) with
  | (d', ooo, vec) => (set_ooo ooo (set_dict d' h), vec)
  end.
Proof.
  intros W. unfold redo_after, after_t. rewrite get_after_hd by exact W.
  destruct (filter (fun e => t <? fst e) (h_meas h)) as [|[k m] r] eqn:E; [reflexivity|]. cbn [hd_error].
  assert (I0 : forall e, In e ((k, m) :: r) -> In e (h_meas h) /\ t < fst e).
  { intros e I. rewrite <- E in I. apply filter_In in I. destruct I. split; [assumption|lia]. }
  destruct (nonempty_latest (h_meas h)) as [tl El].
  { intros Q. destruct (I0 (k, m)) as [I _]; [now left|]. rewrite Q in I. contradiction. }
  rewrite El. destruct (latest_t_spec _ _ W El) as [_ Hmax].
  assert (WF : wsorted ((k, m) :: r)) by (rewrite <- E; now apply wsorted_filter).
  apply ws_inv in WF. destruct WF as [_ Fr]. rewrite Forall_forall in Fr.
  assert (Low : forall e, In e ((k, m) :: r) -> k <= fst e) by (intros e [<-|I]; [cbn; lia|exact (Fr e I)]).
  destruct (I0 (k, m) (or_introl eq_refl)) as [_ Lk]. cbn in Lk.
  assert (Seg : forall e, In e (h_meas h) -> (t <? fst e) = ((k <=? fst e) && (fst e <=? tl))).
  { intros e I. specialize (Hmax e I). destruct (Z.ltb_spec t (fst e)) as [L|L].
    - assert (J : In e ((k, m) :: r)) by (rewrite <- E; apply filter_In; split; [exact I|lia]). specialize (Low e J). lia.
    - symmetry. apply andb_false_iff. left. lia. }
  destruct (Z.eqb_spec k tl) as [->|N].
  - rewrite get_all_eq by exact W. replace (elements_at tl (h_meas h)) with ((tl, m) :: r); [reflexivity|].
    rewrite <- E. unfold elements_at. apply filter_ext_in'. intros e I. rewrite (Seg e I). specialize (Hmax e I).
    destruct (Z.leb_spec tl (fst e)), (Z.leb_spec (fst e) tl), (Z.eqb_spec (fst e) tl); cbn; lia.
  - unfold mb_foreach_between. rewrite mb_accumulate_between_spec by exact W.
    replace (elements_in k tl (h_meas h)) with ((k, m) :: r); [reflexivity|].
    rewrite <- E. unfold elements_in. apply filter_ext_in'. exact Seg.
Qed.
End Deleg.

(** ** sorting *)
Definition keyed_ok l := forall e, In e l -> fst e = m_t (snd e).
Definition of_type (ty : obs_type) (q : buf meas) : buf meas := filter (fun e => obs_eqb (m_ty (snd e)) ty) q.
Definition by_type (q : buf meas) : buf meas := of_type PROPAGATION q ++ of_type PRIVATE q ++ of_type JOINT q.

Lemma insert_type_spec ty ms l : wsorted l -> keyed_ok ms ->
  wsorted (insert_type ty ms l) /\
  forall s, elements_at s (insert_type ty ms l) = elements_at s l ++ of_type ty (elements_at s ms).
Proof.
  unfold insert_type, foreach, accumulate. revert l. induction ms as [|[k m] r IH]; intros l W K.
  - split; [exact W|]. intros s. now rewrite app_nil_r.
  - cbn [fold_left snd]. assert (K' : keyed_ok r) by (intros e I; apply K; now right).
    pose proof (K (k, m) (or_introl eq_refl)) as Ek. cbn in Ek. subst k.
    destruct (obs_eqb (m_ty m) ty) eqn:T.
    + destruct (IH (mb_insert (m_t m) m l) (mb_insert_wsorted _ _ _ W) K') as [A E]. split; [exact A|]. intros s.
      rewrite E, mb_insert_at by exact W. rewrite <- app_assoc. f_equal. unfold elements_at. cbn [filter fst].
      destruct (m_t m =? s); [|reflexivity]. unfold of_type. cbn [filter snd app]. now rewrite T.
    + destruct (IH l W K') as [A E]. split; [exact A|]. intros s. rewrite E. f_equal. unfold elements_at. cbn [filter fst].
      destruct (m_t m =? s); [|reflexivity]. unfold of_type. cbn [filter snd]. now rewrite T.
Qed.

Lemma mb_between_spec t t2 l : wsorted l -> mb_get_between t t2 l = elements_in t t2 l.
Proof.
  intros W. now apply mb_get_between_spec.
Qed.

Lemma by_type_nil : by_type [] = []. Proof. reflexivity. Qed.

Lemma remove_from_filter {T} t (l : buf T) : wsorted l -> remove_at_t t (remove_after_t t l) = filter (fun e => fst e <? t) l.
Proof.
  intros W. rewrite remove_after_filter by exact W. unfold remove_at_t. rewrite filter_filter. apply filter_ext. intros e.
  destruct (Z.leb_spec (fst e) t), (Z.eqb_spec (fst e) t), (Z.ltb_spec (fst e) t); cbn; lia.
Qed.

Lemma elements_at_filter_lt {T} t s (l : buf T) : elements_at s (filter (fun e => fst e <? t) l) = if s <? t then elements_at s l else [].
Proof.
  unfold elements_at. rewrite filter_filter. destruct (Z.ltb_spec s t) as [L|L].
  - apply filter_ext. intros e. destruct (Z.ltb_spec (fst e) t), (Z.eqb_spec (fst e) s); cbn; lia.
  - apply filter_all_false. rewrite Forall_forall. intros e _. destruct (Z.ltb_spec (fst e) t), (Z.eqb_spec (fst e) s); cbn; lia.
Qed.

(** after sorting from t: everything before t as it was; at each later instant propagations, then private, then joint *)
Lemma sort_from_spec t l : wsorted l -> keyed_ok l ->
  wsorted (sort_from t l) /\
  forall s, elements_at s (sort_from t l) = if s <? t then elements_at s l else
     if existsb (fun e => t <=? fst e) l then by_type (elements_at s l) else elements_at s l.
Proof.
  intros W K. unfold sort_from. destruct (get_latest_t l) as [tl|] eqn:E.
  2:{ split; [exact W|]. intros s. unfold get_latest_t in E. destruct (get_latest l) eqn:G; [discriminate|].
      apply get_latest_none in G. subst l. destruct (s <? t); reflexivity. }
  destruct (latest_t_spec _ _ W E) as [_ Hmax]. rewrite mb_between_spec by exact W.
  assert (Q : elements_in t tl l = filter (fun e => t <=? fst e) l).
  { unfold elements_in. apply filter_ext_in'. intros e I. specialize (Hmax e I).
    replace (fst e <=? tl) with true by (symmetry; lia). now rewrite andb_true_r. }
  rewrite Q. set (ms := filter (fun e => t <=? fst e) l) in *.
  assert (Km : keyed_ok ms) by (intros e I; apply K; apply filter_In in I; tauto).
  assert (X : existsb (fun e => t <=? fst e) l = negb (empty ms)).
  { unfold ms. clear. induction l as [|a r IH]; [reflexivity|]. cbn. destruct (t <=? fst a); cbn; [reflexivity|exact IH]. }
  rewrite X. destruct (empty ms) eqn:Em; cbn [negb].
  - split; [exact W|]. intros s. now destruct (s <? t).
  - rewrite remove_from_filter by exact W. set (l0 := filter (fun e => fst e <? t) l).
    assert (W0 : wsorted l0) by (now apply wsorted_filter).
    destruct (insert_type_spec PROPAGATION ms l0 W0 Km) as [W1 E1].
    destruct (insert_type_spec PRIVATE ms _ W1 Km) as [W2 E2].
    destruct (insert_type_spec JOINT ms _ W2 Km) as [W3 E3].
    split; [exact W3|]. intros s. rewrite E3, E2, E1. unfold l0. rewrite elements_at_filter_lt.
    assert (Em2 : elements_at s ms = if s <? t then [] else elements_at s l).
    { unfold ms, elements_at. rewrite filter_filter. destruct (Z.ltb_spec s t) as [L|L].
      - apply filter_all_false. rewrite Forall_forall. intros e _. destruct (Z.leb_spec t (fst e)), (Z.eqb_spec (fst e) s); cbn; lia.
      - apply filter_ext. intros e. destruct (Z.leb_spec t (fst e)), (Z.eqb_spec (fst e) s); cbn; lia. }
    rewrite Em2. destruct (s <? t).
    + unfold of_type. cbn. now rewrite !app_nil_r.
    + unfold by_type. cbn [app]. now rewrite <- app_assoc.
Qed.

(** ** order of the history *)
Definition rle (a b : Z * meas) : Prop :=
  m_ty (snd a) = UNKNOWN \/ m_ty (snd b) = UNKNOWN \/ (rank (m_ty (snd a)) <= rank (m_ty (snd b)))%nat.
Definition ordered l : Prop := wsorted l /\ keyed_ok l /\ forall s, StronglySorted rle (elements_at s l).

Lemma ss_app {A} (R : A -> A -> Prop) (l1 l2 : list A) : StronglySorted R l1 -> StronglySorted R l2 ->
  (forall a b, In a l1 -> In b l2 -> R a b) -> StronglySorted R (l1 ++ l2).
Proof.
  induction 1 as [|a r S IH F]; intros S2 H; cbn; [exact S2|]. constructor.
  - apply IH; [exact S2|]. intros x y I J. apply H; [now right|exact J].
  - rewrite Forall_forall in *. intros x I. apply in_app_or in I. destruct I as [I|I]; [now apply F|apply H; [now left|exact I]].
Qed.
Lemma ss_const {A} (R : A -> A -> Prop) (l : list A) : (forall a b, In a l -> In b l -> R a b) -> StronglySorted R l.
Proof.
  induction l as [|a r IH]; intros H; constructor.
  - apply IH. intros x y I J. apply H; now right.
  - rewrite Forall_forall. intros x I. apply H; [now left|now right].
Qed.
Lemma obs_eqb_iff a b : obs_eqb a b = true <-> a = b.
Proof. destruct a, b; cbn; split; congruence. Qed.
Lemma of_type_In ty q e : In e (of_type ty q) <-> In e q /\ m_ty (snd e) = ty.
Proof. unfold of_type. rewrite filter_In, obs_eqb_iff. reflexivity. Qed.
Lemma by_type_sorted q : StronglySorted rle (by_type q).
Proof.
  unfold by_type. repeat apply ss_app.
  1,2,3: apply ss_const; intros a b I J; apply of_type_In in I, J; destruct I as [_ I], J as [_ J]; unfold rle; rewrite I, J; right; right; lia.
  - intros a b I J. apply of_type_In in I, J; destruct I as [_ I], J as [_ J]. unfold rle; rewrite I, J; right; right; cbn; lia.
  - intros a b I J. apply of_type_In in I. destruct I as [_ I]. apply in_app_or in J.
    destruct J as [J|J]; apply of_type_In in J; destruct J as [_ J]; unfold rle; rewrite I, J; right; right; cbn; lia.
Qed.
Lemma by_type_In q e : In e (by_type q) <-> In e q /\ m_ty (snd e) <> UNKNOWN.
Proof.
  unfold by_type. rewrite !in_app_iff, !of_type_In. destruct (m_ty (snd e)); intuition congruence.
Qed.
Lemma by_type_perm q : (forall e, In e q -> m_ty (snd e) <> UNKNOWN) -> Permutation q (by_type q).
Proof.
  induction q as [|a r IH]; intros H; [constructor|].
  assert (IH' := IH (fun e I => H e (or_intror I))). unfold by_type, of_type in *. cbn [filter].
  pose proof (H a (or_introl eq_refl)) as N. destruct (m_ty (snd a)) eqn:T; cbn [obs_eqb]; [congruence| | |]; cbn [app].
  - now constructor.
  - apply Permutation_cons_app. exact IH'.
  - rewrite app_assoc. apply Permutation_cons_app. rewrite <- app_assoc. exact IH'.
Qed.
Lemma elements_at_all {T} (l : buf T) e : In e l <-> In e (elements_at (fst e) l).
Proof. unfold elements_at. rewrite filter_In, Z.eqb_refl. tauto. Qed.

Lemma sort_ordered t l : wsorted l -> keyed_ok l -> (forall s, s < t -> StronglySorted rle (elements_at s l)) -> 
  existsb (fun e => t <=? fst e) l = true ->
  ordered (sort_from t l).
Proof.
  intros W K H X. destruct (sort_from_spec t l W K) as [W' E]. rewrite X in E. split; [exact W'|]. split.
  - intros e I. apply elements_at_all in I. rewrite E in I. apply K. destruct (fst e <? t).
    + unfold elements_at in I. apply filter_In in I. tauto.
    + apply by_type_In in I. destruct I as [I _]. unfold elements_at in I. apply filter_In in I. tauto.
  - intros s. rewrite E. destruct (Z.ltb_spec s t) as [L|L]; [now apply H|apply by_type_sorted].
Qed.

Lemma check_ordered hz l l' : ordered l -> check_horizon hz l = Ok l' -> ordered l'.
Proof.
  intros [W [K S]] E. apply check_suffix in E. destruct E as [[p ->] _]. apply ws_app in W. destruct W as [_ [W _]].
  split; [exact W|]. split; [intros e I; apply K; apply in_or_app; now right|].
  intros s. specialize (S s). unfold elements_at in *. rewrite filter_app in S.
  clear - S. induction (filter _ p) as [|a r IH]; [exact S|]. apply IH. cbn in S. now apply StronglySorted_inv in S.
Qed.

(** a measurement that does not violate the order is appended in order *)
Lemma append_ordered m l : ordered l -> order_violated m l = false -> ordered (mb_insert (m_t m) m l).
Proof.
  intros [W [K S]] V. split; [now apply mb_insert_wsorted|]. split.
  - intros e I. apply mb_insert_In in I; [|exact W]. destruct I as [->|I]; [reflexivity|auto].
  - intros s. rewrite mb_insert_at by exact W. destruct (Z.eqb_spec (m_t m) s) as [<-|N]; [|rewrite app_nil_r; apply S].
    apply ss_app; [apply S|repeat constructor|]. intros a b Ia [<-|[]]. unfold rle. cbn [snd].
    unfold order_violated in V. rewrite get_all_eq in V by exact W. destruct (exist_after_t (m_t m) l); [discriminate|].
    assert (Q : forall f, existsb f (map snd (elements_at (m_t m) l)) = false -> f (snd a) = false).
    { intros f X. destruct (f (snd a)) eqn:F; [|reflexivity]. assert (existsb f (map snd (elements_at (m_t m) l)) = true); [|congruence].
      apply existsb_exists. exists (snd a). split; [now apply in_map|exact F]. }
    destruct (m_ty m) eqn:T.
    + right. now left.
    + specialize (Q _ V). cbn beta in Q. destruct (m_ty (snd a)); cbn in *; auto; discriminate.
    + specialize (Q _ V). cbn beta in Q. destruct (m_ty (snd a)); cbn in *; auto; discriminate.
    + right. right. destruct (m_ty (snd a)); cbn; lia.
Qed.

Lemma check_from_sub {T} hz t (l l' : buf T) : check_horizon_from_t hz t l = Ok l' -> (forall e, In e l' -> In e l) /\ (ssorted l -> ssorted l').
Proof.
  intros E. apply check_from_suffix in E. destruct E as [[p ->] _]. split; [intros e I; apply in_or_app; now right|].
  intros S. induction p as [|a r IH]; [exact S|]. apply IH. cbn in S. now apply ss_inv in S.
Qed.

(** ** effect of the replay on the flags *)
Section Flags.
Variable deleg : dict -> meas -> dict * status.
Notation step := (replay_step deleg).
Lemma step_flags_sorted d o v m d' o' v' : ssorted o -> step (d, o, v) m = (d', o', v') -> ssorted o'.
Proof.
  unfold replay_step. intros S. destruct (_ || _).
  - destruct (h_delegate deleg d m) as [x r]. intros [= <- <- <-]. destruct (is_ooo _); [now apply hb_insert_ssorted|exact S].
  - intros [= <- <- <-]. now apply hb_insert_ssorted.
Qed.
Lemma fold_flags_sorted ms : forall d o v d' o' v', ssorted o -> fold_left step ms (d, o, v) = (d', o', v') -> ssorted o'.
Proof.
  induction ms as [|m r IH]; intros d o v d' o' v' S; [now intros [= <- <- <-]|]. cbn [fold_left].
  destruct (step (d, o, v) m) as [[d1 o1] v1] eqn:E. intros F. exact (IH _ _ _ _ _ _ (step_flags_sorted _ _ _ _ _ _ _ S E) F).
Qed.
Lemma redo_from_fields t h : wsorted (h_meas h) ->
  let h' := fst (redo_from deleg t h) in
  h_meas h' = h_meas h /\ h_redo h' = h_redo h /\ h_sec h' = h_sec h /\ h_max h' = h_max h /\ h_ooo_max h' = h_ooo_max h /\
  h_redo_max h' = h_redo_max h /\ ssorted (h_ooo h').
Proof.
  intros W. rewrite redo_from_spec by exact W. destruct (fold_left _ _ _) as [[d' o'] v'] eqn:E. cbn. repeat split.
  apply fold_flags_sorted in E; [exact E|constructor].
Qed.
Lemma redo_after_fields t h : wsorted (h_meas h) ->
  let h' := fst (redo_after deleg t h) in
  h_meas h' = h_meas h /\ h_redo h' = h_redo h /\ h_sec h' = h_sec h /\ h_max h' = h_max h /\ h_ooo_max h' = h_ooo_max h /\
  h_redo_max h' = h_redo_max h /\ ssorted (h_ooo h').
Proof.
  intros W. rewrite redo_after_spec by exact W. destruct (fold_left _ _ _) as [[d' o'] v'] eqn:E. cbn. repeat split.
  apply fold_flags_sorted in E; [exact E|constructor].
Qed.

Lemma serve_fields h h' : wsorted (h_meas h) -> ssorted (h_ooo h) -> ssorted (h_redo h) -> serve_requests deleg h = Ok h' ->
  h_meas h' = h_meas h /\ h_sec h' = h_sec h /\ h_max h' = h_max h /\ h_ooo_max h' = h_ooo_max h /\
  h_redo_max h' = h_redo_max h /\ ssorted (h_ooo h') /\ h_redo h' = [].
Proof.
  intros W So Sr. unfold serve_requests. destruct (check_horizon_from_t _ _ _) as [r| |] eqn:C; cbn [obind]; try discriminate.
  destruct (get_oldest r) as [[t0 after]|] eqn:G.
  - assert (W1 : wsorted (h_meas (set_redo [] h))) by exact W.
    destruct (get_oldest_t (h_meas h)) as [tm|]; [|intros [= <-]; cbn; tauto].
    destruct (tm <? t0); [|intros [= <-]; cbn; tauto].
    intros [= <-]. destruct after.
    + destruct (redo_after_fields t0 _ W1) as [A1 [A2 [A3 [A4 [A5 [A6 A7]]]]]]. rewrite A1, A2, A3, A4, A5, A6. cbn. tauto.
    + destruct (redo_from_fields t0 _ W1) as [A1 [A2 [A3 [A4 [A5 [A6 A7]]]]]]. rewrite A1, A2, A3, A4, A5, A6. cbn. tauto.
  - intros [= <-]. cbn. apply get_oldest_none in G. tauto.
Qed.

(** ** invariants of the handler *)
Record hinv h : Prop := { hi_ord : ordered (h_meas h); hi_ooo : ssorted (h_ooo h); hi_redo : ssorted (h_redo h) }.

Lemma insert_exists m l : wsorted l -> existsb (fun e => m_t m <=? fst e) (mb_insert (m_t m) m l) = true.
Proof.
  intros W. apply existsb_exists. exists (m_t m, m). split; [|cbn; lia]. apply mb_insert_In; [exact W|now left].
Qed.

Lemma process_inv disc m h h' vec : hinv h -> process_gen deleg order_violated disc m h = Ok (h', vec) -> hinv h'.
Proof.
  intros [So Sf Sr]. assert (W : wsorted (h_meas h)) by apply So. unfold process_gen.
  destruct (negb _); [intros [= <- <-]; now constructor|].
  destruct (too_old m (h_meas h)); [intros [= <- <-]; now constructor|].
  destruct (serve_requests deleg h) as [h1| |] eqn:Es; cbn [obind]; try discriminate.
  destruct (serve_fields h h1 W Sf Sr Es) as [A1 [A2 [A3 [A4 [A5 [A6 A7]]]]]].
  assert (I1 : hinv h1) by (constructor; rewrite ?A1, ?A7; auto; constructor).
  destruct (disc m h1); [intros [= <- <-]; exact I1|].
  destruct (check_horizon_from_t _ _ _) as [flags| |] eqn:Cf; cbn [obind]; try discriminate.
  assert (Sfl : ssorted flags) by (now apply check_from_sub in Cf; apply Cf).
  rewrite A1. set (b := hb_exist_before_t (m_t m) flags || exist_at_t (m_t m) flags).
  destruct (order_violated m (h_meas h) || b) eqn:V.
  - cbn [h_meas set_ooo h_max]. rewrite A1. destruct (check_horizon _ _) as [l| |] eqn:Ch; cbn [obind]; try discriminate.
    set (t0 := if b then _ else _).
    assert (T0 : t0 <= m_t m).
    { unfold t0. destruct b; [|lia]. destruct (get_oldest_t flags) as [x|]; [|lia]. destruct (Z.ltb_spec x (m_t m)); lia. }
    assert (Wi : wsorted (mb_insert (m_t m) m (h_meas h))) by (now apply mb_insert_wsorted).
    assert (Ki : keyed_ok (mb_insert (m_t m) m (h_meas h))).
    { intros e I. apply mb_insert_In in I; [|exact W]. destruct I as [->|I]; [reflexivity|now apply So]. }
    pose proof Ch as Ch2. apply check_suffix in Ch2. destruct Ch2 as [[p Ep] Lat].
    assert (Wl : wsorted l) by (rewrite Ep in Wi; now apply ws_app in Wi).
    assert (Kl : keyed_ok l) by (intros e I; apply Ki; rewrite Ep; apply in_or_app; now right).
    assert (Ol : ordered (sort_from t0 l)).
    { apply sort_ordered; auto.
      - intros s Ls. assert (Q : StronglySorted rle (elements_at s (mb_insert (m_t m) m (h_meas h)))).
        { rewrite mb_insert_at by exact W. replace (m_t m =? s) with false by lia. rewrite app_nil_r. apply So. }
        rewrite Ep in Q. unfold elements_at in *. rewrite filter_app in Q. clear -Q.
        induction (filter _ p) as [|a r IH]; [exact Q|]. apply IH. cbn in Q. now apply StronglySorted_inv in Q.
      - (* the newest element survives and is not older than m *)
        destruct (nonempty_latest (mb_insert (m_t m) m (h_meas h))) as [tl El].
        { intros Q. pose proof (insert_exists m (h_meas h) W) as X. rewrite Q in X. discriminate. }
        destruct (latest_t_spec _ _ Wi El) as [_ Hmax].
        assert (El' : get_latest_t l = Some tl) by (unfold get_latest_t in *; now rewrite Lat).
        destruct (latest_t_spec _ _ Wl El') as [[v Iv] _]. apply existsb_exists. exists (tl, v). split; [exact Iv|]. cbn.
        assert (m_t m <= tl) by (apply (Hmax (m_t m, m)); apply mb_insert_In; [exact W|now left]). lia. }
    intros [= E]. set (h3 := set_meas _ _) in E.
    assert (W3 : wsorted (h_meas h3)) by apply Ol.
    destruct (redo_from_fields t0 h3 W3) as [B1 [B2 [B3 [B4 [B5 [B6 B7]]]]]]. rewrite E in *. cbn [fst] in *.
    constructor; [rewrite B1; exact Ol|exact B7|rewrite B2]. cbn. rewrite A7. constructor.
  - apply orb_false_iff in V. destruct V as [V _]. cbn [h_meas set_ooo h_dict]. destruct (h_delegate deleg (h_dict h1) m) as [d' r].
    assert (Sx : ssorted (if is_ooo (r_status r) then hb_insert (m_t m) true flags else flags)).
    { destruct (is_ooo _); [now apply hb_insert_ssorted|exact Sfl]. }
    destruct (negb (is_disc _)).
    + cbn [h_meas h_max set_dict set_ooo]. rewrite A1. destruct (check_horizon _ _) as [l| |] eqn:Ch; cbn [obind]; try discriminate.
      intros [= <- <-]. constructor; cbn; [|exact Sx|rewrite A7; constructor].
      eapply check_ordered; [|exact Ch]. now apply append_ordered.
    + intros [= <- <-]. constructor; cbn; [now rewrite A1|exact Sx|rewrite A7; constructor].
Qed.
End Flags.
End HP.
