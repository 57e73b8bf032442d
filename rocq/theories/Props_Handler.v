(** Properties C40-C49 and C58 of the central handler. *)
From Coq Require Import ZArith List Bool Arith Lia Sorted Permutation.
From Flocq Require Import IEEE754.BinarySingleNaN.
From Verif Require Import Outcome TimestampModel DoubleModel BufModel Spec_Time Spec_Buf BufProofs HorizonModel HorizonProofs Props_Buffers MeasModel HandlerModel Spec_Handler HandlerProofs AgeProofs ClockProofs ReplayProofs ArrivalProofs.
Import ListNotations.
Local Open Scope Z_scope.
Local Open Scope outcome_scope.

(** ** C40 unknown instances *)
Theorem C40_unknown_inert :
  forall (B M P : Type) deleg viol disc (m : meas P) (h : handler B M P),
  (forall i, ~ In (m_id m, i) (h_dict h)) ->
  process_gen deleg viol disc m h = Ok (h, [Res DISCARED 0]).
Proof.
  intros B M P deleg viol disc m h H. unfold process_gen, exists_id.
  replace (d_find (m_id m) (h_dict h)) with (@None (inst B M)); [reflexivity|]. symmetry.
  induction (h_dict h) as [|[k i] r IH]; [reflexivity|]. cbn. destruct (Nat.eqb_spec k (m_id m)) as [->|N].
  - exfalso. apply (H i). now left.
  - apply IH. intros j I. apply (H j). now right.
Qed.
Example C40_example : exists (m : meas Z) (h : handler Z unit Z),
  h_dict h = [(1%nat, Inst true [(0, 5)] []); (2%nat, Inst true [] [])] /\ h_meas h <> [] /\ (forall i, ~ In (m_id m, i) (h_dict h)).
Proof.
  exists (Meas 7 3 PRIVATE 0), (Handler [(1%nat, Inst true [(0, 5)] []); (2%nat, Inst true [] [])] [(1, Meas 1 1 PRIVATE 0)] [] [] (d_of_Z 1) (d_of_Z 1) (d_of_Z 1) (d_of_Z 1)).
  split; [reflexivity|]. split; [discriminate|]. cbn. intros i [E|[E|[]]]; discriminate.
Qed.

(** ** C41 the history is ordered *)
(** a comes before b in the history *)
Definition comes_before {T} (l : list T) (a b : T) : Prop := exists p q r, l = p ++ a :: q ++ b :: r.
(** the order in which two stored measurements may follow each other; UNKNOWN carries no order *)
Definition may_precede {P} (a b : meas P) : Prop :=
  m_t a < m_t b \/ (m_t a = m_t b /\ (m_ty a = UNKNOWN \/ m_ty b = UNKNOWN \/
    (rank (m_ty a) <= rank (m_ty b))%nat)).
Definition never_raw_insert {B M P} (o : hop (B:=B) (M:=M) (P:=P)) : Prop := match o with OInsert _ => False | _ => True end.

Lemma hstep_inv {B M P} deleg (h h' : handler B M P) o : never_raw_insert o -> hinv h -> hstep deleg h o = Ok h' -> hinv h'.
Proof.
  intros N I. destruct o; cbn in N; cbn [hstep]; try contradiction.
  - destruct (process deleg m h) as [[h1 v]| |] eqn:E; cbn [omap obind]; try discriminate. intros [= <-]. exact (process_inv deleg _ m h h1 v I E).
  - intros [= <-]. unfold add. destruct (exists_id _ _); [exact I|]. destruct I. now constructor.
  - intros [= <-]. unfold remove. destruct (get_inst _ _); [|exact I]. destruct I. now constructor.
  - intros [= <-]. destruct I. now constructor.
  - intros [= <-]. constructor; cbn; [|constructor|constructor]. split; [constructor|]. split; [intros ? []|]. intros s. constructor.
  - intros [= <-]. destruct I. now constructor.
  - unfold schedule_redo. destruct (check_horizon _ _) as [r| |] eqn:E; cbn [obind]; try discriminate. intros [= <-].
    destruct I as [I1 I2 I3]. constructor; cbn; auto. apply check_suffix in E. destruct E as [[p E] _].
    pose proof (hb_insert_ssorted t after (h_redo h) I3) as S. rewrite E in S. clear - S. induction p as [|a q IH]; [exact S|]. apply IH. cbn in S. now apply ss_inv in S.
  - intros [= <-]. destruct I as [I1 I2 I3]. destruct (redo_after_fields deleg t h (proj1 I1)) as [A1 [A2 [_ [_ [_ [_ A7]]]]]].
    constructor; [now rewrite A1|exact A7|now rewrite A2].
Qed.
Lemma hrun_inv {B M P} deleg ops : forall (h h' : handler B M P), (forall o, In o ops -> never_raw_insert o) -> hinv h -> hrun deleg h ops = Ok h' -> hinv h'.
Proof.
  induction ops as [|o r IH]; intros h h' N I E; [injection E as <-; exact I|]. cbn [hrun] in E.
  destruct (hstep deleg h o) as [h1| |] eqn:Es; cbn [obind] in E; try discriminate.
  apply (IH h1); [intros x Ix; apply N; now right| |exact E]. exact (hstep_inv deleg h h1 o (N o (or_introl eq_refl)) I Es).
Qed.
Lemma new_inv {B M P} hor : hinv (new_handler (B:=B) (M:=M) (P:=P) hor).
Proof. constructor; cbn; [|constructor|constructor]. split; [constructor|]. split; [intros ? []|]. intros s. constructor. Qed.

Theorem C41_history_ordered :
  forall (B M P : Type) (deleg : dict B M -> meas P -> dict B M * status) (hor : double) ops (h : handler B M P),
  (forall o, In o ops -> never_raw_insert o) ->
  hrun deleg (new_handler hor) ops = Ok h ->
  (forall k m, In (k, m) (h_meas h) -> k = m_t m) /\
  (forall a b, comes_before (h_meas h) a b -> may_precede (snd a) (snd b)).
Proof.
  intros B M P deleg hor ops h N E. pose proof (hrun_inv deleg ops _ h N (new_inv hor) E) as [[W [K S]] _ _].
  split; [intros k m I; exact (K _ I)|]. intros a b [p [q [r Eq]]].
  assert (Ia : In a (h_meas h)) by (rewrite Eq; apply in_or_app; right; now left).
  assert (Ib : In b (h_meas h)) by (rewrite Eq; apply in_or_app; right; right; apply in_or_app; right; now left).
  assert (L : fst a <= fst b). { rewrite Eq in W. apply ws_app in W. destruct W as [_ [W _]]. apply ws_inv in W. destruct W as [_ F].
    rewrite Forall_forall in F. apply F. apply in_or_app. right. now left. }
  unfold may_precede. rewrite <- (K a Ia), <- (K b Ib). destruct (Z.eq_dec (fst a) (fst b)) as [Et|Nt]; [right; split; [exact Et|]|left; lia].
  specialize (S (fst a)). rewrite Eq in S. unfold elements_at in S. rewrite filter_app in S. cbn [filter] in S. rewrite Z.eqb_refl in S.
  rewrite filter_app in S. cbn [filter] in S. rewrite <- Et, Z.eqb_refl in S. clear - S.
  induction (filter _ p) as [|x y IH]; [|apply IH; cbn in S; now apply StronglySorted_inv in S]. cbn in S. apply StronglySorted_inv in S. destruct S as [_ F].
  rewrite Forall_forall in F. apply F. apply in_or_app. right. now left.
Qed.

(** ** C43 re-sorting *)
Lemma sort_keeps {P} t (l : buf (meas P)) : wsorted l -> keyed_ok l -> (forall e, In e l -> m_ty (snd e) <> UNKNOWN) ->
  forall s, Permutation (elements_at s l) (elements_at s (sort_from t l)).
Proof.
  intros W K H s. destruct (sort_from_spec t l W K) as [_ E]. rewrite E.
  destruct (s <? t); [reflexivity|]. destruct (existsb _ l); [|reflexivity]. apply by_type_perm.
  intros e I. unfold elements_at in I. apply filter_In in I. apply H. tauto.
Qed.
Lemma count_perm {T} (l1 l2 : buf T) : wsorted l1 -> wsorted l2 -> (forall s, Permutation (elements_at s l1) (elements_at s l2)) -> Permutation l1 l2.
Proof.
  revert l2. induction l1 as [|a r IH]; intros l2 W1 W2 H.
  - destruct l2 as [|b q]; [constructor|]. specialize (H (fst b)). unfold elements_at in H. cbn in H. rewrite Z.eqb_refl in H.
    apply Permutation_nil in H. discriminate.
  - assert (Ia : In a (elements_at (fst a) l2)). { apply (Permutation_in _ (H (fst a))). unfold elements_at. cbn. rewrite Z.eqb_refl. now left. }
    unfold elements_at in Ia. apply filter_In in Ia. destruct Ia as [Ia _]. apply in_split in Ia. destruct Ia as [p [q ->]].
    apply Permutation_cons_app. apply IH.
    + now apply ws_inv in W1.
    + clear - W2. induction p as [|x y IHp]; [now apply ws_inv in W2|]. cbn in *. apply ws_inv in W2. destruct W2 as [W2 F].
      constructor; [now apply IHp|]. rewrite Forall_forall in *. intros z I. apply F. apply in_app_or in I. apply in_or_app. destruct I; [now left|right; now right].
    + intros s. specialize (H s). unfold elements_at in *. rewrite filter_app in *. cbn [filter] in H. destruct (fst a =? s); [|exact H].
      apply Permutation_cons_app_inv in H. exact H.
Qed.


Lemma chrono_w {T} (l : buf T) : chronological l <-> wsorted l.
Proof.
  split.
  - induction l as [|a r IH]; intros Ch; constructor.
    + apply IH. intros i j x y L A C. apply (Ch (S i) (S j)); [lia|exact A|exact C].
    + rewrite Forall_forall. intros x I. apply In_nth_error in I. destruct I as [n I]. apply (Ch 0%nat (S n)); [lia|reflexivity|exact I].
  - intros W' i j a b L Hi Hj. revert i j L Hi Hj. induction W' as [|x r S IH F]; intros i j L Hi Hj; [destruct i; discriminate|].
    destruct i, j; cbn in *; try lia; [|apply (IH i j); auto; lia]. injection Hi as <-. rewrite Forall_forall in F. apply F. now apply nth_error_In in Hj.
Qed.
(** re-sorting keeps every propagation, private and joint measurement, in its order of arrival among those of the same
    instant and type; what it loses are exactly the measurements of unknown type at or after t *)
Theorem C43_sort_keeps_all :
  forall (P : Type) (t : Z) (l : buf (meas P)),
  chronological l -> (forall k m, In (k, m) l -> k = m_t m) ->
  chronological (sort_from t l) /\
  (forall e, In e (sort_from t l) <-> In e l /\ (fst e < t \/ m_ty (snd e) <> UNKNOWN)) /\
  (forall s ty, ty <> UNKNOWN -> filter (fun e => (fst e =? s) && obs_eqb (m_ty (snd e)) ty) (sort_from t l)
              = filter (fun e => (fst e =? s) && obs_eqb (m_ty (snd e)) ty) l) /\
  ((forall k m, In (k, m) l -> m_ty m <> UNKNOWN) -> Permutation l (sort_from t l)).
Proof.
  intros P t l Ch K0. assert (W : wsorted l) by now apply chrono_w.
  assert (K : keyed_ok l) by (intros [k m] I; exact (K0 k m I)).
  destruct (sort_from_spec t l W K) as [W' E]. split; [now apply chrono_w|]. split; [|split].
  - intros e. rewrite (elements_at_all (sort_from t l)), (elements_at_all l), E. destruct (Z.ltb_spec (fst e) t) as [L|L]; [tauto|].
    destruct (existsb (fun e => t <=? fst e) l) eqn:X.
    + rewrite by_type_In. split; [tauto|]. intros [I [Q|Q]]; [lia|tauto].
    + split; [|tauto]. intros I. exfalso. rewrite <- elements_at_all in I.
      assert (existsb (fun e => t <=? fst e) l = true); [|congruence]. apply existsb_exists. exists e. split; [exact I|lia].
  - intros s ty N.
    rewrite <- (filter_filter (fun e => obs_eqb (m_ty (snd e)) ty) (fun e => fst e =? s) (sort_from t l)), <- (filter_filter (fun e => obs_eqb (m_ty (snd e)) ty) (fun e => fst e =? s) l).
    fold (elements_at s (sort_from t l)). fold (elements_at s l). rewrite E.
    destruct (s <? t); [reflexivity|]. destruct (existsb _ l); [|reflexivity]. clear -N. unfold by_type, of_type. rewrite !filter_app, !filter_filter.
    assert (Q : forall a b (q : buf (meas P)), filter (fun x => obs_eqb (m_ty (snd x)) a && obs_eqb (m_ty (snd x)) b) q = if obs_eqb a b then filter (fun x => obs_eqb (m_ty (snd x)) b) q else []).
    { intros a b q. destruct (obs_eqb a b) eqn:X.
      - apply obs_eqb_iff in X. subst. apply filter_ext. intros x. now destruct (obs_eqb _ b).
      - apply filter_all_false. rewrite Forall_forall. intros x _. destruct (m_ty (snd x)), a, b; cbn in *; congruence. }
    rewrite !Q. destruct ty; cbn [obs_eqb app]; rewrite ?app_nil_r; congruence.
  - intros T. apply count_perm; auto. apply sort_keeps; auto. intros [k m] I. exact (T k m I).
Qed.

(** every accepted measurement of a run is of a known type, so that re-sorting the handler's own history loses nothing *)
Definition discards_unknown {B M P} (deleg : dict B M -> meas P -> dict B M * status) : Prop :=
  forall d m, m_ty m = UNKNOWN -> snd (deleg d m) = DISCARED.   (* IKalmanFilter.cpp 222-240, IIsolatedKalmanFilter.cpp 205-221 *)
Definition all_typed {P} (l : buf (meas P)) : Prop := forall k m, In (k, m) l -> m_ty m <> UNKNOWN.
Lemma process_typed {B M P} deleg disc m (h h' : handler B M P) vec : discards_unknown deleg -> hinv h -> all_typed (h_meas h) ->
  process_gen deleg order_violated disc m h = Ok (h', vec) -> all_typed (h_meas h').
Proof.
  intros D [So Sf Sr] T. assert (W : wsorted (h_meas h)) by apply So. unfold process_gen.
  destruct (negb _); [intros [= <- <-]; exact T|].
  destruct (too_old m (h_meas h)); [intros [= <- <-]; exact T|].
  destruct (serve_requests deleg h) as [h1| |] eqn:Es; cbn [obind]; try discriminate.
  destruct (serve_fields deleg h h1 W Sf Sr Es) as [A1 _].
  destruct (disc m h1); [intros [= <- <-]; now rewrite A1|].
  destruct (check_horizon_from_t _ _ _) as [flags| |] eqn:Cf; cbn [obind]; try discriminate.
  rewrite A1. set (b := hb_exist_before_t (m_t m) flags || exist_at_t (m_t m) flags).
  assert (Wi : wsorted (mb_insert (m_t m) m (h_meas h))) by (now apply mb_insert_wsorted).
  assert (Ki : keyed_ok (mb_insert (m_t m) m (h_meas h))).
  { intros e I. apply mb_insert_In in I; [|exact W]. destruct I as [->|I]; [reflexivity|now apply So]. }
  destruct (order_violated m (h_meas h) || b) eqn:V.
  - cbn [h_meas set_ooo h_max]. rewrite A1. destruct (check_horizon _ _) as [l| |] eqn:Ch; cbn [obind]; try discriminate.
    set (t0 := if b then _ else _).
    assert (T0 : t0 <= m_t m).
    { unfold t0. destruct b; [|lia]. destruct (get_oldest_t flags) as [x|]; [|lia]. destruct (Z.ltb_spec x (m_t m)); lia. }
    apply check_suffix in Ch. destruct Ch as [[p Ep] _].
    assert (Wl : wsorted l) by (rewrite Ep in Wi; now apply ws_app in Wi).
    assert (Kl : keyed_ok l) by (intros e I; apply Ki; rewrite Ep; apply in_or_app; now right).
    assert (Ws : wsorted (sort_from t0 l)) by apply (sort_from_spec t0 l Wl Kl).
    intros [= E]. set (h3 := set_meas _ _) in E.
    destruct (redo_from_fields deleg t0 h3 Ws) as [B1 _]. rewrite E in B1. cbn [fst] in B1. rewrite B1. cbn.
    assert (Kp : forall k m0, In (k, m0) l -> k = m_t m0) by (intros k m0 I; exact (Kl _ I)).
    destruct (C43_sort_keeps_all P t0 l (proj2 (chrono_w l) Wl) Kp) as [_ [Q _]]. intros k x I. apply Q in I. cbn in I. destruct I as [I J].
    destruct J as [J|J]; [|exact J]. assert (I' : In (k, x) (mb_insert (m_t m) m (h_meas h))) by (rewrite Ep; apply in_or_app; now right).
    apply mb_insert_In in I'; [|exact W]. destruct I' as [[= -> ->]|I']; [lia|exact (T _ _ I')].
  - cbn [h_meas set_ooo h_dict]. destruct (h_delegate deleg (h_dict h1) m) as [d' r] eqn:Hd.
    destruct (negb (is_disc _)) eqn:Nd.
    + cbn [h_meas h_max set_dict set_ooo]. rewrite A1. destruct (check_horizon _ _) as [l| |] eqn:Ch; cbn [obind]; try discriminate.
      intros [= <- <-]. cbn. apply check_suffix in Ch. destruct Ch as [[p Ep] _]. intros k x I.
      assert (I' : In (k, x) (mb_insert (m_t m) m (h_meas h))) by (rewrite Ep; apply in_or_app; now right).
      apply mb_insert_In in I'; [|exact W]. destruct I' as [[= -> ->]|I']; [|exact (T _ _ I')]. intros U.
      unfold h_delegate in Hd. destruct (d_find _ _) as [i|]; [destruct (i_enabled i)|]; try (injection Hd as <- <-; discriminate).
      specialize (D (h_dict h1) m U). destruct (deleg (h_dict h1) m) as [dd ss]. cbn in D. subst ss. injection Hd as <- <-. discriminate.
    + intros [= <- <-]. cbn. now rewrite A1.
Qed.
Theorem C43_histories_are_typed :
  forall (B M P : Type) (deleg : dict B M -> meas P -> dict B M * status) (hor : double) ops (h : handler B M P),
  discards_unknown deleg -> (forall o, In o ops -> never_raw_insert o) -> hrun deleg (new_handler hor) ops = Ok h ->
  forall t, Permutation (h_meas h) (sort_from t (h_meas h)).
Proof.
  intros B M P deleg hor ops h D N E t.
  assert (Q : forall ops (h0 h1 : handler B M P), (forall o, In o ops -> never_raw_insert o) -> hinv h0 -> all_typed (h_meas h0) ->
     hrun deleg h0 ops = Ok h1 -> hinv h1 /\ all_typed (h_meas h1)).
  { clear -D. induction ops as [|o r IH]; intros h0 h1 N I T E; [injection E as <-; now split|]. cbn [hrun] in E.
    destruct (hstep deleg h0 o) as [h2| |] eqn:Es; cbn [obind] in E; try discriminate.
    pose proof (hstep_inv deleg h0 h2 o (N o (or_introl eq_refl)) I Es) as I2.
    apply (IH h2 h1); auto; [intros x Ix; apply N; now right|]. destruct o; cbn [hstep] in Es.
    - destruct (process deleg m h0) as [[h3 v]| |] eqn:Ep; cbn [omap obind] in Es; try discriminate. injection Es as <-. exact (process_typed deleg _ m h0 h3 v D I T Ep).
    - injection Es as <-. unfold add. destruct (exists_id _ _); exact T.
    - injection Es as <-. unfold remove. destruct (get_inst _ _); exact T.
    - injection Es as <-. exact T.
    - injection Es as <-. intros ? ? [].
    - injection Es as <-. exact T.
    - exfalso. exact (N (OInsert m) (or_introl eq_refl)).
    - unfold schedule_redo in Es. destruct (check_horizon _ _) as [q| |]; cbn [obind] in Es; try discriminate. injection Es as <-. exact T.
    - injection Es as <-. destruct (redo_after_fields deleg t h0 (proj1 (hi_ord _ I))) as [-> _]. exact T. }
  destruct (Q ops _ h N (new_inv hor) (fun _ _ (F : In _ []) => match F with end) E) as [I T].
  destruct (hi_ord _ I) as [W [K _]]. apply C43_sort_keeps_all; [now apply chrono_w|intros k m J; exact (K _ J)|exact T].
Qed.
(** a re-sort that has to move things *)
Example C43_example : sort_from 5 [(3, Meas 0 3 JOINT 1); (5, Meas 0 5 JOINT 2); (5, Meas 0 5 PRIVATE 3); (5, Meas 0 5 UNKNOWN 4); (5, Meas 0 5 PROPAGATION 5)]
  = [(3, Meas 0 3 JOINT 1); (5, Meas 0 5 PROPAGATION 5); (5, Meas 0 5 PRIVATE 3); (5, Meas 0 5 JOINT 2)].
Proof. reflexivity. Qed.

(** ** C44 age *)
Definition stored_before_horizon {P} (hz : Z) (l : buf (meas P)) : Prop := forall a b, In a l -> In b l -> fst a - fst b <= hz.
Lemma process_stores {B M P} deleg disc m (h h' : handler B M P) vec hz tmax sl : clock tmax sl -> hinv h -> all_typed (h_meas h) ->
  (forall e, In e (h_meas h) -> 0 <= fst e < tmax) -> 0 <= m_t m < tmax ->
  h_near (h_max h) hz -> sl <= hz < 2097151 * 1000000000 -> stored_before_horizon (hz - sl) (h_meas h) ->
  (forall d, snd (deleg d m) <> DISCARED) -> (forall h, disc m h = false) -> m_ty m <> UNKNOWN ->
  (forall h1, serve_requests deleg h = Ok h1 -> exists i, d_find (m_id m) (h_dict h1) = Some i /\ i_enabled i = true) ->
  exists_id (m_id m) h = true -> too_old m (h_meas h) = false ->
  process_gen deleg order_violated disc m h = Ok (h', vec) -> In (m_t m, m) (h_meas h').
Proof.
  intros Ckk [So Sf Sr] T R Rm Nh Hh Sp D Dc Ty En Ex To. assert (W : wsorted (h_meas h)) by apply So. unfold process_gen. rewrite Ex, To. cbn [negb].
  destruct (serve_requests deleg h) as [h1| |] eqn:Es; cbn [obind]; try discriminate.
  destruct (serve_fields deleg h h1 W Sf Sr Es) as [A1 [_ [A3 _]]]. rewrite Dc.
  destruct (check_horizon_from_t _ _ _) as [flags| |] eqn:Cf; cbn [obind]; try discriminate.
  rewrite A1. set (b := hb_exist_before_t (m_t m) flags || exist_at_t (m_t m) flags).
  assert (Wi : wsorted (mb_insert (m_t m) m (h_meas h))) by (now apply mb_insert_wsorted).
  assert (Ki : keyed_ok (mb_insert (m_t m) m (h_meas h))).
  { intros e I. apply mb_insert_In in I; [|exact W]. destruct I as [->|I]; [reflexivity|now apply So]. }
  assert (Im : In (m_t m, m) (mb_insert (m_t m) m (h_meas h))) by (apply mb_insert_In; [exact W|now left]).
  assert (Ck : exists l, check_horizon (h_max h) (mb_insert (m_t m) m (h_meas h)) = Ok l /\ In (m_t m, m) l /\ forall e, In e l -> In e (mb_insert (m_t m) m (h_meas h))).
  { destruct (nonempty_latest (mb_insert (m_t m) m (h_meas h))) as [a Ea]; [intros Q; rewrite Q in Im; contradiction|].
    destruct (check_keeps tmax sl Ckk (h_max h) hz a (mb_insert (m_t m) m (h_meas h))) as [c [-> Bc]]; auto.
    - intros e I. apply mb_insert_In in I; [|exact W]. destruct I as [->|I]; [exact Rm|auto].
    - eexists. split; [reflexivity|]. split; [apply filter_In; split; [exact Im|]|intros e I; apply filter_In in I; tauto]. cbn.
      destruct (latest_t_spec _ _ Wi Ea) as [[v Ia] _]. apply mb_insert_In in Ia; [|exact W]. destruct Ia as [[= -> _]|Ia]; [lia|].
      assert (Hne : h_meas h <> []) by (intros Q; rewrite Q in Ia; contradiction).
      destruct (nonempty_oldest (h_meas h) Hne) as [o Eo]. destruct (oldest_t_spec _ _ W Eo) as [[w Io] Mo]. specialize (Sp _ _ Ia Io). cbn in Sp.
      destruct (Z_le_gt_dec (m_t m) o) as [Lo|Lo]; [|lia]. exfalso.
      rewrite (proj2 (too_old_clock tmax sl m (h_meas h) Ckk W R Rm) Hne) in To; [discriminate|]. intros e I. specialize (Mo e I). lia. }
  destruct Ck as [l [Ck [Il Sub]]].
  destruct (order_violated m (h_meas h) || b) eqn:V.
  - cbn [h_meas set_ooo h_max]. rewrite A1, A3, Ck. cbn [obind].
    set (t0 := if b then _ else _). pose proof (check_suffix _ _ _ Ck) as [[p Ep] _].
    assert (Wl : wsorted l) by (rewrite Ep in Wi; now apply ws_app in Wi).
    assert (Kl : keyed_ok l) by (intros e I; apply Ki; auto).
    assert (Ws : wsorted (sort_from t0 l)) by apply (sort_from_spec t0 l Wl Kl).
    intros [= E]. set (h3 := set_meas _ _) in E.
    destruct (redo_from_fields deleg t0 h3 Ws) as [B1 _]. rewrite E in B1. cbn [fst] in B1. rewrite B1. cbn.
    apply C43_sort_keeps_all; [now apply chrono_w|intros k x I; exact (Kl _ I)|]. split; [exact Il|]. right. exact Ty.
  - cbn [h_meas set_ooo h_dict]. destruct (h_delegate deleg (h_dict h1) m) as [d' r] eqn:Hd.
    assert (Nd : is_disc (r_status r) = false).
    { destruct (En h1 eq_refl) as [i [Ei Eni]]. unfold h_delegate in Hd. rewrite Ei, Eni in Hd. specialize (D (h_dict h1)). destruct (deleg (h_dict h1) m) as [dd ss]. injection Hd as <- <-. cbn in *. now destruct ss. }
    rewrite Nd. cbn [negb h_meas h_max set_dict set_ooo]. rewrite A1, A3, Ck. cbn [obind]. intros [= <- <-]. exact Il.
Qed.

(** refused for its age exactly if a measurement is stored and none of the stored ones is older; then nothing changes.
    Any other one (typed, of an enabled instance, not discarded by its estimator) is in the history afterwards. *)
Theorem C44_age_criterion :
  forall (B M P : Type) (m : meas P) (h : handler B M P),
  chronological (h_meas h) -> (forall e, In e (h_meas h) -> 0 <= fst e < 2097151 * giga) -> 0 <= m_t m < 2097151 * giga ->
  (too_old m (h_meas h) = true <-> h_meas h <> [] /\ forall e, In e (h_meas h) -> m_t m <= fst e) /\
  (too_old m (h_meas h) = true -> forall deleg viol disc, process_gen deleg viol disc m h = Ok (h, [Res DISCARED 0])).
Proof.
  intros B M P m h Ch R Rm. pose proof (proj1 (chrono_w _) Ch) as W. split.
  - rewrite too_old_exact by assumption. destruct (get_oldest_t (h_meas h)) as [b|] eqn:E.
    + destruct (oldest_t_spec _ _ W E) as [[v I] Mn]. rewrite Z.leb_le. split.
      * intros L. split; [intros Q; rewrite Q in I; contradiction|]. intros e Ie. specialize (Mn e Ie). lia.
      * intros [_ H]. exact (H _ I).
    + split; [discriminate|]. intros [N _]. destruct (nonempty_oldest _ N). congruence.
  - intros To deleg viol disc. unfold process_gen. destruct (negb _); [reflexivity|]. now rewrite To.
Qed.
(** on both kinds of clock: refused only if none of the stored ones is older by more than the slack, refused for sure if none is
    older at all *)
Theorem C44_age_criterion_any_clock :
  forall (B M P : Type) (tmax slack : Z) (m : meas P) (h : handler B M P), clock tmax slack ->
  chronological (h_meas h) -> (forall e, In e (h_meas h) -> 0 <= fst e < tmax) -> 0 <= m_t m < tmax ->
  (too_old m (h_meas h) = true -> h_meas h <> [] /\ forall e, In e (h_meas h) -> m_t m <= fst e + slack) /\
  (h_meas h <> [] /\ (forall e, In e (h_meas h) -> m_t m <= fst e) -> too_old m (h_meas h) = true).
Proof.
  intros B M P tmax slack m h Ck Ch R Rm. destruct (too_old_clock tmax slack m (h_meas h) Ck (proj1 (chrono_w _) Ch) R Rm) as [A B'].
  split; [exact A|]. intros [N H]. now apply B'.
Qed.
Theorem C44_all_others_stored :
  forall (B M P : Type) (deleg : dict B M -> meas P -> dict B M * status) (hor : double) (hz tmax slack : Z) ops (h h' : handler B M P) m vec i,
  clock tmax slack ->
  discards_unknown deleg -> (forall o, In o ops -> never_raw_insert o) -> hrun deleg (new_handler hor) ops = Ok h ->
  (forall e, In e (h_meas h) -> 0 <= fst e < tmax) -> 0 <= m_t m < tmax ->
  denotes_ns (h_max h) hz -> 0 <= hz < 2097151 * giga -> (forall a b, In a (h_meas h) -> In b (h_meas h) -> fst a - fst b <= hz - slack) ->
  h_redo h = [] -> In (m_id m, i) (h_dict h) -> i_enabled i = true -> NoDup (map fst (h_dict h)) -> m_ty m <> UNKNOWN ->
  (forall d, snd (deleg d m) <> DISCARED) ->
  (exists e, In e (h_meas h) /\ fst e + slack < m_t m) ->
  process deleg m h = Ok (h', vec) -> In (m_t m, m) (h_meas h').
Proof.
  intros B M P deleg hor hz tmax slack ops h h' m vec i Ck D N E R Rm Dn Hh Sp Rd Ii En ND Ty Dd [e [Ie Le]] Pr.
  assert (Q : hinv h /\ all_typed (h_meas h)).
  { split; [exact (hrun_inv deleg ops _ h N (new_inv hor) E)|]. intros k x I U.
    pose proof (C43_histories_are_typed B M P deleg hor ops h D N E k) as Pe. pose proof (hrun_inv deleg ops _ h N (new_inv hor) E) as [[W [K _]] _ _].
    apply (Permutation_in _ Pe) in I. apply C43_sort_keeps_all in I; [|now apply chrono_w|intros a b J; exact (K _ J)]. cbn in I. destruct I as [_ [I|I]]; [lia|tauto]. }
  destruct Q as [I T]. pose proof (proj1 (hi_ord _ I)) as W.
  assert (F : d_find (m_id m) (h_dict h) = Some i).
  { clear - Ii ND. induction (h_dict h) as [|[k x] r IH]; [contradiction|]. cbn in *. apply NoDup_cons_iff in ND. destruct ND as [N1 ND].
    destruct Ii as [[= -> ->]|I]; [now rewrite Nat.eqb_refl|]. destruct (Nat.eqb_spec k (m_id m)) as [->|Nk]; [|now apply IH].
    exfalso. apply N1. now apply (in_map fst) in I. }
  eapply (process_stores deleg (fun _ _ => false) m h h' vec hz tmax slack); eauto.
  - pose proof (Sp e e Ie Ie). split; [lia|apply Hh].
  - intros h1 Es. unfold serve_requests in Es. rewrite Rd in Es. cbn in Es. injection Es as <-. cbn. eauto.
  - unfold exists_id. now rewrite F.
  - destruct (too_old m (h_meas h)) eqn:To; [exfalso|reflexivity]. apply (too_old_clock tmax slack m (h_meas h) Ck W R Rm) in To. destruct To as [_ To]. specialize (To e Ie). lia.
Qed.
(** the configured horizon plays no role: inside a horizon of 10 s a measurement concurrent with the only stored one, and
    one a second older than the oldest stored one, are both refused *)
Theorem C44_horizon_is_not_the_criterion :
  exists (l : buf (meas Z)) (m1 m2 : meas Z), l = [(5 * giga, Meas 0 (5 * giga) PRIVATE 0)] /\
    m_t m1 = 5 * giga /\ m_t m2 = 4 * giga /\
    forall B M (h : handler B M Z) deleg viol disc, h_meas h = l -> h_max h = set_horizon (d_of_Z 10) ->
      process_gen deleg viol disc m1 h = Ok (h, [Res DISCARED 0]) /\ process_gen deleg viol disc m2 h = Ok (h, [Res DISCARED 0]).
Proof.
  exists [(5 * giga, Meas 0 (5 * giga) PRIVATE 0)], (Meas 0 (5 * giga) JOINT 0), (Meas 0 (4 * giga) PRIVATE 0).
  split; [reflexivity|]. split; [reflexivity|]. split; [reflexivity|]. intros B M h deleg viol disc E _.
  assert (Q : forall m, m_t m = 5 * giga \/ m_t m = 4 * giga -> process_gen deleg viol disc m h = Ok (h, [Res DISCARED 0])).
  { intros m Hm. apply C44_age_criterion; rewrite ?E.
    - apply chrono_w. repeat constructor.
    - intros e [<-|[]]. cbn. unfold giga. lia.
    - unfold giga in *. lia.
    - rewrite too_old_exact; [|repeat constructor|intros e [<-|[]]; cbn; unfold giga; lia|unfold giga in *; lia].
      cbn. unfold giga in *. lia. }
  split; apply Q; cbn; auto.
Qed.

(** ** C45 removal of beliefs *)
Lemma before_iff {T} t (b : buf T) : wsorted b -> (hb_exist_before_t t b = true <-> exists k v, In (k, v) b /\ k < t).
Proof.
  intros W. rewrite hb_exist_before_get. destruct (get_before_t t b) as [[k v]|] eqn:G; split; try discriminate; auto.
  - intros _. apply get_before_spec in G; [|exact W]. exists k, v. tauto.
  - intros [k [v [I L]]]. pose proof (proj1 (get_before_none t b W) G _ I). cbn in *. lia.
Qed.
Lemma sc_w {T} (b : buf T) : strictly_chronological b -> wsorted b.
Proof. intros Ch. apply chrono_w. intros i j x y L A C. specialize (Ch i j x y L A C). lia. Qed.
(** replay from t: an instance with beliefs keeps at least one; the older ones stay; what stays was there; if an older one
    exists nothing at or after t stays *)
Theorem C45_from_keeps :
  forall (B M : Type) (t : Z) (d : dict B M) id i, In (id, i) d -> strictly_chronological (i_bel i) ->
  exists i', In (id, i') (remove_beliefs_from t d) /\ i_enabled i' = i_enabled i /\
    (i_bel i <> [] -> i_bel i' <> []) /\
    (forall k v, In (k, v) (i_bel i) -> k < t -> In (k, v) (i_bel i')) /\
    (forall k v, In (k, v) (i_bel i') -> In (k, v) (i_bel i)) /\
    ((exists k v, In (k, v) (i_bel i) /\ k < t) -> forall k v, In (k, v) (i_bel i') -> k < t).
Proof.
  intros B M t d id i I Ch. pose proof (sc_w _ Ch) as W.
  exists (if hb_exist_before_t t (i_bel i) then inst_remove_from t i else i). split.
  { unfold remove_beliefs_from. apply in_map_iff. exists (id, i). split; [reflexivity|exact I]. }
  pose proof (before_iff t (i_bel i) W) as X. destruct (hb_exist_before_t t (i_bel i)).
  - cbn [inst_remove_from i_bel i_enabled]. rewrite remove_from_filter by exact W. destruct (proj1 X eq_refl) as [k [v [Ik Lk]]].
    split; [reflexivity|]. split; [|split; [|split]].
    + intros _ Q. assert (J : In (k, v) (filter (fun e => fst e <? t) (i_bel i))) by (apply filter_In; split; [exact Ik|cbn; lia]). rewrite Q in J. contradiction.
    + intros k' v' J L. apply filter_In. split; [exact J|cbn; lia].
    + intros k' v' J. apply filter_In in J. tauto.
    + intros _ k' v' J. apply filter_In in J. destruct J as [_ J]. cbn in J. lia.
  - split; [reflexivity|]. split; [auto|]. split; [auto|]. split; [auto|]. intros E. apply X in E. discriminate.
Qed.
(** replay after t: likewise, with the beliefs at t also kept *)
Theorem C45_after_keeps :
  forall (B M : Type) (t : Z) (d : dict B M) id i, In (id, i) d -> strictly_chronological (i_bel i) ->
  exists i', In (id, i') (remove_beliefs_after t d) /\ i_enabled i' = i_enabled i /\
    (i_bel i <> [] -> i_bel i' <> []) /\
    (forall k v, In (k, v) (i_bel i) -> k <= t -> In (k, v) (i_bel i')) /\
    (forall k v, In (k, v) (i_bel i') -> In (k, v) (i_bel i)) /\
    ((exists k v, In (k, v) (i_bel i) /\ k <= t) -> forall k v, In (k, v) (i_bel i') -> k <= t).
Proof.
  intros B M t d id i I Ch. pose proof (sc_w _ Ch) as W.
  exists (if exist_at_t t (i_bel i) || hb_exist_before_t t (i_bel i) then inst_remove_after t i else i). split.
  { unfold remove_beliefs_after. apply in_map_iff. exists (id, i). split; [reflexivity|exact I]. }
  pose proof (before_iff t (i_bel i) W) as X.
  assert (Y : exist_at_t t (i_bel i) || hb_exist_before_t t (i_bel i) = true <-> exists k v, In (k, v) (i_bel i) /\ k <= t).
  { rewrite orb_true_iff, exist_at_iff, X. split.
    - intros [[v J]|[k [v [J L]]]]; [exists t, v; split; [exact J|lia]|exists k, v; split; [exact J|lia]].
    - intros [k [v [J L]]]. destruct (Z.eq_dec k t) as [->|N]; [left; exists v; exact J|right; exists k, v; split; [exact J|lia]]. }
  destruct (exist_at_t t (i_bel i) || hb_exist_before_t t (i_bel i)).
  - cbn [inst_remove_after i_bel i_enabled]. rewrite remove_after_filter by exact W. destruct (proj1 Y eq_refl) as [k [v [Ik Lk]]].
    split; [reflexivity|]. split; [|split; [|split]].
    + intros _ Q. assert (J : In (k, v) (filter (fun e => fst e <=? t) (i_bel i))) by (apply filter_In; split; [exact Ik|cbn; lia]). rewrite Q in J. contradiction.
    + intros k' v' J L. apply filter_In. split; [exact J|cbn; lia].
    + intros k' v' J. apply filter_In in J. tauto.
    + intros _ k' v' J. apply filter_In in J. destruct J as [_ J]. cbn in J. lia.
  - split; [reflexivity|]. split; [auto|]. split; [auto|]. split; [auto|]. intros E. apply Y in E. discriminate.
Qed.
Example C45_example : let i : inst Z unit := Inst true [(1, 10); (3, 30); (5, 50)] [] in
  strictly_chronological (i_bel i) /\ remove_beliefs_from 3 [(0%nat, i)] = [(0%nat, Inst true [(1, 10)] [])] /\
  remove_beliefs_after 3 [(0%nat, i)] = [(0%nat, Inst true [(1, 10); (3, 30)] [])] /\ remove_beliefs_from 1 [(0%nat, i)] = [(0%nat, i)].
Proof.
  cbn. split; [|repeat split]. intros a b x y L A C. destruct a as [|[|[|a]]], b as [|[|[|b]]]; cbn in *; try lia; try discriminate;
    try (injection A as <-); try (injection C as <-); cbn; try lia; destruct b; discriminate.
Qed.

(** ** C46 what a replay does *)
Lemma delegated_spec {B M P} deleg (d : dict B M) (m : meas P) :
  delegated deleg d m (fst (h_delegate deleg d m)) (r_status (snd (h_delegate deleg d m))) /\ r_t (snd (h_delegate deleg d m)) = m_t m.
Proof.
  unfold delegated, h_delegate. destruct (d_find (m_id m) d) as [i|]; [|split; reflexivity]. destruct (i_enabled i); [|split; reflexivity].
  destruct (deleg d m) as [d' s]. split; reflexivity.
Qed.
Lemma hb_insert_keys_iff (o : buf bool) t k : (exists v, In (k, v) (hb_insert t true o)) <-> k = t \/ exists v, In (k, v) o.
Proof.
  induction o as [|[x y] r IH]; cbn.
  - split; [intros [v [[= <- _]|[]]]; now left|intros [->|[v []]]; exists true; now left].
  - destruct (t <? x).
    + split; [intros [v [[= <- _]|I]]; [now left|right; exists v; exact I]|intros [->|[v I]]; [exists true; now left|exists v; right; exact I]].
    + destruct (t =? x) eqn:E.
      * assert (t = x) by lia. subst x. split.
        -- intros [v [[= <- _]|I]]; [now left|right; exists v; now right].
        -- intros [->|[v [[= <- <-]|I]]]; [exists true; now left|exists true; now left|exists v; now right].
      * split.
        -- intros [v [[= <- <-]|I]]; [right; exists y; now left|]. destruct (proj1 IH (ex_intro _ v I)) as [->|[w J]]; [now left|right; exists w; now right].
        -- intros [->|[v [[= <- <-]|I]]]; [destruct (proj2 IH (or_introl eq_refl)) as [w J]; exists w; now right|exists y; now left|].
           destruct (proj2 IH (or_intror (ex_intro _ v I))) as [w J]. exists w. now right.
Qed.
Lemma hb_insert_nonempty {T} t (v : T) o : empty (hb_insert t v o) = false.
Proof. destruct o as [|[x y] r]; [reflexivity|]. cbn. destruct (t <? x); [reflexivity|]. destruct (t =? x); reflexivity. Qed.
Lemma fold_replayed {B M P} deleg (ms : list (meas P)) : forall (d : dict B M) o v, exists vec fl,
  let s := fold_left (replay_step deleg) ms (d, o, v) in
  replayed deleg (negb (empty o)) d ms (fst (fst s)) vec fl /\ snd s = v ++ vec /\
  forall k, (exists b, In (k, b) (snd (fst s))) <-> (exists b, In (k, b) o) \/ In k fl.
Proof.
  induction ms as [|m r IH]; intros d o v.
  - exists [], []. cbn. split; [constructor|]. split; [now rewrite app_nil_r|]. intros k. tauto.
  - cbn [fold_left]. unfold replay_step at 2 4 6. destruct (empty o || obs_eqb (m_ty m) PROPAGATION) eqn:X.
    + destruct (delegated_spec deleg d m) as [Dl Rt]. destruct (h_delegate deleg d m) as [d1 [s t1]]. cbn [fst snd r_status r_t] in *. subst t1.
      assert (Cc : negb (empty o) = false \/ m_ty m = PROPAGATION).
      { apply orb_true_iff in X. destruct X as [X|X]; [left; now rewrite X|right; now apply obs_eqb_iff]. }
      destruct (is_ooo s) eqn:Eo.
      * assert (s = OUTOFORDER) by (destruct s; (discriminate || reflexivity)). subst s.
        destruct (IH d1 (hb_insert (m_t m) true o) (v ++ [Res OUTOFORDER (m_t m)])) as [vec [fl [R [Ev Fl]]]].
        exists (Res OUTOFORDER (m_t m) :: vec), (m_t m :: fl). cbn zeta in *. rewrite hb_insert_nonempty in R. cbn [negb] in R.
        split; [exact (ROutOfOrder deleg _ _ _ _ _ _ _ _ Cc Dl R)|]. split; [rewrite Ev, <- app_assoc; reflexivity|].
        intros k. rewrite Fl, hb_insert_keys_iff. cbn. intuition.
      * destruct (IH d1 o (v ++ [Res s (m_t m)])) as [vec [fl [R [Ev Fl]]]]. exists (Res s (m_t m) :: vec), fl. cbn zeta in *.
        split; [apply (RDelegate deleg _ _ _ d1 s); auto; intros ->; discriminate|]. split; [rewrite Ev, <- app_assoc; reflexivity|exact Fl].
    + apply orb_false_elim in X. destruct X as [X1 X2].
      destruct (IH d (hb_insert (m_t m) true o) v) as [vec [fl [R [Ev Fl]]]]. exists vec, (m_t m :: fl). cbn zeta in *.
      rewrite hb_insert_nonempty in R. rewrite X1. cbn [negb] in *. split; [apply RDefer; [intros Q; rewrite Q in X2; discriminate|exact R]|].
      split; [exact Ev|]. intros k. rewrite Fl, hb_insert_keys_iff. cbn. intuition.
Qed.
(** the replay of the stored measurements at or after t, in stored order, on the instances whose newer beliefs were removed *)
Theorem C46_replay_from :
  forall (B M P : Type) deleg (t : Z) (h : handler B M P), chronological (h_meas h) ->
  exists d' vec fl flags, redo_from deleg t h = (set_ooo flags (set_dict d' h), vec) /\
    replayed deleg false (remove_beliefs_from t (h_dict h)) (map snd (filter (fun e => t <=? fst e) (h_meas h))) d' vec fl /\
    forall k, (exists b, In (k, b) flags) <-> In k fl.
Proof.
  intros B M P deleg t h Ch. rewrite redo_from_spec by now apply chrono_w.
  destruct (fold_replayed deleg (from_t t (h_meas h)) (remove_beliefs_from t (h_dict h)) [] []) as [vec [fl [R [Ev Fl]]]]. cbn zeta in *.
  match goal with |- context [fold_left ?f ?l ?a] => destruct (fold_left f l a) as [[d' o'] v'] eqn:FE end.
  pose proof (eq_ind _ (fun s => replayed deleg false (remove_beliefs_from t (h_dict h)) (from_t t (h_meas h)) (fst (fst s)) vec fl /\ snd s = vec /\
    forall k, (exists b, In (k, b) (snd (fst s))) <-> (exists b, In (k, b) []) \/ In k fl) (conj R (conj Ev Fl)) _ FE) as Q.
  clear R Ev Fl. destruct Q as [R [Ev Fl]]. cbn [fst snd] in *. subst v'.
  exists d', vec, fl, o'. split; [reflexivity|]. split; [exact R|]. intros k. rewrite Fl. split; [intros [[b []]|I]; exact I|now right].
Qed.
Theorem C46_replay_after :
  forall (B M P : Type) deleg (t : Z) (h : handler B M P), chronological (h_meas h) ->
  exists d' vec fl flags, redo_after deleg t h = (set_ooo flags (set_dict d' h), vec) /\
    replayed deleg false (remove_beliefs_after t (h_dict h)) (map snd (filter (fun e => t <? fst e) (h_meas h))) d' vec fl /\
    forall k, (exists b, In (k, b) flags) <-> In k fl.
Proof.
  intros B M P deleg t h Ch. rewrite redo_after_spec by now apply chrono_w.
  destruct (fold_replayed deleg (after_t t (h_meas h)) (remove_beliefs_after t (h_dict h)) [] []) as [vec [fl [R [Ev Fl]]]]. cbn zeta in *.
  match goal with |- context [fold_left ?f ?l ?a] => destruct (fold_left f l a) as [[d' o'] v'] eqn:FE end.
  pose proof (eq_ind _ (fun s => replayed deleg false (remove_beliefs_after t (h_dict h)) (after_t t (h_meas h)) (fst (fst s)) vec fl /\ snd s = vec /\
    forall k, (exists b, In (k, b) (snd (fst s))) <-> (exists b, In (k, b) []) \/ In k fl) (conj R (conj Ev Fl)) _ FE) as Q.
  clear R Ev Fl. destruct Q as [R [Ev Fl]]. cbn [fst snd] in *. subst v'.
  exists d', vec, fl, o'. split; [reflexivity|]. split; [exact R|]. intros k. rewrite Fl. split; [intros [[b []]|I]; exact I|now right].
Qed.
(** every replayed measurement is either reported or flagged (possibly both), each once *)
Theorem C46_each_once :
  forall (B M P : Type) deleg c (d d' : dict B M) (ms : list (meas P)) vec fl, replayed deleg c d ms d' vec fl ->
  exists del : list bool, length del = length ms /\
    map r_t vec = map m_t (map snd (filter fst (combine del ms))) /\
    (forall m, In (false, m) (combine del ms) -> In (m_t m) fl) /\
    (forall k, In k fl -> exists m, In m ms /\ k = m_t m) /\
    (In OUTOFORDER (map r_status vec) \/ c = true \/ fl = []).
Proof.
  induction 1 as [c d|c d m d1 s r d' vec fl Cc Dl Ns R [del [L [E [Hf [Hk Hs]]]]]|c d m d1 r d' vec fl Cc Dl R [del [L [E [Hf [Hk Hs]]]]]|d m r d' vec fl Nt R [del [L [E [Hf [Hk Hs]]]]]].
  - exists []. cbn. repeat split; auto; intros; contradiction.
  - exists (true :: del). cbn. split; [now rewrite L|]. split; [now rewrite E|]. split; [intros x [[= ]|I]; auto|].
    split; [intros k I; destruct (Hk k I) as [x [J ->]]; exists x; auto|]. destruct Hs as [Hs|[Hs|Hs]]; auto.
  - exists (true :: del). cbn. split; [now rewrite L|]. split; [now rewrite E|]. split; [intros x [[= ]|I]; right; auto|].
    split; [intros k [<-|I]; [exists m; auto|destruct (Hk k I) as [x [J ->]]; exists x; auto]|]. left. now left.
  - exists (false :: del). cbn. split; [now rewrite L|]. split; [exact E|]. split; [intros x [[= <-]|I]; [now left|right; auto]|].
    split; [intros k [<-|I]; [exists m; auto|destruct (Hk k I) as [x [J ->]]; exists x; auto]|]. right. now left.
Qed.
(** a replay that meets an out-of-order status: the private one after it is deferred, the propagation is not *)
Example C46_example :
  let deleg := fun (d : dict Z unit) (m : meas Z) => (d, if m_dat m <? 0 then OUTOFORDER else PROCESSED) in
  replayed deleg false [(0%nat, Inst true [(1, 1)] [])]
    [Meas 0 2 PROPAGATION 0; Meas 0 3 PRIVATE (-1); Meas 0 4 PROPAGATION 0; Meas 0 5 PRIVATE 0]
    [(0%nat, Inst true [(1, 1)] [])] [Res PROCESSED 2; Res OUTOFORDER 3; Res PROCESSED 4] [3; 5].
Proof.
  cbn zeta. set (dl := fun (d : dict Z unit) (m : meas Z) => (d, if m_dat m <? 0 then OUTOFORDER else PROCESSED)).
  set (d := [(0%nat, Inst true [(1, 1)] [])]).
  assert (D : forall t ty x, delegated dl d (Meas 0 t ty x) d (if x <? 0 then OUTOFORDER else PROCESSED)) by reflexivity.
  refine (RDelegate dl _ d (Meas 0 2 PROPAGATION 0) d PROCESSED _ _ _ _ (or_introl eq_refl) (D _ _ 0) _ _); [discriminate|].
  refine (ROutOfOrder dl _ d (Meas 0 3 PRIVATE (-1)) d _ _ _ _ (or_introl eq_refl) (D _ _ (-1)) _).
  refine (RDelegate dl _ d (Meas 0 4 PROPAGATION 0) d PROCESSED _ _ _ _ (or_intror eq_refl) (D _ _ 0) _ _); [discriminate|].
  refine (RDefer dl d (Meas 0 5 PRIVATE 0) _ _ _ _ _ _); [discriminate|constructor].
Qed.

Print Assumptions C40_unknown_inert.
Print Assumptions C41_history_ordered.
Print Assumptions C43_sort_keeps_all.
Print Assumptions C43_histories_are_typed.
Print Assumptions C44_age_criterion.
Print Assumptions C44_all_others_stored.
Print Assumptions C44_horizon_is_not_the_criterion.
Print Assumptions C45_from_keeps.
Print Assumptions C45_after_keeps.
Print Assumptions C46_replay_from.
Print Assumptions C46_replay_after.
Print Assumptions C46_each_once.
