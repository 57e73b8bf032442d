(** C47, C48 and C71 for every time until the year 2038: the same statements, with the cut of a horizon off by at most
    239 ns (flags and requests) or 358 ns (history). *)
From Coq Require Import ZArith List Bool Arith Lia Sorted Permutation Reals Lra.
From Flocq Require Import IEEE754.BinarySingleNaN.
From Verif Require Import Outcome TimestampModel DoubleModel DoubleProofs BufModel Spec_Time Spec_Buf BufProofs HorizonModel HorizonProofs EpochProofs Props_Buffers MeasModel HandlerModel Spec_Handler HandlerProofs AgeProofs ClockProofs ReplayProofs ArrivalProofs Props_Handler Props_Handler2 Props_Maint Props_Epoch.
Import ListNotations.
Local Open Scope Z_scope.
Local Open Scope outcome_scope.

Lemma clock38 : clock year2038 1000.
Proof. right. split; [reflexivity|reflexivity]. Qed.
Lemma check_from_31 h hz t : h_near h hz -> 0 <= hz < year2038 -> 0 <= t < year2038 ->
  exists c, Z.abs (c - (t - hz)) <= 239 /\ forall T (l : buf T), ssorted l ->
    check_horizon_from_t h (from_stamp_ns t) l = Ok (if existsb (fun e => c <=? fst e) l then filter (fun e => c <=? fst e) l else l).
Proof.
  intros D Hh Ht. destruct (trim_key_31 h hz t D Hh Ht) as [o [c [Eo [Ec Bc]]]]. exists c. split; [lia|]. intros T l Sl.
  unfold check_horizon_from_t. destruct l as [|x r] eqn:X; [reflexivity|]. cbn [empty negb]. unfold trim_from. rewrite Eo. cbn [obind].
  rewrite Ec. cbn [obind]. now rewrite remove_before_filter by now apply ssorted_w.
Qed.
(** ** C47 *)
Theorem C47_epoch :
  forall (B M P : Type) (deleg : dict B M -> meas P -> dict B M * status) (hor : double) (hz hzo : Z) ops (h : handler B M P) m,
  (forall o, In o ops -> never_raw_insert o) -> hrun deleg (new_handler hor) ops = Ok h ->
  h_redo h = [] -> m_ty m <> UNKNOWN -> discards_unknown deleg -> exists_id (m_id m) h = true ->
  (forall e, In e (h_meas h) -> 0 <= fst e < year2038) -> 0 <= m_t m < year2038 ->
  denotes_ns (h_max h) hz -> 0 <= hz < 2097151 * giga -> denotes_ns (h_ooo_max h) hzo -> 0 <= hzo < year2038 ->
  (exists e, In e (h_meas h) /\ fst e + 1000 < m_t m) ->                                             (* not too old *)
  (forall a b, In a ((m_t m, m) :: h_meas h) -> In b ((m_t m, m) :: h_meas h) -> fst a - fst b <= hz - 1000) -> (* inside the horizon *)
  exists c, Z.abs (c - (m_t m - hzo)) <= 239 /\
  forall tf, flag_from (m_t m - c) (m_t m) (h_ooo h) tf -> tf <= m_t m ->
  exists h' l vec fl, process deleg m h = Ok (h', vec) /\
    Permutation ((m_t m, m) :: h_meas h) l /\ h_meas h' = l /\
    replayed deleg false (remove_beliefs_from tf (h_dict h)) (map snd (filter (fun e => tf <=? fst e) l)) (h_dict h') vec fl /\
    (forall k, (exists b, In (k, b) (h_ooo h')) <-> In k fl).
Proof.
  intros B M P deleg hor hz hzo ops h m N E Rd Ty D Ex R Rm Dn Hh Dno Hho [e0 [Ie0 Le0]] Sp.
  pose proof (hrun_inv deleg ops _ h N (new_inv hor) E) as I. pose proof I as [[W [K S]] So _].
  assert (T : all_typed (h_meas h)).
  { intros k x J U. pose proof (C43_histories_are_typed B M P deleg hor ops h D N E k) as Pe.
    apply (Permutation_in _ Pe) in J. apply C43_sort_keeps_all in J; [|now apply chrono_w|intros a b J'; exact (K _ J')]. cbn in J. destruct J as [_ [J|J]]; [lia|tauto]. }
  assert (To : too_old m (h_meas h) = false).
  { apply not_true_is_false. intros Q. destruct (too_old_clock _ _ m (h_meas h) clock38 W R Rm) as [Q1 _]. destruct (Q1 Q) as [_ Q2]. specialize (Q2 _ Ie0). lia. }
  destruct (check_from_31 _ _ (m_t m) Dno Hho Rm) as [c [Bc Cf]]. exists c. split; [exact Bc|]. intros tf Ff Lf.
  unfold process, process_gen. rewrite Ex, To. cbn [negb].
  assert (SR : serve_requests deleg h = Ok h).
  { unfold serve_requests. rewrite Rd. cbn [check_horizon_from_t empty negb obind get_oldest]. f_equal. unfold set_redo. rewrite <- Rd. symmetry. apply handler_eta. }
  rewrite SR. cbn [obind].
  rewrite Cf by exact So. cbn [obind].
  pose proof (trimmed_oldest (m_t m - c) (m_t m) (h_ooo h) tf So Ff) as Ot. replace (m_t m - (m_t m - c)) with c in Ot by lia.
  set (flags := if existsb _ (h_ooo h) then _ else _) in *.
  assert (Sf : ssorted flags) by (unfold flags; destruct (existsb _ _); [now apply ssorted_filter|exact So]).
  destruct (oldest_t_spec _ _ (ssorted_w _ Sf) Ot) as [[w Iw] _].
  assert (Oe : hb_exist_before_t (m_t m) flags || exist_at_t (m_t m) flags = true).
  { apply orb_true_iff. destruct (Z.eq_dec tf (m_t m)) as [->|Nt]; [right; apply exist_at_iff; eauto|left; apply before_iff; [now apply ssorted_w|]; exists tf, w; split; [exact Iw|lia]]. }
  rewrite Oe, orb_true_r. rewrite Ot.
  replace (if tf <? m_t m then tf else m_t m) with tf by (destruct (Z.ltb_spec tf (m_t m)); lia).
  cbn [set_ooo h_max h_meas].
  set (L := mb_insert (m_t m) m (h_meas h)). assert (WL : wsorted L) by now apply mb_insert_wsorted.
  assert (IL : forall e, In e L <-> In e ((m_t m, m) :: h_meas h)).
  { intros e. unfold L. rewrite mb_insert_In by exact W. cbn. intuition. }
  assert (KL : keyed_ok L) by (intros e Ie; apply IL in Ie; destruct Ie as [<-|Ie]; [reflexivity|now apply K]).
  assert (CL : check_horizon (h_max h) L = Ok L).
  { refine (check_clock year2038 1000 clock38 (h_max h) hz L WL Dn Hh _ _).
    - intros e Ie. apply IL in Ie. destruct Ie as [<-|Ie]; [exact Rm|now apply R].
    - intros e e' Ie Ie'. apply Sp; now apply IL. }
  rewrite CL. cbn [obind].
  assert (KL' : forall k x, In (k, x) L -> k = m_t x) by (intros k x J; exact (KL _ J)).
  destruct (C43_sort_keeps_all P tf L (proj2 (chrono_w L) WL) KL') as [CS [_ [_ Pm]]].
  destruct (C46_replay_from B M P deleg tf (set_meas (sort_from tf L) (set_ooo [] (set_meas L (set_ooo flags h)))) CS) as [d' [vec [fl [fls [ER [RR FF]]]]]].
  rewrite ER. eexists _, (sort_from tf L), vec, fl. split; [reflexivity|]. split; [|split; [reflexivity|split; [exact RR|exact FF]]].
  transitivity L.
  - apply Permutation_sym. unfold L. destruct (mb_insert_remove_sub (m_t m) m (h_meas h) W) as [l1 [l2 [-> ->]]]. apply Permutation_sym, Permutation_middle.
  - apply Pm. intros k x J. apply IL in J. destruct J as [[= <- <-]|J]; [exact Ty|exact (T _ _ J)].
Qed.
(** ** C48 *)
Theorem C48_epoch :
  forall (B M P : Type) (deleg : dict B M -> meas P -> dict B M * status) (hor : double) (hzr a : Z) ops (h : handler B M P) m,
  (forall o, In o ops -> never_raw_insert o) -> hrun deleg (new_handler hor) ops = Ok h ->
  exists_id (m_id m) h = true -> too_old m (h_meas h) = false ->
  get_latest_t (h_meas h) = Some a -> 0 <= a < year2038 ->
  denotes_ns (h_redo_max h) hzr -> 0 <= hzr < year2038 ->
  exists c, Z.abs (c - (a - hzr)) <= 239 /\
  forall t0 after, flag_from (a - c) a (h_redo h) t0 -> In (t0, after) (h_redo h) ->
  let cleared := set_redo [] h in
  let h1 := if existsb (fun e => fst e <? t0) (h_meas h) then fst ((if after then redo_after deleg t0 else redo_from deleg t0) cleared) else cleared in
  h_redo h1 = [] /\ h_meas h1 = h_meas h /\ (exists_id (m_id m) h1 = true -> process deleg m h = process deleg m h1).
Proof.
  intros B M P deleg hor hzr a ops h m N E Ex To La Ra Dn Hh.
  destruct (check_from_31 _ _ a Dn Hh Ra) as [c [Bc Cf]]. exists c. split; [exact Bc|]. intros t0 after Ff Ia cleared h1.
  pose proof (hrun_inv deleg ops _ h N (new_inv hor) E) as [[W [K S]] So Sr].
  assert (F1 : h_redo h1 = [] /\ h_meas h1 = h_meas h).
  { unfold h1. destruct (existsb _ _); [|split; reflexivity]. destruct after.
    - destruct (redo_after_fields deleg t0 cleared W) as [A1 [A2 _]]. rewrite A1, A2. split; reflexivity.
    - destruct (redo_from_fields deleg t0 cleared W) as [A1 [A2 _]]. rewrite A1, A2. split; reflexivity. }
  destruct F1 as [F1 F2]. split; [exact F1|]. split; [exact F2|]. intros Ex1.
  assert (SR : serve_requests deleg h = Ok h1).
  { unfold serve_requests. rewrite La. rewrite Cf by exact Sr. cbn [obind].
    pose proof (trimmed_oldest (a - c) a (h_redo h) t0 Sr Ff) as Ot. replace (a - (a - c)) with c in Ot by lia. set (r := if existsb _ (h_redo h) then _ else _) in *.
    assert (Sub : forall e, In e r -> In e (h_redo h)) by (intros e I; unfold r in I; destruct (existsb _ _) in I; [apply filter_In in I; tauto|exact I]).
    unfold get_oldest_t in Ot. destruct (get_oldest r) as [[t1 af]|] eqn:G; [|discriminate]. cbn in Ot. injection Ot as ->.
    assert (In (t0, af) (h_redo h)). { apply Sub. unfold get_oldest in G. destruct r as [|x q]; [discriminate|]. injection G as <-. now left. }
    assert (af = after). { apply (get_at_iff t0 _ (h_redo h) Sr) in H. apply (get_at_iff t0 _ (h_redo h) Sr) in Ia. congruence. } subst af.
    destruct (nonempty_oldest (h_meas h)) as [o Eo]; [intros Q; rewrite Q in La; discriminate|]. rewrite Eo. destruct (oldest_t_spec _ _ W Eo) as [[w Io] Mo].
    unfold h1. replace (existsb (fun e => fst e <? t0) (h_meas h)) with (o <? t0); [destruct (o <? t0); [destruct after; reflexivity|reflexivity]|].
    destruct (Z.ltb_spec o t0) as [L|L]; symmetry.
    - apply existsb_exists. exists (o, w). split; [exact Io|cbn; lia].
    - apply not_true_is_false. intros X. apply existsb_exists in X. destruct X as [e [Ie Le]]. specialize (Mo e Ie). lia. }
  assert (SR1 : serve_requests deleg h1 = Ok h1).
  { unfold serve_requests. rewrite F1. cbn [check_horizon_from_t empty negb obind get_oldest]. f_equal. unfold set_redo. rewrite <- F1. symmetry. apply handler_eta. }
  unfold process, process_gen. rewrite Ex, Ex1, F2, To, SR, SR1. reflexivity.
Qed.
(** which requests are pending: per time the last one requested; all within the request horizon less 239 ns are, none beyond
    it by more than 358 ns *)
Theorem C48_pending_epoch :
  forall (B M P : Type) (h : handler B M P) (hzr : Z) (reqs : list (Z * bool)),
  h_redo h = [] -> denotes_ns (h_redo_max h) hzr -> 239 <= hzr < year2038 ->
  (forall e, In e reqs -> 0 <= fst e < year2038) ->
  let last_of t after := exists p q, reqs = p ++ (t, after) :: q /\ forall e, In e q -> fst e <> t in
  exists r, schedule_all h reqs = Ok (set_redo r h) /\
    strictly_chronological r /\
    (forall t after, In (t, after) r -> last_of t after /\ forall e, In e reqs -> fst e - hzr - 358 <= t) /\
    (forall t after, last_of t after -> (forall e, In e reqs -> fst e - hzr + 239 <= t) -> In (t, after) r).
Proof.
  intros B M P h hzr reqs Rd Dn Hh Hr last_of.
  assert (Q : forall p q (h : handler B M P), schedule_all h (p ++ q) = (let! h1 := schedule_all h p in schedule_all h1 q)).
  { clear. induction p as [|[t a] p IH]; intros q h; [reflexivity|]. cbn [app schedule_all]. destruct (schedule_redo t a h) as [h1| |]; cbn [obind]; [apply IH|reflexivity|reflexivity]. }
  assert (G : exists r, schedule_all h reqs = Ok (set_redo r h) /\ ssorted r /\
    (forall t after, In (t, after) r -> last_of t after /\ forall e, In e reqs -> fst e - hzr - 358 <= t) /\
    (forall t after, last_of t after -> (forall e, In e reqs -> fst e - hzr + 239 <= t) -> In (t, after) r)).
  { unfold last_of. clear last_of. induction reqs as [|[k v] p IH] using rev_ind.
    - exists []. split; [cbn [schedule_all]; unfold set_redo; rewrite <- Rd; destruct h; reflexivity|]. split; [constructor|]. split; [intros ? ? []|].
      intros t a [p [q [X _]]]. destruct p; discriminate.
    - destruct IH as [r [E [Sr [So Co]]]]; [intros e I; apply Hr, in_or_app; now left|].
      rewrite Q, E. cbn [obind schedule_all]. unfold schedule_redo. cbn [h_redo_max h_redo set_redo].
      assert (Rk : 0 <= k < year2038) by (apply (Hr (k, v)), in_or_app; right; now left).
      set (l := hb_insert k v r). assert (Sl : ssorted l) by now apply hb_insert_ssorted.
      assert (Il : forall e, In e l <-> e = (k, v) \/ (In e r /\ fst e <> k)) by (intros e; now apply hb_insert_In).
      assert (Rl : forall e, In e l -> 0 <= fst e < year2038).
      { intros [t a] I. apply Il in I. destruct I as [[= -> ->]|[I _]]; [exact Rk|]. destruct (So _ _ I) as [[p1 [q1 [-> _]]] _].
        apply (Hr (t, a)). apply in_or_app. left. apply in_or_app. right. now left. }
      destruct (nonempty_latest l) as [a La]; [intros X; assert (I : In (k, v) l) by (apply Il; now left); rewrite X in I; destruct I|].
      destruct (latest_t_spec _ _ (ssorted_w _ Sl) La) as [[w Ia] Mx].
      destruct (check_horizon_31 (h_redo_max h) hzr a l (ssorted_w _ Sl) Dn Hh Rl La) as [c [Ec Bc]]. rewrite Ec. cbn [obind].
      assert (Aw : exists x, In x (p ++ [(k, v)]) /\ fst x = a).
      { apply Il in Ia. destruct Ia as [[= -> ->]|[Ia _]]; [exists (k, v); split; [apply in_or_app; right; now left|reflexivity]|].
        destruct (So _ _ Ia) as [[p1 [q1 [-> _]]] _]. exists (a, w). split; [|reflexivity]. apply in_or_app. left. apply in_or_app. right. now left. }
      assert (An : forall x, In x (p ++ [(k, v)]) -> fst x <= a).
      { assert (Nk : k <= a) by (apply (Mx (k, v)), Il; now left).
        intros x Ix. apply in_app_or in Ix. destruct Ix as [Ix|[<-|[]]]; [|exact Nk].
        assert (Nw : exists b u, In (b, u) p /\ (forall y, In y p -> fst y <= b) /\ exists p1 q1, p = p1 ++ (b, u) :: q1 /\ forall e, In e q1 -> fst e <> b).
        { clear - Ix. revert x Ix. induction p as [|y p IH]; intros x Ix; [destruct Ix|]. destruct p as [|z p'].
          - destruct y as [b u]. exists b, u. split; [now left|]. split; [intros y [<-|[]]; cbn; lia|]. exists [], []. split; [reflexivity|intros ? []].
          - destruct (IH z (or_introl eq_refl)) as [b [u [I [Mb [p1 [q1 [Ep N]]]]]]]. destruct (Z_lt_le_dec b (fst y)) as [L|L].
            + destruct y as [b' u']. exists b', u'. cbn in L. split; [now left|]. split; [intros y [<-|Iy]; cbn; [lia|specialize (Mb y Iy); lia]|].
              exists [], (z :: p'). split; [reflexivity|]. intros e Ie. specialize (Mb e Ie). lia.
            + exists b, u. split; [now right|]. split; [intros w [<-|Iy]; [exact L|now apply Mb]|]. exists (y :: p1), q1. split; [now rewrite Ep|exact N]. }
        destruct Nw as [b [u [Ib [Mb Lb]]]]. pose proof (Mb x Ix) as Xb. 
        assert (Ir : In (b, u) r) by (apply Co; [exact Lb|]; intros e Ie; specialize (Mb e Ie); lia).
        destruct (Z.eq_dec b k) as [->|Nb]; [lia|]. specialize (Mx (b, u) (proj2 (Il _) (or_intror (conj Ir Nb)))). cbn in Mx. lia. }
      eexists. split; [unfold set_redo; reflexivity|]. split; [now apply ssorted_filter|]. split.
      + intros t af I. apply filter_In in I. destruct I as [I Lc]. cbn [fst] in Lc. apply Z.leb_le in Lc. split.
        * apply Il in I. destruct I as [[= -> ->]|[I N]]; [exists p, []; split; [reflexivity|intros ? []]|].
          destruct (So _ _ I) as [[p1 [q1 [-> H]]] _]. exists p1, (q1 ++ [(k, v)]). split; [now rewrite <- app_assoc|]. cbn [fst] in N.
          intros x Ix. apply in_app_or in Ix. destruct Ix as [Ix|[<-|[]]]; [now apply H|cbn; intros X; apply N; now symmetry].
        * intros x Ix. specialize (An x Ix). lia.
      + intros t af [p1 [q1 [Eq H]]] Hb. apply filter_In. split.
        * apply Il. destruct q1 as [|y q1] using rev_ind.
          -- apply app_inj_tail in Eq. destruct Eq as [_ <-]. now left.
          -- clear IHq1. rewrite app_comm_cons, app_assoc in Eq. apply app_inj_tail in Eq. destruct Eq as [-> <-]. right.
             split; [|cbn; intros X; apply (H (k, v)); [apply in_or_app; right; now left|cbn; now symmetry]].
             apply Co; [|intros e Ie; apply Hb, in_or_app; now left].
             exists p1, q1. split; [reflexivity|]. intros x I. apply H, in_or_app. now left.
        * cbn [fst]. apply Z.leb_le. destruct Aw as [x [Ix Ex]]. specialize (Hb x Ix). lia. }
  destruct G as [r [E [Sr [So Co]]]]. exists r. split; [exact E|]. split; [|split; [exact So|exact Co]].
  clear - Sr. intros i j a b L Hi Hj. revert i j L Hi Hj. induction Sr as [|x q S IH F]; intros i j L Hi Hj; [destruct i; discriminate|].
  destruct i, j; cbn in *; try lia; [|apply (IH i j); auto; lia]. injection Hi as <-. rewrite Forall_forall in F. apply F. now apply nth_error_In in Hj.
Qed.
(** ** C71 *)
Lemma check_spans_31 {P} h hz (l l' : buf (meas P)) : wsorted l -> h_near h hz -> 239 <= hz < year2038 ->
  (forall e, In e l -> 0 <= fst e < year2038) -> check_horizon h l = Ok l' ->
  spans_at_most (hz + 358) l' /\ wsorted l' /\ forall e, In e l' -> In e l.
Proof.
  intros W N Hh Hl E. assert (D : l = [] \/ l <> []) by (destruct l; [now left|right; discriminate]). destruct D as [->|D].
  - cbn in E. injection E as <-. split; [intros ? ? []|]. split; [constructor|intros ? []].
  - destruct (nonempty_latest l D) as [a La]. destruct (check_horizon_31 h hz a l W N Hh Hl La) as [c [E1 Bc]]. rewrite E1 in E.
    destruct (latest_t_spec _ _ W La) as [_ Mx]. assert (E' : l' = filter (fun e => c <=? fst e) l) by congruence. subst l'. split; [|split].
    + intros p q Ip Iq. apply filter_In in Ip, Iq. destruct Ip as [Ip _], Iq as [_ Lq]. specialize (Mx _ Ip). lia.
    + now apply wsorted_filter.
    + intros e I. now apply filter_In in I.
Qed.
Lemma process_spans_31 {B M P} deleg disc m (h h' : handler B M P) vec hz : hinv h -> h_near (h_max h) hz -> 239 <= hz < year2038 ->
  (forall e, In e (h_meas h) -> 0 <= fst e < year2038) -> 0 <= m_t m < year2038 ->
  process_gen deleg order_violated disc m h = Ok (h', vec) ->
  h_meas h' = h_meas h \/ (spans_at_most (hz + 358) (h_meas h') /\ forall e, In e (h_meas h') -> e = (m_t m, m) \/ In e (h_meas h)).
Proof.
  intros [So Sf Sr] N Hh Hl Hm. assert (W : wsorted (h_meas h)) by apply So. unfold process_gen.
  destruct (negb _); [intros [= <- <-]; now left|].
  destruct (too_old m (h_meas h)); [intros [= <- <-]; now left|].
  destruct (serve_requests deleg h) as [h1| |] eqn:Es; cbn [obind]; try discriminate.
  destruct (serve_fields deleg h h1 W Sf Sr Es) as [A1 [A2 [A3 [A4 [A5 [A6 A7]]]]]].
  destruct (disc m h1); [intros [= <- <-]; now left|].
  destruct (check_horizon_from_t _ _ _) as [flags| |] eqn:Cf; cbn [obind]; try discriminate.
  assert (Wi : wsorted (mb_insert (m_t m) m (h_meas h))) by (now apply mb_insert_wsorted).
  assert (Hi : forall e, In e (mb_insert (m_t m) m (h_meas h)) -> e = (m_t m, m) \/ In e (h_meas h)).
  { intros e I. now apply mb_insert_In in I. }
  assert (Ti : forall e, In e (mb_insert (m_t m) m (h_meas h)) -> 0 <= fst e < year2038).
  { intros e I. destruct (Hi e I) as [->|J]; [exact Hm|now apply Hl]. }
  assert (Ki : keyed_ok (mb_insert (m_t m) m (h_meas h))).
  { intros e I. destruct (Hi e I) as [->|J]; [reflexivity|now apply So]. }
  rewrite A1. set (b := hb_exist_before_t (m_t m) flags || exist_at_t (m_t m) flags).
  destruct (order_violated m (h_meas h) || b).
  - cbn [h_meas set_ooo h_max]. rewrite A1, A3. destruct (check_horizon _ _) as [l| |] eqn:Ch; cbn [obind]; try discriminate.
    destruct (check_spans_31 _ hz _ _ Wi N Hh Ti Ch) as [Sp [Wl Sub]].
    set (t0 := if b then _ else _). set (h3 := set_meas _ _). intros [= E]. right.
    assert (Kl : keyed_ok l) by (intros e I; apply Ki; now apply Sub).
    assert (W3 : wsorted (h_meas h3)) by (apply (sort_from_spec t0 l Wl Kl)).
    destruct (redo_from_fields deleg t0 h3 W3) as [B1 _]. rewrite E in B1. cbn [fst] in B1. rewrite B1. cbn [h3 h_meas set_meas].
    assert (S2 : forall e, In e (sort_from t0 l) -> In e l) by (intros e; now apply sort_sub).
    split; [intros p q Ip Iq; apply Sp; now apply S2|]. intros e I. apply Hi. apply Sub. now apply S2.
  - destruct (h_delegate deleg _ m) as [d' r]. destruct (negb (is_disc _)).
    + cbn [h_meas h_max set_dict set_ooo]. rewrite A1, A3. destruct (check_horizon _ _) as [l| |] eqn:Ch; cbn [obind]; try discriminate.
      destruct (check_spans_31 _ hz _ _ Wi N Hh Ti Ch) as [Sp [Wl Sub]]. intros [= <- <-]. right. cbn. split; [exact Sp|].
      intros e I. apply Hi. now apply Sub.
    + intros [= <- <-]. left. cbn. exact A1.
Qed.
Definition timely38 {B M P} (o : hop (B:=B) (M:=M) (P:=P)) : Prop := match o with OProcess m => 0 <= m_t m < year2038 | OInsert _ => False | _ => True end.
Theorem C71_epoch_history :
  forall (B M P : Type) (deleg : dict B M -> meas P -> dict B M * status) (hor : double) (hz : Z) ops (h : handler B M P),
  denotes_ns (Babs hor) hz -> 239 <= hz < year2038 ->
  (forall o, In o ops -> timely38 o) -> (forall x, ~ In (OSetHorizon x) ops) ->
  hrun deleg (new_handler hor) ops = Ok h -> spans_at_most (hz + 358) (h_meas h).
Proof.
  intros B M P deleg hor hz ops h N Hh T NS.
  assert (G : forall ops (h0 : handler B M P), (forall o, In o ops -> timely38 o) -> (forall x, ~ In (OSetHorizon x) ops) ->
     hinv h0 -> h_max h0 = Babs hor -> (forall e, In e (h_meas h0) -> 0 <= fst e < year2038) -> spans_at_most (hz + 358) (h_meas h0) ->
     hrun deleg h0 ops = Ok h -> spans_at_most (hz + 358) (h_meas h)).
  { clear T NS ops. induction ops as [|o r IH]; intros h0 T NS I Mx Tm Sp E; [injection E as <-; exact Sp|]. cbn [hrun] in E.
    destruct (hstep deleg h0 o) as [h1| |] eqn:Es; cbn [obind] in E; try discriminate.
    assert (To : timely38 o) by (apply T; now left).
    assert (No : never_raw_insert o) by (now destruct o).
    assert (I1 : hinv h1) by exact (hstep_inv deleg h0 h1 o No I Es).
    assert (M1 : h_max h1 = Babs hor).
    { rewrite <- Mx. destruct o; cbn [hstep] in Es; cbn in To.
      - destruct (process deleg m h0) as [[h2 v]| |] eqn:Ep; cbn [omap obind] in Es; try discriminate. injection Es as <-.
        apply process_limits in Ep. unfold limits in Ep. now injection Ep.
      - injection Es as <-. unfold add. now destruct (exists_id _ _).
      - injection Es as <-. unfold remove. now destruct (get_inst _ _).
      - exfalso. apply (NS x). now left.
      - now injection Es as <-.
      - now injection Es as <-.
      - contradiction.
      - unfold schedule_redo in Es. destruct (check_horizon _ _) as [q| |]; cbn [obind] in Es; try discriminate. now injection Es as <-.
      - injection Es as <-. pose proof (redo_after_limits deleg t h0) as L. unfold limits in L. now injection L. }
    assert (Q : spans_at_most (hz + 358) (h_meas h1) /\ forall e, In e (h_meas h1) -> 0 <= fst e < year2038).
    { pose proof (hstep_meas deleg h0 h1 o I Es) as Hm. destruct o; cbn [hstep] in Es; cbn in To; try contradiction; try (rewrite Hm; now split).
      - destruct (process deleg m h0) as [[h2 v]| |] eqn:Ep; cbn [omap obind] in Es; try discriminate. injection Es as <-.
        assert (N0 : h_near (h_max h0) hz) by (now rewrite Mx).
        destruct (process_spans_31 deleg _ m h0 h2 v hz I N0 Hh Tm To Ep) as [->|[Q1 Q2]]; [now split|]. split; [exact Q1|].
        intros e Ie. destruct (Q2 e Ie) as [->|J]; [exact To|now apply Tm]. }
    apply (IH h1); try tauto; [intros x Ix; apply T; now right|intros x Ix; apply (NS x); now right]. }
  apply (G ops (new_handler hor)); auto; [apply new_inv|intros ? []|intros ? ? []].
Qed.
(** also after the horizon was changed: the next stored measurement enforces it *)
Theorem C71_epoch_new_horizon :
  forall (B M P : Type) (deleg : dict B M -> meas P -> dict B M * status) (x : double) (hz : Z) (h h' : handler B M P) m vec,
  denotes_ns (Babs x) hz -> 239 <= hz < year2038 -> hinv h ->
  (forall e, In e (h_meas h) -> 0 <= fst e < year2038) -> 0 <= m_t m < year2038 ->
  process deleg m (h_set_horizon x h) = Ok (h', vec) -> h_meas h' = h_meas h \/ spans_at_most (hz + 358) (h_meas h').
Proof.
  intros B M P deleg x hz h h' m vec N Hh I Tm Hm E.
  assert (I1 : hinv (h_set_horizon x h)) by (destruct I; now constructor).
  destruct (process_spans_31 deleg _ m (h_set_horizon x h) h' vec hz I1 N Hh Tm Hm E) as [Q|[Q _]]; [left; exact Q|now right].
Qed.

(** ** concrete cases in July 2024 *)
Definition july : Z := 1720000000000000000.
Definition er_ops : list (@hop Z unit Z) :=
  [OAdd 0 (Inst true [(july - 1, 100)] []); OProcess (Meas 0 july PROPAGATION 1); OProcess (Meas 0 (july + 5000000000) PRIVATE 5);
   OProcess (Meas 0 (july + 12000000000) PRIVATE 2); OProcess (Meas 0 (july + 8000000000) PRIVATE 1)].
Example C71_epoch_example : (forall o, In o er_ops -> timely38 o) /\ denotes_ns (Babs (d_of_Z 10)) 10000000000 /\ (forall x, ~ In (OSetHorizon x) er_ops) /\
  option_map (map fst) (match hrun c71_deleg (new_handler (d_of_Z 10)) er_ops with Ok h => Some (h_meas h) | _ => None end)
  = Some [july + 5000000000; july + 8000000000; july + 12000000000].
Proof.
  split; [|split; [|split]].
  - intros o H. cbn in H. repeat (destruct H as [<-|H]); try contradiction; try exact Logic.I; cbn [timely38 m_t]; (split; [discriminate|reflexivity]).
  - destruct (d_of_Z_exact 10) as [E F]; [lia|]. split; [now rewrite is_finite_Babs|]. rewrite B2R_Babs, E, (Rabs_pos_eq 10) by lra.
    replace (10 * 1000000000 - 10000000000)%R with 0%R by lra. rewrite Rabs_R0. lra.
  - intros x H. cbn in H. repeat (destruct H as [H|H]; [discriminate|]). contradiction.
  - vm_compute. reflexivity.
Qed.
(** a horizon of 10 s gives a request horizon of 5 s: of the requests 0 s, 3 s (twice) and 7 s the last two times stay, and the
    measurement at 13 s first replays from 3 s *)
Example C48_epoch_example :
  option_map h_redo (match hrun c71_deleg (new_handler (d_of_Z 10)) (er_ops ++
     [OSchedule july true; OSchedule (july + 3000000000) false; OSchedule (july + 7000000000) false; OSchedule (july + 3000000000) true]) with Ok h => Some h | _ => None end)
  = Some [(july + 3000000000, true); (july + 7000000000, false)] /\
  flag_from 5000000100 (july + 12000000000) [(july + 3000000000, true); (july + 7000000000, false)] (july + 7000000000).
Proof.
  split; [vm_compute; reflexivity|]. split; [exists false; right; now left|]. left. split; [unfold july; lia|].
  intros k v [[= <- <-]|[[= <- <-]|[]]] L; unfold july in *; lia.
Qed.
Print Assumptions C47_epoch.
Print Assumptions C48_epoch.
Print Assumptions C48_pending_epoch.
Print Assumptions C71_epoch_history.
Print Assumptions C71_epoch_new_horizon.
