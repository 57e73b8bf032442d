(** Properties C42, C47, C48, C49 and C58 of the central handler. *)
From Coq Require Import ZArith List Bool Arith Lia Sorted Permutation Reals Lra.
From Flocq Require Import IEEE754.BinarySingleNaN.
From Verif Require Import Outcome TimestampModel DoubleModel BufModel Spec_Time Spec_Buf BufProofs HorizonModel HorizonProofs Props_Buffers MeasModel HandlerModel Spec_Handler HandlerProofs AgeProofs ClockProofs ReplayProofs ArrivalProofs Props_Handler.
Import ListNotations.
Local Open Scope Z_scope.
Local Open Scope outcome_scope.

(** ** C49 registry *)
Section Reg.
Context {B M P : Type}.
Implicit Types (h : handler B M P) (d : dict B M).
Lemma find_notin id d : d_find id d = None <-> ~ In id (map fst d).
Proof.
  induction d as [|[k i] r IH]; cbn; [tauto|]. destruct (Nat.eqb_spec k id) as [->|N]; [split; [discriminate|tauto]|]. rewrite IH. intuition.
Qed.
Lemma find_filter id j d : d_find j (filter (fun e => negb (fst e =? id)%nat) d) = if (j =? id)%nat then None else d_find j d.
Proof.
  induction d as [|[k i] r IH]; cbn; [now destruct (_ =? _)%nat|]. destruct (Nat.eqb_spec k id) as [->|N]; cbn.
  - rewrite IH. rewrite (Nat.eqb_sym id j). now destruct (j =? id)%nat.
  - rewrite IH. destruct (Nat.eqb_spec k j) as [->|Nk]; [|reflexivity]. destruct (Nat.eqb_spec j id); [congruence|reflexivity].
Qed.
End Reg.
(** registry operations only *)
Inductive rop (B M : Type) := RAdd (id : nat) (i : inst B M) | RRemove (id : nat).
Arguments RAdd {B M}. Arguments RRemove {B M}.
Definition rrun {B M P} (h : handler B M P) (ops : list (rop B M)) : handler B M P :=
  fold_left (fun h o => match o with RAdd id i => fst (add id i h) | RRemove id => fst (remove id h) end) ops h.
(** the registry as a map: a first registration wins until it is removed *)
Definition reg_spec {B M} (ops : list (rop B M)) (id : nat) : option (inst B M) :=
  fold_left (fun cur o => match o with
    | RAdd j i => if (j =? id)%nat then match cur with Some x => Some x | None => Some i end else cur
    | RRemove j => if (j =? id)%nat then None else cur end) ops None.

Theorem C49_registry_map :
  forall (B M P : Type) (hor : double) (ops : list (rop B M)) (id : nat),
  let h := rrun (new_handler (P:=P) hor) ops in
  get_inst id h = reg_spec ops id /\
  exists_id id h = (match reg_spec ops id with Some _ => true | None => false end) /\
  (In id (get_instance_ids h) <-> reg_spec ops id <> None) /\ NoDup (get_instance_ids h).
Proof.
  intros B M P hor ops id h.
  assert (Q : get_inst id h = reg_spec ops id /\ NoDup (get_instance_ids h)).
  { unfold h, rrun, reg_spec, get_inst, get_instance_ids. 
    assert (G : forall ops (h : handler B M P) cur, d_find id (h_dict h) = cur -> NoDup (map fst (h_dict h)) ->
      d_find id (h_dict (fold_left (fun h o => match o with RAdd id i => fst (add id i h) | RRemove id => fst (remove id h) end) ops h)) =
      fold_left (fun cur o => match o with
        | RAdd j i => if (j =? id)%nat then match cur with Some x => Some x | None => Some i end else cur
        | RRemove j => if (j =? id)%nat then None else cur end) ops cur /\
      NoDup (map fst (h_dict (fold_left (fun h o => match o with RAdd id i => fst (add id i h) | RRemove id => fst (remove id h) end) ops h)))).
    { clear. induction ops as [|o r IH]; intros h cur E N; [now split|]. cbn [fold_left]. apply IH; destruct o as [j i|j].
      - unfold add, exists_id. destruct (d_find j (h_dict h)) as [x|] eqn:F; cbn [fst].
        + rewrite E. destruct (Nat.eqb_spec j id) as [->|Nj]; [|reflexivity]. rewrite <- E, F. reflexivity.
        + cbn [set_dict h_dict d_find]. destruct (Nat.eqb_spec j id) as [->|Nj]; [|exact E]. rewrite F in E. now subst cur.
      - unfold remove, get_inst. destruct (d_find j (h_dict h)) as [x|] eqn:F; cbn [fst].
        + cbn [set_dict h_dict]. rewrite find_filter, E, Nat.eqb_sym. reflexivity.
        + rewrite E. destruct (Nat.eqb_spec j id) as [->|Nj]; [|reflexivity]. congruence.
      - unfold add, exists_id. destruct (d_find j (h_dict h)) as [x|] eqn:F; cbn [fst]; [exact N|]. cbn. constructor; [now apply find_notin|exact N].
      - unfold remove, get_inst. destruct (d_find j (h_dict h)) as [x|] eqn:F; cbn [fst]; [|exact N]. cbn [set_dict h_dict].
        clear - N. induction (h_dict h) as [|[k y] q IH]; [constructor|]. cbn in *. apply NoDup_cons_iff in N. destruct N as [N1 N2].
        destruct (k =? j)%nat; cbn; [now apply IH|]. constructor; [|now apply IH]. intros I. apply N1. apply in_map_iff in I. destruct I as [e [<- I]].
        apply filter_In in I. apply in_map. tauto. }
    apply G; [reflexivity|constructor]. }
  destruct Q as [Q N]. split; [exact Q|]. split; [unfold exists_id; change (d_find id (h_dict h)) with (get_inst id h); now rewrite Q|].
  split; [|exact N]. rewrite <- Q. unfold get_inst, get_instance_ids. rewrite find_notin. destruct (in_dec Nat.eq_dec id (map fst (h_dict h))); tauto.
Qed.
(** add reports whether the ID was free, remove whether it was registered *)
Theorem C49_return_values :
  forall (B M P : Type) (h : handler B M P) (id : nat) (i : inst B M),
  snd (add id i h) = negb (exists_id id h) /\ snd (remove id h) = exists_id id h /\
  h_meas (fst (add id i h)) = h_meas h /\ h_meas (fst (remove id h)) = h_meas h.
Proof.
  intros. unfold add, remove, get_inst, exists_id. destruct (d_find id (h_dict h)); repeat split; reflexivity.
Qed.
Example C49_example : let ops := [RAdd 1 (Inst true [] []); RAdd 2 (Inst false [] []); RAdd 1 (Inst false [(0, 7)] []); RRemove 2] : list (rop Z unit) in
  reg_spec ops 1 = Some (Inst true [] []) /\ reg_spec ops 2 = None /\ reg_spec ops 3 = None.
Proof. repeat split. Qed.

(** ** C58 relaxed ordering *)
Theorem C58_relaxed_exact :
  forall (P : Type) (m : meas P) (l : buf (meas P)), chronological l ->
  (order_violated_relaxed m l = true <->
     (exists e, In e l /\ m_t m < fst e) \/
     (m_ty m = PROPAGATION /\ exists x, In (m_t m, x) l /\ (m_ty x = PRIVATE \/ m_ty x = JOINT))).
Proof.
  intros P m l Ch. pose proof (proj1 (chrono_w _) Ch) as W. unfold order_violated_relaxed. rewrite get_all_eq by exact W.
  destruct (exist_after_t (m_t m) l) eqn:X.
  - split; [|reflexivity]. intros _. left. apply exist_after_iff in X. destruct X as [e X]. eauto.
  - assert (N : ~ exists e, In e l /\ m_t m < fst e) by (intros [e H]; assert (exist_after_t (m_t m) l = true) by (apply exist_after_iff; eauto); congruence).
    assert (Q : existsb (fun x => obs_eqb (m_ty x) PRIVATE || obs_eqb (m_ty x) JOINT) (map snd (elements_at (m_t m) l)) = true <->
      exists x, In (m_t m, x) l /\ (m_ty x = PRIVATE \/ m_ty x = JOINT)).
    { rewrite existsb_exists. split.
      - intros [x [I E]]. apply in_map_iff in I. destruct I as [[k y] [E2 I]]. cbn in E2. subst y. unfold elements_at in I. apply filter_In in I. destruct I as [I Ek]. cbn in Ek.
        assert (k = m_t m) by lia. subst k. exists x. split; [exact I|]. apply orb_true_iff in E. now rewrite !obs_eqb_iff in E.
      - intros [x [I E]]. exists x. split; [apply in_map_iff; exists (m_t m, x); split; [reflexivity|]; apply filter_In; split; [exact I|cbn; lia]|].
        apply orb_true_iff. now rewrite !obs_eqb_iff. }
    destruct (m_ty m) eqn:T; try (rewrite Q); split; try discriminate; try (intros [H|[H _]]; [contradiction|discriminate]); intros H; [right; now split|destruct H as [H|[_ H]]; [contradiction|exact H]].
Qed.
Theorem C58_relaxed_implies_strict :
  forall (P : Type) (m : meas P) (l : buf (meas P)), order_violated_relaxed m l = true -> order_violated m l = true.
Proof.
  intros P m l. unfold order_violated_relaxed, order_violated. destruct (exist_after_t (m_t m) l); [reflexivity|]. destruct (m_ty m); auto; discriminate.
Qed.
Example C58_strictly_weaker : let l := [(5, Meas 0 5 JOINT 1)] in
  order_violated (Meas 0 5 PRIVATE 2) l = true /\ order_violated_relaxed (Meas 0 5 PRIVATE 2) l = false /\ order_violated_relaxed (Meas 0 5 PROPAGATION 2) l = true.
Proof. repeat split. Qed.

(** ** C47 deferred measurements *)
Definition flag_from {T} (hz m_time : Z) (flags : buf T) (tf : Z) : Prop :=
  (exists v, In (tf, v) flags) /\
  ((m_time - hz <= tf /\ forall k v, In (k, v) flags -> k < tf -> k < m_time - hz) \/          (* the oldest flag inside the flag horizon *)
   ((forall k v, In (k, v) flags -> tf <= k) /\ forall k v, In (k, v) flags -> k < m_time - hz)). (* all outside: the oldest *)

Lemma trimmed_oldest {T} hz t (flags : buf T) tf : ssorted flags -> flag_from hz t flags tf ->
  get_oldest_t (if existsb (fun e => t - hz <=? fst e) flags then filter (fun e => t - hz <=? fst e) flags else flags) = Some tf.
Proof.
  intros S [[v I] H]. set (L := if existsb _ _ then _ else _).
  assert (WL : wsorted L) by (unfold L; apply ssorted_w; destruct (existsb _ _); [now apply ssorted_filter|exact S]).
  assert (IL : In (tf, v) L /\ forall k w, In (k, w) L -> tf <= k).
  { unfold L. destruct (existsb (fun e => t - hz <=? fst e) flags) eqn:X.
    - destruct H as [[H1 H2]|[H1 H2]].
      + split; [apply filter_In; split; [exact I|cbn; lia]|]. intros k w J. apply filter_In in J. destruct J as [J K]. cbn in K.
        destruct (Z_le_gt_dec tf k) as [Q|Q]; [exact Q|]. specialize (H2 k w J). lia.
      + exfalso. apply existsb_exists in X. destruct X as [[k w] [J K]]. specialize (H2 k w J). cbn in K. lia.
    - assert (N : forall k w, In (k, w) flags -> k < t - hz).
      { intros k w J. destruct (Z_lt_dec k (t - hz)) as [Q|Q]; [exact Q|]. assert (existsb (fun e => t - hz <=? fst e) flags = true); [|congruence].
        apply existsb_exists. exists (k, w). split; [exact J|cbn; lia]. }
      split; [exact I|]. destruct H as [[H1 H2]|[H1 H2]]; [|exact H1]. specialize (N _ _ I). lia. }
  destruct IL as [IL Mn]. destruct (nonempty_oldest L) as [o E]; [intros Q; rewrite Q in IL; contradiction|]. rewrite E. f_equal.
  destruct (oldest_t_spec _ _ WL E) as [[w J] K]. specialize (K _ IL). specialize (Mn _ _ J). cbn in K. lia.
Qed.

(** a pending flag at or before the new measurement triggers a replay from the relevant flag over the history including the
    new measurement; the flags left are those raised by that replay *)
Theorem C47_flags_consumed :
  forall (B M P : Type) (deleg : dict B M -> meas P -> dict B M * status) (hor : double) (hz hzo : Z) ops (h : handler B M P) m tf,
  (forall o, In o ops -> never_raw_insert o) -> hrun deleg (new_handler hor) ops = Ok h ->
  h_redo h = [] -> m_ty m <> UNKNOWN -> discards_unknown deleg -> exists_id (m_id m) h = true ->
  (forall e, In e (h_meas h) -> 0 <= fst e < 2097151 * giga) -> 0 <= m_t m < 2097151 * giga ->
  denotes_ns (h_max h) hz -> 0 <= hz < 2097151 * giga -> denotes_ns (h_ooo_max h) hzo -> 0 <= hzo < 2097151 * giga ->
  (exists e, In e (h_meas h) /\ fst e < m_t m) ->                                             (* not too old *)
  (forall a b, In a ((m_t m, m) :: h_meas h) -> In b ((m_t m, m) :: h_meas h) -> fst a - fst b <= hz) -> (* inside the horizon *)
  flag_from hzo (m_t m) (h_ooo h) tf -> tf <= m_t m ->
  exists h' l vec fl, process deleg m h = Ok (h', vec) /\
    Permutation ((m_t m, m) :: h_meas h) l /\ h_meas h' = l /\
    replayed deleg false (remove_beliefs_from tf (h_dict h)) (map snd (filter (fun e => tf <=? fst e) l)) (h_dict h') vec fl /\
    (forall k, (exists b, In (k, b) (h_ooo h')) <-> In k fl).
Proof.
  intros B M P deleg hor hz hzo ops h m tf N E Rd Ty D Ex R Rm Dn Hh Dno Hho [e0 [Ie0 Le0]] Sp Ff Lf.
  pose proof (hrun_inv deleg ops _ h N (new_inv hor) E) as I. pose proof I as [[W [K S]] So _].
  assert (T : all_typed (h_meas h)).
  { intros k x J U. pose proof (C43_histories_are_typed B M P deleg hor ops h D N E k) as Pe.
    apply (Permutation_in _ Pe) in J. apply C43_sort_keeps_all in J; [|now apply chrono_w|intros a b J'; exact (K _ J')]. cbn in J. destruct J as [_ [J|J]]; [lia|tauto]. }
  assert (To : too_old m (h_meas h) = false).
  { rewrite too_old_exact by auto. destruct (get_oldest_t (h_meas h)) as [b|] eqn:Eb; [|reflexivity]. destruct (oldest_t_spec _ _ W Eb) as [_ Mn]. specialize (Mn _ Ie0). lia. }
  unfold process, process_gen. rewrite Ex, To. cbn [negb].
  assert (SR : serve_requests deleg h = Ok h).
  { unfold serve_requests. rewrite Rd. cbn [check_horizon_from_t empty negb obind get_oldest]. f_equal. unfold set_redo. rewrite <- Rd. symmetry. apply handler_eta. }
  rewrite SR. cbn [obind].
  rewrite (check_from_exact _ hzo) by (auto; now apply ssorted_w). cbn [obind].
  pose proof (trimmed_oldest hzo (m_t m) (h_ooo h) tf So Ff) as Ot.
  set (flags := if existsb _ (h_ooo h) then _ else _) in *.
  assert (Sf : ssorted flags) by (unfold flags; destruct (existsb _ _); [now apply ssorted_filter|exact So]).
  destruct (oldest_t_spec _ _ (ssorted_w _ Sf) Ot) as [[w Iw] _].
  assert (Oe : hb_exist_before_t (m_t m) flags || exist_at_t (m_t m) flags = true).
  { apply orb_true_iff. destruct (Z.eq_dec tf (m_t m)) as [->|Nt]; [right; apply exist_at_iff; eauto|left; apply before_iff; [now apply ssorted_w|]; exists tf, w; split; [exact Iw|lia]]. }
  rewrite Oe, orb_true_r. rewrite Ot.
  replace (if tf <? m_t m then tf else m_t m) with tf by (destruct (Z.ltb_spec tf (m_t m)); lia).
  cbn [set_ooo h_max h_meas].
  set (L := mb_insert (m_t m) m (h_meas h)). assert (WL : wsorted L) by now apply mb_insert_wsorted.
  assert (IL : forall e, In e L <-> In e ((m_t m, m) :: h_meas h)).
  { intros e. unfold L. rewrite mb_insert_In by exact W. cbn. intuition. }
  assert (KL : keyed_ok L) by (intros e Ie; apply IL in Ie; destruct Ie as [<-|Ie]; [reflexivity|now apply K]).
  assert (CL : check_horizon (h_max h) L = Ok L).
  { destruct (nonempty_latest L) as [a Ea]; [intros Q; assert (J : In (m_t m, m) L) by (apply IL; now left); rewrite Q in J; contradiction|].
    rewrite (check_horizon_exact _ hz a); auto.
    - f_equal. apply filter_all_true. rewrite Forall_forall. intros e Ie. destruct (latest_t_spec _ _ WL Ea) as [[v Ia] _].
      specialize (Sp (a, v) e (proj1 (IL _) Ia) (proj1 (IL _) Ie)). cbn in Sp. lia.
    - intros e Ie. apply IL in Ie. destruct Ie as [<-|Ie]; [exact Rm|auto]. }
  rewrite CL. cbn [obind].
  assert (KL' : forall k x, In (k, x) L -> k = m_t x) by (intros k x J; exact (KL _ J)).
  destruct (C43_sort_keeps_all P tf L (proj2 (chrono_w L) WL) KL') as [CS [_ [_ Pm]]].
  destruct (C46_replay_from B M P deleg tf (set_meas (sort_from tf L) (set_ooo [] (set_meas L (set_ooo flags h)))) CS) as [d' [vec [fl [fls [ER [RR FF]]]]]].
  rewrite ER. eexists _, (sort_from tf L), vec, fl. split; [reflexivity|]. split; [|split; [reflexivity|split; [exact RR|exact FF]]].
  transitivity L.
  - apply Permutation_sym. unfold L. destruct (mb_insert_remove_sub (m_t m) m (h_meas h) W) as [l1 [l2 [-> ->]]]. apply Permutation_sym, Permutation_middle.
  - apply Pm. intros k x J. apply IL in J. destruct J as [[= <- <-]|J]; [exact Ty|exact (T _ _ J)].
Qed.
(** which flag is the relevant one: an older flag outside the flag horizon is dropped unless all are outside *)
Example C47_example : flag_from 25 100 [(70, true); (80, true); (90, true)] 80 /\ ~ flag_from 25 100 [(70, true); (80, true); (90, true)] 70 /\
  flag_from 25 100 [(60, true); (70, true)] 60 /\ flag_from 25 100 [(80, true); (90, true)] 80.
Proof.
  repeat split.
  - exists true. right. now left.
  - left. split; [lia|]. intros k v H. cbn in H. intuition (try congruence); match goal with H : (_, _) = _ |- _ => injection H as <- <- end; lia.
  - intros [_ [[H _]|[_ H]]]; [lia|]. specialize (H 90 true). cbn in H. assert (90 < 100 - 25) by (apply H; auto). lia.
  - exists true. now left.
  - right. split; intros k v H; cbn in H; intuition (try congruence); match goal with H : (_, _) = _ |- _ => injection H as <- <- end; lia.
  - exists true. now left.
  - left. split; [lia|]. intros k v H. cbn in H. intuition (try congruence); match goal with H : (_, _) = _ |- _ => injection H as <- <- end; lia.
Qed.

(** ** C48 scheduled redo requests *)
Fixpoint schedule_all {B M P} (h : handler B M P) (reqs : list (Z * bool)) : outcome (handler B M P) :=
  match reqs with [] => Ok h | (t, after) :: r => let! h' := schedule_redo t after h in schedule_all h' r end.
(** pending requests: per time the last one requested, and nothing older than the newest request minus the request horizon *)
Theorem C48_pending :
  forall (B M P : Type) (h : handler B M P) (hzr : Z) (reqs : list (Z * bool)),
  h_redo h = [] -> denotes_ns (h_redo_max h) hzr -> 0 <= hzr < 2097151 * giga ->
  (forall e, In e reqs -> 0 <= fst e < 2097151 * giga) ->
  exists r, schedule_all h reqs = Ok (set_redo r h) /\
    strictly_chronological r /\
    forall t after, In (t, after) r <->
      (exists p q, reqs = p ++ (t, after) :: q /\ forall e, In e q -> fst e <> t) /\ (forall e, In e reqs -> fst e - hzr <= t).
Proof.
  intros B M P h hzr reqs Rd Dn Hh Hr.
  assert (Q : forall reqs (h : handler B M P), schedule_all h reqs = (let! r := hor_run hb_insert (h_redo_max h) (h_redo h) reqs in Ok (set_redo r h))).
  { clear. induction reqs as [|[t a] q IH]; intros h; cbn; [f_equal; apply handler_eta|]. unfold schedule_redo.
    destruct (check_horizon (h_redo_max h) (hb_insert t a (h_redo h))) as [r| |]; cbn [obind]; [|reflexivity|reflexivity]. rewrite IH. cbn. reflexivity. }
  rewrite Q, Rd, (hb_hor_run_exact _ hzr) by auto. cbn [obind].
  set (U := untrimmed hb_insert reqs). set (r := filter _ U). exists r. split; [reflexivity|].
  assert (SU : ssorted U /\ forall t after, In (t, after) U <-> exists p q, reqs = p ++ (t, after) :: q /\ forall e, In e q -> fst e <> t).
  { unfold U. clear. induction reqs as [|e p IH] using rev_ind.
    - split; [constructor|]. intros t a. split; [intros []|]. intros [p [q [E _]]]. destruct p; discriminate.
    - destruct IH as [S IH]. rewrite untrimmed_snoc. split; [now apply hb_insert_ssorted|]. intros t a. rewrite hb_insert_In by exact S. rewrite IH. split.
      + intros [[= -> ->]|[[p1 [q1 [-> H]]] N]].
        * exists p, []. split; [now destruct e|contradiction].
        * exists p1, (q1 ++ [e]). split; [now rewrite <- app_assoc|]. intros x I. apply in_app_or in I. destruct I as [I|[<-|[]]]; auto.
      + intros [p1 [q1 [Eq H]]]. destruct q1 as [|y q1] using rev_ind.
        * apply app_inj_tail in Eq. destruct Eq as [-> ->]. left. reflexivity.
        * clear IHq1. rewrite app_comm_cons, app_assoc in Eq. apply app_inj_tail in Eq. destruct Eq as [-> ->]. right.
          split; [|intros Q; apply (H y); [apply in_or_app; right; now left|now symmetry]].
          exists p1, q1. split; [reflexivity|]. intros x I. apply H. apply in_or_app. now left. }
  destruct SU as [SU IU]. assert (Sr : ssorted r) by now apply ssorted_filter. split.
  { clear - Sr. intros i j a b L Hi Hj. revert i j L Hi Hj. induction Sr as [|x q S IH F]; intros i j L Hi Hj; [destruct i; discriminate|].
    destruct i, j; cbn in *; try lia; [|apply (IH i j); auto; lia]. injection Hi as <-. rewrite Forall_forall in F. apply F. now apply nth_error_In in Hj. }
  intros t a. unfold r. rewrite filter_In, IU. cbn [fst]. rewrite Z.leb_le.
  assert (Nw : (newest reqs - hzr <= t <-> forall e, In e reqs -> fst e - hzr <= t) \/ reqs = []).
  { destruct reqs as [|e0 q0]; [now right|left]. unfold newest. 
    assert (G : forall (l : list (Z * bool)) a0, fold_left (fun m e => Z.max m (fst e)) l a0 - hzr <= t <-> (a0 - hzr <= t /\ forall e, In e l -> fst e - hzr <= t)).
    { clear. intros l. induction l as [|x l IH]; intros a0; cbn [fold_left]; [cbn; intuition|]. rewrite IH. split.
      - intros [A C]. split; [lia|]. intros e [<-|I]; [lia|auto].
      - intros [A C]. split; [specialize (C x (or_introl eq_refl)); lia|]. intros e I. apply C. now right. }
    rewrite G. split; [tauto|]. intros C. split; [|exact C]. pose proof (C e0 (or_introl eq_refl)). pose proof (Hr e0 (or_introl eq_refl)). lia. }
  destruct Nw as [Nw| ->]; [rewrite Nw; reflexivity|]. split; [intros [[p [q [Eq _]]] _]; destruct p; discriminate|intros [[p [q [Eq _]]] _]; destruct p; discriminate].
Qed.
(** the next accepted measurement first replays from the relevant pending request (after it, or from it, as requested),
    provided a stored measurement is older than the request, and forgets all requests; then it is processed as usual *)
Theorem C48_requests_served :
  forall (B M P : Type) (deleg : dict B M -> meas P -> dict B M * status) (hor : double) (hzr a t0 : Z) ops (h : handler B M P) m after,
  (forall o, In o ops -> never_raw_insert o) -> hrun deleg (new_handler hor) ops = Ok h ->
  exists_id (m_id m) h = true -> too_old m (h_meas h) = false ->
  get_latest_t (h_meas h) = Some a -> 0 <= a < 2097151 * giga ->
  denotes_ns (h_redo_max h) hzr -> 0 <= hzr < 2097151 * giga ->
  flag_from hzr a (h_redo h) t0 -> In (t0, after) (h_redo h) ->
  let cleared := set_redo [] h in
  let h1 := if existsb (fun e => fst e <? t0) (h_meas h) then fst ((if after then redo_after deleg t0 else redo_from deleg t0) cleared) else cleared in
  h_redo h1 = [] /\ h_meas h1 = h_meas h /\ (exists_id (m_id m) h1 = true -> process deleg m h = process deleg m h1).
Proof.
  intros B M P deleg hor hzr a t0 ops h m after N E Ex To La Ra Dn Hh Ff Ia cleared h1.
  pose proof (hrun_inv deleg ops _ h N (new_inv hor) E) as [[W [K S]] So Sr].
  assert (F1 : h_redo h1 = [] /\ h_meas h1 = h_meas h).
  { unfold h1. destruct (existsb _ _); [|split; reflexivity]. destruct after.
    - destruct (redo_after_fields deleg t0 cleared W) as [A1 [A2 _]]. rewrite A1, A2. split; reflexivity.
    - destruct (redo_from_fields deleg t0 cleared W) as [A1 [A2 _]]. rewrite A1, A2. split; reflexivity. }
  destruct F1 as [F1 F2]. split; [exact F1|]. split; [exact F2|]. intros Ex1.
  assert (SR : serve_requests deleg h = Ok h1).
  { unfold serve_requests. rewrite La. rewrite (check_from_exact _ hzr) by (auto; now apply ssorted_w). cbn [obind].
    pose proof (trimmed_oldest hzr a (h_redo h) t0 Sr Ff) as Ot. set (r := if existsb _ (h_redo h) then _ else _) in *.
    assert (Sub : forall e, In e r -> In e (h_redo h)) by (intros e I; unfold r in I; destruct (existsb _ _) in I; [apply filter_In in I; tauto|exact I]).
    unfold get_oldest_t in Ot. destruct (get_oldest r) as [[t1 af]|] eqn:G; [|discriminate]. cbn in Ot. injection Ot as ->.
    assert (In (t0, af) (h_redo h)). { apply Sub. unfold get_oldest in G. destruct r as [|x q]; [discriminate|]. injection G as <-. now left. }
    assert (af = after). { apply (get_at_iff t0 _ (h_redo h) Sr) in H. apply (get_at_iff t0 _ (h_redo h) Sr) in Ia. congruence. } subst af.
    destruct (nonempty_oldest (h_meas h)) as [o Eo]; [intros Q; rewrite Q in La; discriminate|]. rewrite Eo. destruct (oldest_t_spec _ _ W Eo) as [[w Io] Mo].
    unfold h1. replace (existsb (fun e => fst e <? t0) (h_meas h)) with (o <? t0); [destruct (o <? t0); [destruct after; reflexivity|reflexivity]|].
    destruct (Z.ltb_spec o t0) as [L|L]; symmetry.
    - apply existsb_exists. exists (o, w). split; [exact Io|cbn; lia].
    - apply not_true_is_false. intros X. apply existsb_exists in X. destruct X as [e [Ie Le]]. specialize (Mo e Ie). lia. }
  assert (SR1 : serve_requests deleg h1 = Ok h1).
  { unfold serve_requests. rewrite F1. cbn [check_horizon_from_t empty negb obind get_oldest]. f_equal. unfold set_redo. rewrite <- F1. symmetry. apply handler_eta. }
  unfold process, process_gen. rewrite Ex, Ex1, F2, To, SR, SR1. reflexivity.
Qed.
(** requests at one time: the last one wins, even when that replays less *)
Example C48_example : forall (h : handler Z unit Z), h_redo h = [] ->
  check_horizon (h_redo_max h) [(7, false)] = Ok [(7, false)] -> check_horizon (h_redo_max h) [(7, true)] = Ok [(7, true)] ->
  schedule_all h [(7, false); (7, true)] = Ok (set_redo [(7, true)] h).
Proof. intros h E A C. cbn. unfold schedule_redo. rewrite E. cbn. rewrite A. cbn. rewrite C. reflexivity. Qed.

(** ** C42 arrival order *)
(** the assumptions on a set of measurements for a handler with horizon hz and flag horizon hzo whose instances d0 hold
    beliefs older than lo *)
Definition processable {B M P} (good : dict B M -> Prop) (okm : meas P -> Prop) (deleg : dict B M -> meas P -> dict B M * status) (d0 : dict B M) (lo wa wb hz hzo tmax slack : Z) (ms : list (meas P)) : Prop :=
  (forall m, In m ms -> m_ty m <> UNKNOWN /\ lo <= m_t m < tmax /\ (wa <= m_t m <= wb /\ okm m) /\
     exists i, d_find (m_id m) d0 = Some i /\ i_enabled i = true) /\
  (forall x y, In x ms -> In y ms -> m_t x - m_t y <= hz - slack) /\
  ((forall d m, wf wa wb d -> good d -> wa <= m_t m <= wb -> okm m -> snd (deleg d m) <> OUTOFORDER) \/ (forall x y, In x ms -> In y ms -> m_t x - m_t y <= hzo - slack)).
(** instances hold at least one belief each and nothing at or after lo *)
Definition initialised {B M} (lo : Z) (d0 : dict B M) : Prop :=
  forall e, In e d0 -> (exists k v, bel_at k (snd e) = Some v) /\
    (forall k, lo <= k -> bel_at k (snd e) = None) /\ (forall j k, lo <= k -> ccf_at j k (snd e) = None).

Theorem C42_arrival_order_irrelevant :
  forall (B M P : Type) (good : dict B M -> Prop) (okm : meas P -> Prop)
    (deleg : dict B M -> meas P -> dict B M * status) (wa wb lo hz hzo tmax slack : Z) (h : handler B M P)
    (m0 : meas P) (rest inorder : list (meas P)),
  clock tmax slack -> contract wa wb good okm deleg ->
  wf wa wb (h_dict h) -> good (h_dict h) -> initialised lo (h_dict h) -> h_meas h = [] -> h_ooo h = [] -> h_redo h = [] ->
  denotes_ns (h_max h) hz -> 0 <= hz < 2097151 * giga -> denotes_ns (h_ooo_max h) hzo -> 0 <= hzo < 2097151 * giga -> 0 <= lo ->
  processable good okm deleg (h_dict h) lo wa wb hz hzo tmax slack (m0 :: rest) ->
  (forall m, In m rest -> m_t m0 + slack < m_t m) ->         (* the first arrival is the oldest *)
  stable_sort (m0 :: rest) inorder ->
  exists h1 h2, process_all deleg h (m0 :: rest) = Ok h1 /\ process_all deleg h inorder = Ok h2 /\
    same (h_dict h1) (h_dict h2) /\ h_meas h1 = map (fun m => (m_t m, m)) inorder /\ h_meas h2 = h_meas h1 /\ h_ooo h1 = h_ooo h2.
Proof.
  intros B M P good okm deleg wa wb lo hz hzo tmax slack h m0 rest ord Ck C W G In0 Hm Ho Hr Dn Hh Dno Hho Lo Pr Old [Ss [Pm St]].
  destruct (clock_bounds tmax slack Ck) as [Hs _].
  assert (An : forall e, In e (h_dict h) -> exists k v, k < lo /\ bel_at k (snd e) = Some v).
  { intros e I. destruct (In0 e I) as [[k [v Ev]] [Nb _]]. exists k, v. split; [|exact Ev]. destruct (Z_lt_dec k lo) as [Q|Q]; [exact Q|]. rewrite Nb in Ev; [discriminate|lia]. }
  assert (Be : below lo (h_dict h)) by (intros e I; destruct (In0 e I) as [_ Q]; exact Q).
  assert (F : fit deleg wa wb good okm (h_dict h) lo hz hzo tmax slack (m0 :: rest)).
  { destruct Pr as [A [B' D]]. split; [exact A|]. split; [exact B'|]. destruct D as [D|D]; [left|right; exact D]. intros d m [Wd Gd] [Wm Om]. now apply D. }
  assert (F2 : fit deleg wa wb good okm (h_dict h) lo hz hzo tmax slack ord) by (eapply fit_perm; [exact Pm|exact F]).
  assert (Hd : exists r, ord = m0 :: r /\ forall m, In m r -> m_t m0 + slack < m_t m).
  { assert (I0 : In m0 ord) by (apply (Permutation_in _ Pm); now left). destruct ord as [|x r]; [contradiction|].
    assert (x = m0).
    { destruct I0 as [->|I0]; [reflexivity|]. inversion Ss as [|? ? Sr Fr]; subst. rewrite Forall_forall in Fr. specialize (Fr m0 I0).
      assert (Ix : In x (m0 :: rest)) by (apply (Permutation_in _ (Permutation_sym Pm)); now left). destruct Ix as [->|Ix]; [reflexivity|].
      specialize (Old x Ix). unfold mle in Fr. lia. }
    subst x. exists r. split; [reflexivity|]. intros m I. apply Old. apply Permutation_cons_inv in Pm. exact (Permutation_in _ (Permutation_sym Pm) I). }
  destruct Hd as [r [-> Old2]].
  destruct (process_all_exact deleg wa wb good okm C (h_dict h) lo hz hzo tmax slack Ck (conj W G) An Be Hh Hho Lo h m0 rest eq_refl Hm Ho Hr Dn Dno F Old) as [h1 [E1 [V1 _]]].
  destruct (process_all_exact deleg wa wb good okm C (h_dict h) lo hz hzo tmax slack Ck (conj W G) An Be Hh Hho Lo h m0 r eq_refl Hm Ho Hr Dn Dno F2 Old2) as [h2 [E2 [V2 _]]].
  change (fold_left (fun l m => rinsert m l) (m0 :: rest) []) with (chrono (m0 :: rest)) in V1.
  change (fold_left (fun l m => rinsert m l) (m0 :: r) []) with (chrono (m0 :: r)) in V2.
  rewrite (chrono_stable (m0 :: rest) (m0 :: r) Ss St) in V1. rewrite (chrono_id (m0 :: r) Ss) in V2.
  exists h1, h2. destruct V1 as [A1 A2 A3 A4 A5 A6], V2 as [B1 B2 B3 B4 B5 B6]. repeat split; auto.
  - eapply same_trans; [exact A5|]. now apply same_sym.
  - now rewrite A1, B1.
  - now rewrite A6, B6.
Qed.
(** the in-order run starts with the oldest measurement *)
Lemma inorder_head {P} slack (m0 : meas P) rest ord : 0 <= slack -> stable_sort (m0 :: rest) ord -> (forall m, In m rest -> m_t m0 + slack < m_t m) ->
  exists r, ord = m0 :: r /\ Permutation rest r /\ forall m, In m r -> m_t m0 + slack < m_t m.
Proof.
  intros Hs [Ss [Pm St]] Old.
  assert (I0 : In m0 ord) by (apply (Permutation_in _ Pm); now left). destruct ord as [|x r]; [contradiction|].
  assert (x = m0).
  { destruct I0 as [->|I0]; [reflexivity|]. inversion Ss as [|? ? Sr Fr]; subst. rewrite Forall_forall in Fr. specialize (Fr m0 I0).
    assert (Ix : In x (m0 :: rest)) by (apply (Permutation_in _ (Permutation_sym Pm)); now left). destruct Ix as [->|Ix]; [reflexivity|].
    specialize (Old x Ix). unfold mle in Fr. lia. }
  subst x. apply Permutation_cons_inv in Pm. exists r. split; [reflexivity|]. split; [exact Pm|]. intros m I. apply Old. exact (Permutation_in _ (Permutation_sym Pm) I).
Qed.
(** estimators that agree on contents and measurements meeting the contract's conditions give the same run *)
Lemma agreeing_runs :
  forall (B M P : Type) (good : dict B M -> Prop) (okm : meas P -> Prop)
    (deleg deleg' : dict B M -> meas P -> dict B M * status) (wa wb lo hz hzo tmax slack : Z) (h : handler B M P) (m0 : meas P) (rest : list (meas P)),
  clock tmax slack -> contract wa wb good okm deleg ->
  (forall d m, wf wa wb d -> good d -> wa <= m_t m <= wb -> okm m -> deleg' d m = deleg d m) ->
  wf wa wb (h_dict h) -> good (h_dict h) -> initialised lo (h_dict h) -> h_meas h = [] -> h_ooo h = [] -> h_redo h = [] ->
  denotes_ns (h_max h) hz -> 0 <= hz < 2097151 * giga -> denotes_ns (h_ooo_max h) hzo -> 0 <= hzo < 2097151 * giga -> 0 <= lo ->
  processable good okm deleg (h_dict h) lo wa wb hz hzo tmax slack (m0 :: rest) ->
  (forall m, In m rest -> m_t m0 + slack < m_t m) ->
  exists h1, process_all deleg h (m0 :: rest) = Ok h1 /\ process_all deleg' h (m0 :: rest) = Ok h1 /\ wf wa wb (h_dict h1) /\ good (h_dict h1).
Proof.
  intros B M P good okm deleg deleg' wa wb lo hz hzo tmax slack h m0 rest Ck C Ag W G In0 Hm Ho Hr Dn Hh Dno Hho Lo Pr Old.
  assert (An : forall e, In e (h_dict h) -> exists k v, k < lo /\ bel_at k (snd e) = Some v).
  { intros e I. destruct (In0 e I) as [[k [v Ev]] [Nb _]]. exists k, v. split; [|exact Ev]. destruct (Z_lt_dec k lo) as [Q|Q]; [exact Q|]. rewrite Nb in Ev; [discriminate|lia]. }
  assert (Be : below lo (h_dict h)) by (intros e I; destruct (In0 e I) as [_ Q]; exact Q).
  assert (F : fit deleg wa wb good okm (h_dict h) lo hz hzo tmax slack (m0 :: rest)).
  { destruct Pr as [A [B' D]]. split; [exact A|]. split; [exact B'|]. destruct D as [D|D]; [left|right; exact D]. intros d m [Wd Gd] [Wm Om]. now apply D. }
  destruct (process_all_exact deleg wa wb good okm C (h_dict h) lo hz hzo tmax slack Ck (conj W G) An Be Hh Hho Lo h m0 rest eq_refl Hm Ho Hr Dn Dno F Old) as [h1 [E1 [V1 _]]].
  exists h1. split; [exact E1|]. split; [|exact (v_wf _ _ _ _ _ _ _ V1)].
  rewrite <- E1. rewrite <- process_all'_eq.
  apply (process_all_agree deleg wa wb good okm C (h_dict h) lo hz hzo tmax slack Ck (conj W G) An Be Hh Hho Lo deleg') with (l := []); auto.
  - intros d m [Wd Gd] [Wm Om]. now apply Ag.
  - constructor; rewrite ?Hm, ?Ho, ?Hr; try reflexivity; [constructor|split; assumption|apply same_refl].
Qed.
(** without two measurements of the same time and type every two arrival orders that start with the oldest agree *)
Corollary C42_any_two_orders :
  forall (B M P : Type) (good : dict B M -> Prop) (okm : meas P -> Prop)
    (deleg : dict B M -> meas P -> dict B M * status) (wa wb lo hz hzo tmax slack : Z) (h : handler B M P)
    (m0 : meas P) (rest rest' : list (meas P)),
  clock tmax slack -> contract wa wb good okm deleg ->
  wf wa wb (h_dict h) -> good (h_dict h) -> initialised lo (h_dict h) -> h_meas h = [] -> h_ooo h = [] -> h_redo h = [] ->
  denotes_ns (h_max h) hz -> 0 <= hz < 2097151 * giga -> denotes_ns (h_ooo_max h) hzo -> 0 <= hzo < 2097151 * giga -> 0 <= lo ->
  processable good okm deleg (h_dict h) lo wa wb hz hzo tmax slack (m0 :: rest) ->
  (forall m, In m rest -> m_t m0 + slack < m_t m) ->
  NoDup (map (fun m => (m_t m, m_ty m)) rest) -> Permutation rest rest' ->
  exists h1 h2, process_all deleg h (m0 :: rest) = Ok h1 /\ process_all deleg h (m0 :: rest') = Ok h2 /\
    same (h_dict h1) (h_dict h2) /\ h_meas h1 = h_meas h2 /\ h_ooo h1 = h_ooo h2.
Proof.
  intros B M P good okm deleg wa wb lo hz hzo tmax slack h m0 rest rest' Ck C W G In0 Hm Ho Hr Dn Hh Dno Hho Lo Pr Old ND Pm.
  assert (Pm' : Permutation (m0 :: rest) (m0 :: rest')) by now constructor.
  assert (Old' : forall m, In m rest' -> m_t m0 + slack < m_t m) by (intros m I; apply Old; exact (Permutation_in _ (Permutation_sym Pm) I)).
  assert (Pr' : processable good okm deleg (h_dict h) lo wa wb hz hzo tmax slack (m0 :: rest')).
  { assert (I : forall x, In x (m0 :: rest') -> In x (m0 :: rest)) by (intros x; apply Permutation_in; now apply Permutation_sym).
    destruct Pr as [A [B' D]]. split; [auto|]. split; [auto|]. destruct D as [D|D]; [now left|right; auto]. }
  assert (SS : forall ms, stable_sort (P:=P) ms (chrono ms)).
  { intros ms. split; [apply fold_sorted; constructor|]. split; [apply (fold_perm ms [])|]. intros t ty. unfold chrono. now rewrite fold_slot by constructor. }
  destruct (C42_arrival_order_irrelevant B M P good okm deleg wa wb lo hz hzo tmax slack h m0 rest (chrono (m0 :: rest)) Ck C W G In0 Hm Ho Hr Dn Hh Dno Hho Lo Pr Old (SS _)) as [h1 [h2 [E1 [E2 [S1 [M1 [M2 O1]]]]]]].
  assert (ST : stable_sort (m0 :: rest') (chrono (m0 :: rest))).
  { destruct (SS (m0 :: rest)) as [A1 [A2 A3]]. split; [exact A1|]. split; [now apply Permutation_trans with (m0 :: rest)|].
    intros t ty. rewrite A3. unfold slot. cbn [filter]. assert (Q : filter (fun x => (m_t x =? t) && obs_eqb (m_ty x) ty) rest = filter (fun x => (m_t x =? t) && obs_eqb (m_ty x) ty) rest'); [|now rewrite Q].
    assert (PF : Permutation (filter (fun x => (m_t x =? t) && obs_eqb (m_ty x) ty) rest) (filter (fun x => (m_t x =? t) && obs_eqb (m_ty x) ty) rest')).
    { clear - Pm. induction Pm; cbn; [constructor| | |eapply Permutation_trans; eauto].
      - destruct (_ && _); [now constructor|assumption].
      - destruct ((m_t y =? t) && _), ((m_t x =? t) && _); try apply Permutation_refl. apply perm_swap. }
    assert (L1 : (length (filter (fun x => (m_t x =? t)%Z && obs_eqb (m_ty x) ty) rest) <= 1)%nat).
    { clear - ND. induction rest as [|x r IH]; cbn; [lia|]. cbn in ND. apply NoDup_cons_iff in ND. destruct ND as [N1 ND].
      destruct ((m_t x =? t) && obs_eqb (m_ty x) ty) eqn:X; [|now apply IH]. rewrite filter_all_false; [cbn; lia|]. rewrite Forall_forall. intros y I.
      destruct ((m_t y =? t) && obs_eqb (m_ty y) ty) eqn:Y; [|reflexivity]. exfalso. apply N1. apply in_map_iff. exists y. split; [|exact I].
      apply andb_true_iff in X, Y. destruct X as [X1 X2], Y as [Y1 Y2]. apply obs_eqb_iff in X2, Y2. f_equal; [lia|congruence]. }
    destruct (filter _ rest) as [|x [|y q]]; cbn in L1; [| |lia].
    - apply Permutation_nil in PF. now rewrite PF.
    - apply Permutation_length_1_inv in PF. now rewrite PF. }
  destruct (C42_arrival_order_irrelevant B M P good okm deleg wa wb lo hz hzo tmax slack h m0 rest' (chrono (m0 :: rest)) Ck C W G In0 Hm Ho Hr Dn Hh Dno Hho Lo Pr' Old' ST) as [h3 [h4 [E3 [E4 [S3 [M3 [M4 O3]]]]]]].
  rewrite E2 in E4. injection E4 as <-. exists h1, h3. split; [exact E1|]. split; [exact E3|].
  split; [eapply same_trans; [exact S1|now apply same_sym]|]. split; [congruence|congruence].
Qed.

(** an estimator meeting the contract: the belief at the measurement's time is the previous belief plus the measurement, and a
    negative measurement is reported out of order *)
Definition ex_prev (t : Z) (b : buf Z) : Z := match get_at_t t b with Some v => v | None => match get_before_t t b with Some e => snd e | None => 0 end end.
Definition ex_deleg (d : dict Z unit) (m : meas Z) : dict Z unit * status :=
  (map (fun e => if (fst e =? m_id m)%nat then (fst e, Inst (i_enabled (snd e)) (hb_insert (m_t m) (ex_prev (m_t m) (i_bel (snd e)) + m_dat m) (i_bel (snd e))) (i_ccf (snd e))) else e) d,
   if m_dat m <? 0 then OUTOFORDER else PROCESSED).
Lemma pointwise_eq {T} (b b' : buf T) : ssorted b -> ssorted b' -> (forall k, get_at_t k b = get_at_t k b') -> b = b'.
Proof.
  intros S S' H. apply wsorted_ext; try now apply ssorted_w. intros s.
  assert (Q : forall l : buf T, ssorted l -> elements_at s l = match get_at_t s l with Some v => [(s, v)] | None => [] end).
  { clear. intros l. induction 1 as [|[k v] r S IH F]; [reflexivity|]. unfold elements_at in *. cbn [filter fst].
    rewrite get_at_first in *. cbn [find fst]. destruct (Z.eqb_spec k s) as [->|N]; [|exact IH]. cbn. f_equal. apply filter_all_false.
    rewrite Forall_forall in *. intros e I. specialize (F e I). unfold klt in F. cbn in F. lia. }
  now rewrite !Q, H.
Qed.
Lemma get_at_insert {T} t (v : T) b k : ssorted b -> get_at_t k (hb_insert t v b) = if k =? t then Some v else get_at_t k b.
Proof.
  intros S. apply opt_ext. intros w. rewrite get_at_iff by now apply hb_insert_ssorted. rewrite hb_insert_In by exact S. destruct (Z.eqb_spec k t) as [->|N].
  - split; [intros [[= ->]|[_ Q]]; [reflexivity|cbn in Q; congruence]|intros [= ->]; now left].
  - rewrite get_at_iff by exact S. split; [intros [[= Q _]|[I _]]; [congruence|exact I]|intros I; right; split; [exact I|exact N]].
Qed.
Notation anything := (fun _ => True).
Lemma ex_contract wa wb : contract wa wb anything anything ex_deleg.
Proof.
  split.
  - easy.
  - intros d m [W0 W] _ N _. split; [|exact I]. split.
    { cbn. rewrite map_map. replace (map _ d) with (map fst d); [exact W0|]. apply map_ext. intros x. now destruct (fst x =? m_id m)%nat. }
    intros e I. cbn in I. apply in_map_iff in I. destruct I as [x [<- I]]. destruct (W x I) as [[S1 S2] S3].
    destruct (fst x =? m_id m)%nat; [|now split]. split; cbn; [|exact S3]. split; [now apply hb_insert_ssorted|].
    intros y J. apply hb_insert_In in J; [|exact S1]. destruct J as [->|[J _]]; [exact N|auto].
  - intros d m [_ W] _ N _. cbn. assert (forall e, In e d -> wf_inst wa wb (snd e)) by exact W. clear W. induction d as [|[k i] r IH]; constructor; [|apply IH; intros e I; apply H; now right].
    destruct (H (k, i) (or_introl eq_refl)) as [[S1 _] _]. cbn [fst snd] in *. destruct (k =? m_id m)%nat; split; try reflexivity; cbn [snd]; [|repeat split].
    split; [reflexivity|]. split; [|reflexivity]. intros q Q. unfold bel_at. cbn [i_bel]. rewrite get_at_insert by exact S1. now destruct (Z.eqb_spec q (m_t m)).
  - intros d d' m [_ W] _ [_ W'] _ N _ S. split; [|reflexivity]. cbn. induction S as [|[k i] [k' i'] r r' [E [E1 [E2 E3]]] F IH]; constructor.
    + cbn [fst snd] in *. subst k'. destruct (W (k, i) (or_introl eq_refl)) as [[S1 _] _]. destruct (W' (k, i') (or_introl eq_refl)) as [[S1' _] _]. cbn [snd] in *.
      assert (Eb : i_bel i = i_bel i') by now apply pointwise_eq. destruct (k =? m_id m)%nat; (split; [reflexivity|]); cbn [snd]; [|split; auto].
      split; [exact E1|]. unfold bel_at, ccf_at in *. cbn. rewrite Eb. split; [reflexivity|exact E3].
    + apply IH; intros e I; [apply W|apply W']; now right.
  - intros d m _. cbn. destruct (m_dat m <? 0); discriminate.
Qed.
(** a delayed private measurement with an out-of-order one pending, on two instances: all hypotheses hold *)
Definition ex_d0 : dict Z unit := [(0%nat, Inst true [(1, 100)] []); (1%nat, Inst true [(2, 50)] [])].
Definition ex_m0 : meas Z := Meas 0 10 PROPAGATION 1.
Definition ex_rest : list (meas Z) := [Meas 1 30 PROPAGATION 5; Meas 0 20 PRIVATE 2; Meas 1 40 PRIVATE (-1); Meas 0 30 PRIVATE 3].
Lemma ex_processable : processable anything anything ex_deleg ex_d0 10 0 1000 1000 1000 (2097151 * giga) 0 (ex_m0 :: ex_rest).
Proof.
  unfold processable, giga. cbn. split; [|split].
  - intros m H. repeat (destruct H as [<-|H]); try contradiction; cbn; (split; [discriminate|split; [lia|split; [lia|eauto]]]).
  - intros x y Hx Hy. repeat (destruct Hx as [<-|Hx]; [repeat (destruct Hy as [<-|Hy]; [cbn; lia|]); contradiction|]); contradiction.
  - right. intros x y Hx Hy. repeat (destruct Hx as [<-|Hx]; [repeat (destruct Hy as [<-|Hy]; [cbn; lia|]); contradiction|]); contradiction.
Qed.
Example C42_example :
  contract 0 1000 anything anything ex_deleg /\ wf 0 1000 ex_d0 /\ initialised 10 ex_d0 /\ processable anything anything ex_deleg ex_d0 10 0 1000 1000 1000 (2097151 * giga) 0 (ex_m0 :: ex_rest) /\
  (forall m, In m ex_rest -> m_t ex_m0 < m_t m) /\ NoDup (map (fun m => (m_t m, m_ty m)) ex_rest) /\
  stable_sort (ex_m0 :: ex_rest) [ex_m0; Meas 0 20 PRIVATE 2; Meas 1 30 PROPAGATION 5; Meas 0 30 PRIVATE 3; Meas 1 40 PRIVATE (-1)].
Proof.
  split; [apply ex_contract|]. split.
  { split; [repeat constructor; cbn; intuition congruence|].
    intros e [<-|[<-|[]]]; cbn; (split; [split; [repeat constructor|intros x [<-|[]]; cbn; lia]|split; [intros j b []|constructor]]). }
  split.
  { intros e [<-|[<-|[]]]; cbn; (split; [|split; [|reflexivity]]).
    - exists 1, 100. reflexivity.
    - intros k L. unfold bel_at. rewrite get_at_first. cbn [snd i_bel find fst]. destruct (Z.eqb_spec 1 k); [lia|reflexivity].
    - exists 2, 50. reflexivity.
    - intros k L. unfold bel_at. rewrite get_at_first. cbn [snd i_bel find fst]. destruct (Z.eqb_spec 2 k); [lia|reflexivity]. }
  split; [apply ex_processable|]. split; [intros m H; cbn in H; repeat (destruct H as [<-|H]); try contradiction; cbn; lia|].
  split; [repeat constructor; cbn; intuition congruence|].
  split; [repeat constructor; unfold mle; cbn; lia|].
  assert (E : chrono (ex_m0 :: ex_rest) = [ex_m0; Meas 0 20 PRIVATE 2; Meas 1 30 PROPAGATION 5; Meas 0 30 PRIVATE 3; Meas 1 40 PRIVATE (-1)]) by reflexivity.
  rewrite <- E. split; [apply (fold_perm (ex_m0 :: ex_rest) [])|]. intros t ty. unfold chrono. now rewrite fold_slot by constructor.
Qed.
(** the same in November 2023, wall-clock nanoseconds, with a horizon of a second *)
Definition e0 : Z := 1700000000 * 1000000000.
Definition ex_epoch0 : meas Z := Meas 0 (e0 + 10000) PROPAGATION 1.
Definition ex_epoch : list (meas Z) := [Meas 1 (e0 + 30000) PROPAGATION 5; Meas 0 (e0 + 20000) PRIVATE 2; Meas 0 (e0 + 30001) PRIVATE 3].
Example C42_epoch_example :
  clock (2147483647 * 1000000000) 1000 /\ contract e0 (e0 + 1000000) anything anything ex_deleg /\
  processable anything anything ex_deleg ex_d0 (e0 + 10000) e0 (e0 + 1000000) (1 * giga) (1 * giga) (2147483647 * 1000000000) 1000 (ex_epoch0 :: ex_epoch) /\
  (forall m, In m ex_epoch -> m_t ex_epoch0 + 1000 < m_t m) /\ NoDup (map (fun m => (m_t m, m_ty m)) ex_epoch).
Proof.
  split; [right; split; reflexivity|]. split; [apply ex_contract|]. unfold ex_epoch, ex_epoch0, giga, e0. split; [|split].
  - split; [|split; [|right]].
    + intros m H. repeat (destruct H as [<-|H]); try contradiction; cbn [m_t m_ty m_id]; (split; [discriminate|split; [lia|split; [lia|eexists; split; reflexivity]]]).
    + intros x y Hx Hy. repeat (destruct Hx as [<-|Hx]; [repeat (destruct Hy as [<-|Hy]; [cbn [m_t]; lia|]); contradiction|]); contradiction.
    + intros x y Hx Hy. repeat (destruct Hx as [<-|Hx]; [repeat (destruct Hy as [<-|Hy]; [cbn [m_t]; lia|]); contradiction|]); contradiction.
  - intros m H. repeat (destruct H as [<-|H]); try contradiction; cbn [m_t]; lia.
  - cbn [map m_t m_ty]. repeat constructor; cbn [In]; intros H; repeat (destruct H as [H|H]); try contradiction; injection H; intros; lia || discriminate.
Qed.
(** with two measurements of the same time and type the arrival order decides *)
Theorem C42_distinct_slots_needed :
  exists d1 d2 r1 r2, d1 <> d2 /\
    fold_left (replay_step (B:=Z) (M:=unit) (P:=Z) (fun d m => (map (fun e => (fst e, Inst true (hb_insert (m_t m) (2 * ex_prev (m_t m) (i_bel (snd e)) + m_dat m) (i_bel (snd e))) [])) d, PROCESSED)))
      [Meas 0 5 PRIVATE 1; Meas 0 5 PRIVATE 3] ([(0%nat, Inst true [(0, 1)] [])], [], []) = (d1, [], r1) /\
    fold_left (replay_step (fun d m => (map (fun e => (fst e, Inst true (hb_insert (m_t m) (2 * ex_prev (m_t m) (i_bel (snd e)) + m_dat m) (i_bel (snd e))) [])) d, PROCESSED)))
      [Meas 0 5 PRIVATE 3; Meas 0 5 PRIVATE 1] ([(0%nat, Inst true [(0, 1)] [])], [], []) = (d2, [], r2).
Proof. eexists _, _, _, _. split; [|split; reflexivity]. cbn. discriminate. Qed.

(** ** a whole run (C41, C44, C48): out-of-order arrivals, a too old one, a scheduled replay *)
Definition ex_ops : list (@hop Z unit Z) :=
  [OAdd 0 (Inst true [(1, 100)] []); OAdd 1 (Inst true [(2, 50)] []);
   OProcess (Meas 0 10 PROPAGATION 1); OProcess (Meas 1 30 PRIVATE 5); OProcess (Meas 0 20 PRIVATE 2); OProcess (Meas 1 40 PRIVATE 1);
   OProcess (Meas 0 30 PROPAGATION 3); OProcess (Meas 0 5 PRIVATE 7); OSchedule 20 false; OProcess (Meas 0 30 JOINT 4)].
Definition ex_hist (o : outcome (handler Z unit Z)) :=
  match o with Ok h => Some (map snd (h_meas h), map (fun e => (fst e, i_bel (snd e))) (h_dict h), h_redo h) | _ => None end.
Example C41_example : (forall o, In o ex_ops -> never_raw_insert o) /\
  ex_hist (hrun ex_deleg (new_handler (d_of_Z 10)) ex_ops) =
  Some ([Meas 0 10 PROPAGATION 1; Meas 0 20 PRIVATE 2; Meas 0 30 PROPAGATION 3; Meas 1 30 PRIVATE 5; Meas 0 30 JOINT 4; Meas 1 40 PRIVATE 1],
        [(1%nat, [(2, 50); (30, 55); (40, 56)]); (0%nat, [(1, 100); (10, 101); (20, 103); (30, 110)])], []).
Proof. split; [intros o H; cbn in H; repeat (destruct H as [<-|H]); try contradiction; exact I|]. vm_compute. reflexivity. Qed.

Print Assumptions C42_arrival_order_irrelevant.
Print Assumptions C42_any_two_orders.
Print Assumptions C47_flags_consumed.
Print Assumptions C48_pending.
Print Assumptions C48_requests_served.
Print Assumptions C49_registry_map.
Print Assumptions C49_return_values.
Print Assumptions C58_relaxed_exact.
Print Assumptions C58_relaxed_implies_strict.
