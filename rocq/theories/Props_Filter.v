(** Properties C30, C31, C32, C60, C61: the single filter. *)
From Coq Require Import ZArith List Bool Lia Sorted Permutation.
From Flocq Require Import IEEE754.BinarySingleNaN.
From Verif Require Import Outcome TimestampModel DoubleModel BufModel Spec_Time Spec_Buf BufProofs HorizonModel HorizonProofs
  MeasModel FilterModel FilterProofs Props_Buffers.
From Verif Require Spec_Handler ClockProofs.
Import ListNotations.
Local Open Scope Z_scope.

(** ** Specification vocabulary *)
(** a filter state reachable from construction by any sequence of public calls *)
Definition reachable {B P} prop_cb priv_cb predict_cb (f : filt B P) : Prop :=
  exists h delayed ops, frun prop_cb priv_cb predict_cb (new_filter h delayed) ops = Ok f.
(** processing a list of measurements one after the other: each is handed to the callback of its type and yields one
    result carrying its time *)
Inductive handled {B P} (prop_cb priv_cb : buf B -> meas P -> list (hb_op B) * status) :
  buf B -> list (meas P) -> buf B -> list result -> Prop :=
| HNil b : handled prop_cb priv_cb b [] b []
| HProp b m ms ops s b' rs : m_ty m = PROPAGATION -> prop_cb b m = (ops, s) ->
    handled prop_cb priv_cb (fold_left hb_step ops b) ms b' rs ->
    handled prop_cb priv_cb b (m :: ms) b' (Res s (m_t m) :: rs)
| HPriv b m ms ops s b' rs : m_ty m = PRIVATE -> priv_cb b m = (ops, s) ->
    handled prop_cb priv_cb (fold_left hb_step ops b) ms b' rs ->
    handled prop_cb priv_cb b (m :: ms) b' (Res s (m_t m) :: rs)
| HOther b m ms b' rs : m_ty m = JOINT \/ m_ty m = UNKNOWN ->
    handled prop_cb priv_cb b ms b' rs ->
    handled prop_cb priv_cb b (m :: ms) b' (Res DISCARED (m_t m) :: rs).

Section Props.
Context {B P : Type}.
Variable prop_cb priv_cb : buf B -> meas P -> list (hb_op B) * status.
Variable predict_cb : buf B -> Z -> list (hb_op B) * bool.
Notation process := (process_measurement prop_cb priv_cb).
Notation redo := (redo_updates_after_t prop_cb priv_cb).
Notation reach := (reachable prop_cb priv_cb predict_cb).
Implicit Types (f : filt B P) (m : meas P).

Lemma reach_inv f : reach f -> finv f.
Proof. intros [h [d [ops R]]]. eapply run_inv; [apply (new_inv h d)|exact R]. Qed.

(** ** C30 *)
Theorem C30_joint_and_unknown_discarded : forall f m,
  m_ty m = JOINT \/ m_ty m = UNKNOWN -> process m f = Ok (f, [Res DISCARED (m_t m)]).
Proof.
  intros f m T. unfold process_measurement, delegate.
  destruct f as [b l d h]. cbn [f_bel f_meas f_delayed f_hor_meas].
  destruct T as [-> | ->]; destruct d; reflexivity.
Qed.
(** the callback of the type decides the first result; nothing but its belief operations happens unless it reports
    out-of-order with later measurements stored; storage exactly if delayed handling is on and not DISCARED *)
Theorem C30_routed : forall f m ops s f' vec,
  m_ty m = PROPAGATION /\ prop_cb (f_bel f) m = (ops, s) \/ m_ty m = PRIVATE /\ priv_cb (f_bel f) m = (ops, s) ->
  process m f = Ok (f', vec) ->
  (exists rest, vec = Res s (m_t m) :: rest) /\
  (f_delayed f = false \/ s <> OUTOFORDER \/ (forall e, In e (f_meas f) -> fst e <= m_t m) ->
     f_bel f' = fold_left hb_step ops (f_bel f) /\ vec = [Res s (m_t m)]) /\
  (f_delayed f = true -> s <> DISCARED -> wsorted (f_meas f) ->
     check_horizon (f_hor_meas f) (mb_insert (m_t m) m (f_meas f)) = Ok (f_meas f')) /\
  (f_delayed f = false \/ s = DISCARED -> wsorted (f_meas f) -> f_meas f' = f_meas f).
Proof.
  intros f m ops s f' vec T. unfold process_measurement.
  assert (D : delegate prop_cb priv_cb (f_bel f) m = (fold_left hb_step ops (f_bel f), Res s (m_t m))).
  { unfold delegate, apply_ops. destruct T as [[-> ->] | [-> ->]]; reflexivity. }
  rewrite D. clear D T. destruct (f_delayed f) eqn:Ed.
  2:{ intros [= <- <-]. cbn. repeat split; eauto; congruence. }
  cbn [r_status f_meas].
  set (f1 := Filt _ _ _ _). destruct (is_ooo s && exist_after_t (m_t m) (f_meas f)) eqn:X.
  - destruct (redo (m_t m) f1) as [f2 after] eqn:R.
    apply andb_true_iff in X. destruct X as [So Ex]. destruct s; try discriminate So. cbn [is_disc negb].
    apply exist_after_iff in Ex. destruct Ex as [e [Ie Le]].
    intros Q.
    assert (V : vec = Res OUTOFORDER (m_t m) :: after).
    { destruct (check_horizon _ _); cbn [obind] in Q; congruence. }
    split; [eauto|]. split; [|split].
    + intros [H|[H|H]]; try congruence. specialize (H e Ie). lia.
    + intros _ _ W. pose proof (redo_fields prop_cb priv_cb (m_t m) f1 W) as [A1 [A2 [A3 _]]]. rewrite R in A1, A2, A3. cbn [fst f1 f_meas f_delayed f_hor_meas] in *.
      unfold insert_measurement in Q. rewrite A2 in Q. cbn [f_meas f_hor_meas] in Q. rewrite A1, A3 in Q.
      destruct (check_horizon _ _); cbn [obind] in Q; try discriminate. injection Q as <- _. reflexivity.
    + intros [H|H]; discriminate.
  - unfold insert_measurement, f1. cbn [f_delayed f_meas f_hor_meas f_bel]. intros Q.
    destruct s; cbn [is_disc negb] in Q;
      try (destruct (check_horizon _ _) as [hh| |]; cbn [obind] in Q; try discriminate; injection Q as <- <-; cbn;
           repeat split; eauto; intros [?|?] _; discriminate).
    injection Q as <- <-. cbn. repeat split; eauto. congruence.
Qed.
(** with delayed handling off a filter never holds stored measurements, and what is stored is always ordered *)
Theorem C30_storage_invariant : forall f, reach f ->
  (f_delayed f = false -> f_meas f = []) /\ chronological (f_meas f) /\ strictly_chronological (f_bel f) /\
  (forall k m, In (k, m) (f_meas f) -> k = m_t m).
Proof.
  intros f R. apply reach_inv in R. destruct R. repeat split; auto; [now apply wsorted_chrono|now apply ssorted_chrono].
Qed.
(** processing never fails on a reachable filter with non-negative int64 times *)
Theorem C30_total : forall f m, reach f -> 0 <= m_t m < 2 ^ 63 -> (forall e, In e (f_meas f) -> 0 <= fst e < 2 ^ 63) ->
  exists f' vec, process m f = Ok (f', vec).
Proof.
  intros f m R Hm Hl. apply reach_inv in R. destruct R as [Sb Wm Kk Off [h Hh]]. unfold process_measurement.
  destruct (delegate prop_cb priv_cb (f_bel f) m) as [b1 res]. destruct (f_delayed f) eqn:Ed; [|eauto].
  set (f1 := Filt _ _ _ _).
  assert (A : exists f2 v2, (if is_ooo (r_status res) && exist_after_t (m_t m) (f_meas f1)
      then let (f2, after) := redo (m_t m) f1 in (f2, res :: after) else (f1, [res])) = (f2, v2) /\
      f_meas f2 = f_meas f /\ f_delayed f2 = true /\ f_hor_meas f2 = f_hor_meas f).
  { destruct (_ && _).
    - destruct (redo_fields prop_cb priv_cb (m_t m) f1 Wm) as [A1 [A2 [A3 A4]]]. destruct (redo (m_t m) f1) as [f2' after]. cbn [fst] in *. eauto 8.
    - eexists _, _. split; [reflexivity|]. auto. }
  destruct A as [f2 [v2 [-> [A2 [A3 A4]]]]]. destruct (negb _); [|eauto].
  unfold insert_measurement. rewrite A3. cbn [f_meas f_hor_meas]. rewrite A2, A4, Hh.
  destruct (check_horizon_total (mb_insert (m_t m) m (f_meas f)) h) as [l' ->].
  - now apply mb_insert_wsorted.
  - intros e I. apply mb_insert_In in I; [|exact Wm]. destruct I as [->|I]; [exact Hm|auto].
  - cbn [obind]. eauto.
Qed.

(** ** C31 *)
Lemma fold_handled ms b vec : exists b' rs, fold_left (redo_one prop_cb priv_cb) ms (b, vec) = (b', vec ++ rs) /\
  handled prop_cb priv_cb b ms b' rs.
Proof.
  revert b vec. induction ms as [|m ms IH]; intros b vec.
  - exists b, []. rewrite app_nil_r. split; [reflexivity|constructor].
  - cbn [fold_left]. unfold redo_one at 2. destruct (delegate prop_cb priv_cb b m) as [b1 r] eqn:D.
    destruct (IH b1 (vec ++ [r])) as [b' [rs [E H]]]. exists b', (r :: rs).
    split; [rewrite E, <- app_assoc; reflexivity|].
    revert D. unfold delegate, apply_ops. destruct (m_ty m) eqn:T.
    + intros [= <- <-]. apply HOther; auto.
    + destruct (prop_cb b m) as [ops s] eqn:Q. intros [= <- <-]. eapply HProp; eauto.
    + destruct (priv_cb b m) as [ops s] eqn:Q. intros [= <- <-]. eapply HPriv; eauto.
    + intros [= <- <-]. apply HOther; auto.
Qed.
(** every measurement strictly after t is reprocessed once, in order, unless the later measurements all share one
    instant: then only the first of them is *)
Theorem C31_replay : forall f t f' vec, reach f -> redo t f = (f', vec) ->
  let later := filter (fun e => t <? fst e) (f_meas f) in
  (length later <= 1)%nat \/ (exists a b, In a later /\ In b later /\ fst a <> fst b) ->
  handled prop_cb priv_cb (filter (fun e => fst e <=? t) (f_bel f)) (map snd later) (f_bel f') vec /\
  f_meas f' = f_meas f.
Proof.
  intros f t f' vec R E later H. apply reach_inv in R. destruct R as [Sb Wm _ _ _].
  rewrite redo_spec in E by exact Wm. cbn zeta in E. fold later in E.
  rewrite <- (remove_after_filter t (f_bel f)) by now apply ssorted_w.
  set (todo := match later with [] => [] | (k, m) :: r => _ end) in E.
  assert (T : todo = map snd later).
  { unfold todo. destruct later as [|[k m] r] eqn:L; [reflexivity|].
    destruct H as [H|[a [b [Ia [Ib N]]]]].
    - cbn in H. assert (r = []) by (destruct r; [reflexivity|cbn in H; lia]). subst r. reflexivity.
    - destruct (forallb _ r) eqn:F; [|unfold FilterProofs.later; fold later; rewrite L; reflexivity].
      exfalso. rewrite forallb_forall in F. assert (A : forall e, In e ((k, m) :: r) -> fst e = k).
      { intros e [<-|I]; [reflexivity|]. specialize (F e I). lia. }
      apply N. now rewrite (A a), (A b). }
  rewrite T in E. destruct (fold_handled (map snd later) (remove_after_t t (f_bel f)) []) as [b' [rs [E2 H2]]].
  rewrite E2 in E. cbn [app] in E. injection E as <- <-. split; [exact H2|reflexivity].
Qed.
(** the remaining case, two or more later measurements all at one instant: only the first stored one is reprocessed *)
Theorem C31_concurrent_first_only : forall f t f' vec m1 rest k, reach f -> redo t f = (f', vec) ->
  map snd (filter (fun e => t <? fst e) (f_meas f)) = m1 :: rest ->
  (forall e, In e (f_meas f) -> t < fst e -> fst e = k) ->
  handled prop_cb priv_cb (filter (fun e => fst e <=? t) (f_bel f)) [m1] (f_bel f') vec /\ f_meas f' = f_meas f.
Proof.
  intros f t f' vec m1 rest k R E L H. apply reach_inv in R. destruct R as [Sb Wm _ _ _].
  rewrite redo_spec in E by exact Wm. cbn zeta in E.
  rewrite <- (remove_after_filter t (f_bel f)) by now apply ssorted_w.
  set (todo := match filter _ _ with [] => [] | (k, m) :: r => _ end) in E.
  assert (T : todo = [m1]).
  { unfold todo, FilterProofs.later. destruct (filter (fun e => t <? fst e) (f_meas f)) as [|[k1 m] r] eqn:Q; [discriminate|].
    cbn in L. injection L as -> L.
    assert (A : forall e, In e ((k1, m1) :: r) -> fst e = k).
    { intros e I. rewrite <- Q in I. apply filter_In in I. destruct I as [I J]. apply H; [exact I|lia]. }
    replace (forallb _ r) with true; [reflexivity|]. symmetry. apply forallb_forall. intros e I.
    rewrite (A e) by now right. rewrite <- (A (k1, m1)) by now left. cbn. lia. }
  rewrite T in E. destruct (fold_handled [m1] (remove_after_t t (f_bel f)) []) as [b' [rs [E2 H2]]].
  rewrite E2 in E. cbn [app] in E. injection E as <- <-. split; [exact H2|reflexivity].
Qed.

(** ** C32 *)
Theorem C32_exact : forall f t b' r, reach f ->
  get_belief_at_t predict_cb t EXACT (f_bel f) = (b', r) ->
  b' = f_bel f /\ forall v, r = Some v <-> In (t, v) (f_bel f).
Proof.
  intros f t b' r R E. apply reach_inv in R. destruct R as [Sb _ _ _ _].
  assert (X : (b', r) = (f_bel f, get_at_t t (f_bel f))) by (rewrite <- E; unfold get_belief_at_t; destruct (negb _); reflexivity).
  injection X as -> ->. split; [reflexivity|]. intros v. now apply get_at_iff.
Qed.
Theorem C32_closest : forall f t b' r, reach f ->
  get_belief_at_t predict_cb t CLOSEST (f_bel f) = (b', r) ->
  b' = f_bel f /\ (r = None <-> f_bel f = []) /\
  forall v, r = Some v -> exists k, In (k, v) (f_bel f) /\
    forall k' v', In (k', v') (f_bel f) -> Z.abs (k - t) < Z.abs (k' - t) \/ (Z.abs (k - t) = Z.abs (k' - t) /\ k <= k').
Proof.
  intros f t b' r R E. apply reach_inv in R. destruct R as [Sb _ _ _ _].
  destruct (closest_spec predict_cb t (f_bel f) b' r Sb E) as [A [A2 A3]]. split; [exact A|]. split; [exact A2|].
  intros v V. destruct (A3 v V) as [k [I M]]. exists k. split; [exact I|]. intros k' v' I'. exact (M (k', v') I').
Qed.
(** PREDICT_BELIEF asks the model only if nothing is stored at t and succeeds only with a belief stored at t *)
Theorem C32_predict : forall f t b' r, reach f ->
  get_belief_at_t predict_cb t PREDICT_BELIEF (f_bel f) = (b', r) ->
  (forall v, In (t, v) (f_bel f) -> b' = f_bel f /\ r = Some v) /\
  (forall v, r = Some v -> In (t, v) b') /\
  (forall ops ok, (forall v, ~ In (t, v) (f_bel f)) -> predict_cb (f_bel f) t = (ops, ok) ->
     b' = fold_left hb_step ops (f_bel f) /\ forall v, r = Some v <-> ok = true /\ In (t, v) b').
Proof.
  intros f t b' r R. apply reach_inv in R. destruct R as [Sb _ _ _ _]. unfold get_belief_at_t.
  destruct (exist_at_t t (f_bel f)) eqn:X; cbn [negb].
  - intros [= <- <-]. split; [|split].
    + intros v I. split; [reflexivity|]. now apply get_at_iff.
    + intros v V. now apply get_at_In in V.
    + intros ops ok N _. exfalso. apply exist_at_iff in X. destruct X as [v I]. exact (N v I).
  - destruct (predict_cb (f_bel f) t) as [ops ok] eqn:Q. intros [= <- <-]. split; [|split].
    + intros v I. exfalso. assert (exist_at_t t (f_bel f) = true) by (apply exist_at_iff; eauto). congruence.
    + intros v V. destruct ok; [|discriminate]. now apply get_at_In in V.
    + intros ops' ok' _ [= -> ->]. split; [reflexivity|]. intros v.
      assert (Sb' : ssorted (apply_ops (f_bel f) ops')) by (apply apply_ops_sorted; exact Sb).
      destruct ok'; [|split; [discriminate|intros [H _]; discriminate]].
      split; [intros V; split; [reflexivity|now apply get_at_In in V]|intros [_ V]; now apply get_at_iff].
Qed.
(** a value outside the enumeration finds a stored belief and nothing else *)
Theorem C32_other : forall f t b' r, reach f ->
  get_belief_at_t predict_cb t OTHER (f_bel f) = (b', r) ->
  b' = f_bel f /\ forall v, r = Some v <-> In (t, v) (f_bel f).
Proof.
  intros f t b' r R. apply reach_inv in R. destruct R as [Sb _ _ _ _]. unfold get_belief_at_t.
  destruct (exist_at_t t (f_bel f)) eqn:X; cbn [negb]; intros [= <- <-]; (split; [reflexivity|]); intros v.
  - now apply get_at_iff.
  - split; [discriminate|]. intros I. exfalso. assert (exist_at_t t (f_bel f) = true) by (apply exist_at_iff; eauto). congruence.
Qed.

(** ** C60 *)
Theorem C60_read : forall (V : Type) (field : B -> V) f t, reach f ->
  (forall v, In (t, v) (f_bel f) -> get_field_at_t field t (f_bel f) = Ok (field v)) /\
  ((forall v, ~ In (t, v) (f_bel f)) -> get_field_at_t field t (f_bel f) = UB NullDeref).
Proof.
  intros V field f t R. apply reach_inv in R. destruct R as [Sb _ _ _ _]. unfold get_field_at_t. split.
  - intros v I. now rewrite (proj2 (get_at_iff t v (f_bel f) Sb) I).
  - intros N. now rewrite (proj2 (get_at_none t (f_bel f)) N).
Qed.
End Props.

(** two measurements at the one later instant: the second is never reprocessed *)
Theorem C31_concurrent_lost :
  exists (prop_cb priv_cb : buf nat -> meas nat -> list (hb_op nat) * status) predict_cb (f : filt nat nat) t f' vec,
    reachable prop_cb priv_cb predict_cb f /\ redo_updates_after_t prop_cb priv_cb t f = (f', vec) /\
    map snd (filter (fun e => t <? fst e) (f_meas f)) = [Meas 0 5 PROPAGATION 1%nat; Meas 0 5 PRIVATE 2%nat] /\
    length vec = 1%nat /\ f_bel f = [(5, 2%nat)] /\ f_bel f' = [(5, 1%nat)].
Proof.
  pose (cb := fun (b : buf nat) (m : meas nat) => ([HInsert (m_t m) (m_dat m)], PROCESSED)).
  exists cb, cb, (fun _ _ => ([], false)).
  pose (m1 := Meas 0 5 PROPAGATION 1%nat). pose (m2 := Meas 0 5 PRIVATE 2%nat).
  assert (E1 : check_horizon (set_horizon (d_of_Z 1)) [(5, m1)] = Ok [(5, m1)]) by (vm_compute; reflexivity).
  assert (E2 : check_horizon (set_horizon (d_of_Z 1)) [(5, m1); (5, m2)] = Ok [(5, m1); (5, m2)]) by (vm_compute; reflexivity).
  exists (Filt [(5, 2%nat)] [(5, m1); (5, m2)] true (set_horizon (d_of_Z 1))), 3. eexists _, _.
  split; [|split; [reflexivity|repeat split]].
  exists (d_of_Z 1), true, [FProcess m1; FProcess m2]. unfold new_filter.
  set (H := set_horizon (d_of_Z 1)) in *. clearbody H.
  cbn -[check_horizon]. change (m_t m1) with 5. cbn -[check_horizon]. rewrite E1. cbn -[check_horizon]. rewrite E2. reflexivity.
Qed.
Theorem C60_null_deref : exists (f : filt nat nat) t,
  reachable (fun _ _ => ([], PROCESSED)) (fun _ _ => ([], PROCESSED)) (fun _ _ => ([], false)) f /\
  get_field_at_t (fun v => v) t (f_bel f) = UB NullDeref.
Proof.
  exists (Filt [(4, 7%nat)] [] false (set_horizon (d_of_Z 1))), 5. split; [|reflexivity].
  exists (d_of_Z 1), false, [FInit 7%nat 4]. reflexivity.
Qed.

(** ** C61: a delayed measurement leads to the chronological result *)
(** An estimator that writes exactly one belief, at the measurement's time, computed by [g] from the beliefs up to
    that time, and reports out-of-order exactly if later beliefs exist. *)
Definition causal_cb {B P} (g : list (Z * B) -> meas P -> B) (cb : buf B -> meas P -> list (hb_op B) * status) : Prop :=
  forall b m, cb b m =
    ([HInsert (m_t m) (g (filter (fun e => fst e <=? m_t m) b) m)],
     if existsb (fun e => m_t m <? fst e) b then OUTOFORDER else PROCESSED).
(** the belief history a chronological list of measurements produces *)
Fixpoint chronological_result {B P} (g : list (Z * B) -> meas P -> B) (b : list (Z * B)) (ms : list (meas P)) : list (Z * B) :=
  match ms with [] => b | m :: r => chronological_result g (b ++ [(m_t m, g b m)]) r end.
Fixpoint process_all {B P} prop_cb priv_cb (f : filt B P) (ms : list (meas P)) : outcome (filt B P) :=
  match ms with
  | [] => Ok f
  | m :: r => obind (process_measurement prop_cb priv_cb m f) (fun p => process_all prop_cb priv_cb (fst p) r)
  end.

Section Chrono.
Context {B P : Type}.
Variable (g : list (Z * B) -> meas P -> B) (cb : buf B -> meas P -> list (hb_op B) * status).
Hypothesis C : causal_cb g cb.
Definition before_eq (x y : meas P) := m_t x < m_t y.
Notation ssm := (StronglySorted before_eq).

Lemma cr_app b l1 l2 : chronological_result g b (l1 ++ l2) = chronological_result g (chronological_result g b l1) l2.
Proof. revert b. induction l1 as [|m r IH]; intros b; [reflexivity|]. apply IH. Qed.
Lemma cr_keys b ms e : In e (chronological_result g b ms) -> In e b \/ exists m, In m ms /\ fst e = m_t m.
Proof.
  revert b. induction ms as [|m r IH]; intros b I; [now left|]. apply IH in I. destruct I as [I|[m' [I E]]].
  - apply in_app_or in I. destruct I as [I|[<-|[]]]; [now left|right; exists m; split; [now left|reflexivity]].
  - right. exists m'. split; [now right|exact E].
Qed.

Lemma hb_insert_mid (A L : buf B) t v : (forall e, In e A -> fst e < t) -> (forall e, In e L -> t < fst e) ->
  hb_insert t v (A ++ L) = A ++ (t, v) :: L.
Proof.
  induction A as [|[k w] r IH]; intros HA HL; cbn [app].
  - now apply hb_insert_front.
  - cbn [hb_insert]. pose proof (HA (k, w) (or_introl eq_refl)) as Q. cbn in Q.
    replace (t <? k) with false by lia. replace (t =? k) with false by lia. f_equal. apply IH; auto. intros e I. apply HA. now right.
Qed.
Lemma cr_split b ms : exists later, chronological_result g b ms = b ++ later /\ map fst later = map m_t ms.
Proof.
  revert b. induction ms as [|m r IH]; intros b; cbn [chronological_result].
  - exists []. now rewrite app_nil_r.
  - destruct (IH (b ++ [(m_t m, g b m)])) as [L [E K]]. exists ((m_t m, g b m) :: L). rewrite E, <- app_assoc. split; [reflexivity|].
    cbn. now rewrite K.
Qed.
Lemma keys_bound (later : list (Z * B)) (ms : list (meas P)) (p : Z -> Prop) : map fst later = map m_t ms ->
  (forall m, In m ms -> p (m_t m)) -> forall e, In e later -> p (fst e).
Proof. intros K H e I. apply (in_map fst) in I. rewrite K in I. apply in_map_iff in I. destruct I as [m [<- I]]. auto. Qed.

Lemma remove_after_mid (A L : buf B) t : (forall e, In e A -> fst e <= t) -> (forall e, In e L -> t < fst e) ->
  remove_after_t t (A ++ L) = A.
Proof.
  intros HA HL. unfold remove_after_t.
  assert (U : upper_bound t (A ++ L) = length A).
  { clear -HA HL. induction A as [|[k w] r IH]; cbn [app upper_bound length].
    - destruct L as [|[k w] q]; [reflexivity|]. cbn. pose proof (HL (k, w) (or_introl eq_refl)) as Q. cbn in Q.
      replace (t <? k) with true by lia. reflexivity.
    - pose proof (HA (k, w) (or_introl eq_refl)) as Q. cbn in Q. replace (t <? k) with false by lia. f_equal. apply IH. intros e I. apply HA. now right. }
  rewrite U, firstn_app, firstn_all, Nat.sub_diag, firstn_O, app_nil_r. destruct (Nat.eqb_spec (length A) (length (A ++ L))) as [E|E]; [|reflexivity].
  cbn [negb]. rewrite app_length in E. destruct L; [now rewrite app_nil_r|cbn in E; lia].
Qed.
Definition routed (m : meas P) := m_ty m = PROPAGATION \/ m_ty m = PRIVATE.
Lemma delegate_causal b m : routed m ->
  delegate cb cb b m = (hb_insert (m_t m) (g (filter (fun e => fst e <=? m_t m) b) m) b,
     Res (if existsb (fun e => m_t m <? fst e) b then OUTOFORDER else PROCESSED) (m_t m)).
Proof. intros T. unfold delegate, apply_ops. destruct T as [-> | ->]; rewrite C; reflexivity. Qed.
Lemma delegate_append b m : routed m -> (forall e, In e b -> fst e < m_t m) ->
  delegate cb cb b m = (b ++ [(m_t m, g b m)], Res PROCESSED (m_t m)).
Proof.
  intros T H. rewrite delegate_causal by exact T. rewrite filter_all_true.
  2:{ rewrite Forall_forall. intros e I. specialize (H e I). lia. }
  replace (existsb _ b) with false.
  2:{ symmetry. apply not_true_is_false. intros X. apply existsb_exists in X. destruct X as [e [I X]]. specialize (H e I). lia. }
  rewrite <- (app_nil_r b) at 2. rewrite hb_insert_mid; [reflexivity|exact H|contradiction].
Qed.
Lemma redo_chrono ms b vec : ssm ms -> (forall m, In m ms -> routed m) -> (forall e m, In e b -> In m ms -> fst e < m_t m) ->
  fst (fold_left (redo_one cb cb) ms (b, vec)) = chronological_result g b ms.
Proof.
  revert b vec. induction ms as [|m r IH]; intros b vec S T H; [reflexivity|]. cbn [fold_left chronological_result].
  apply StronglySorted_inv in S. destruct S as [S F]. rewrite Forall_forall in F.
  unfold redo_one at 2. rewrite delegate_append; [|apply T; now left|intros e I; apply H; [exact I|now left]].
  apply IH; [exact S|intros x I; apply T; now right|].
  intros e x I J. apply in_app_or in I. destruct I as [I|[<-|[]]]; [apply H; [exact I|now right]|exact (F x J)].
Qed.

Definition keyed (ms : list (meas P)) : buf (meas P) := map (fun m => (m_t m, m)) ms.
Lemma keyed_wsorted ms : ssm ms -> wsorted (keyed ms).
Proof.
  induction 1 as [|m r S IH F]; cbn; constructor; [exact IH|]. rewrite Forall_forall in *. intros e I.
  apply in_map_iff in I. destruct I as [x [<- I]]. specialize (F x I). unfold kle, before_eq in *. cbn. lia.
Qed.
Lemma split_at ms t : ssm ms -> (forall m, In m ms -> m_t m <> t) ->
  exists l1 l2, ms = l1 ++ l2 /\ (forall m, In m l1 -> m_t m < t) /\ (forall m, In m l2 -> t < m_t m) /\ ssm l1 /\ ssm l2.
Proof.
  induction 1 as [|m r S IH F]; intros N; [exists [], []; repeat split; try constructor; contradiction|].
  rewrite Forall_forall in F. destruct (Z_lt_dec (m_t m) t) as [L|L].
  - destruct IH as [l1 [l2 [-> [A1 [A2 [A3 A4]]]]]]; [intros x I; apply N; now right|].
    exists (m :: l1), l2. repeat split; auto. { intros x [<-|I]; auto. }
    constructor; [exact A3|]. rewrite Forall_forall. intros x I. apply F. apply in_or_app. now left.
  - exists [], (m :: r). pose proof (N m (or_introl eq_refl)). repeat split; try constructor; auto; [contradiction|..].
    + intros x [<-|I]; [lia|]. specialize (F x I). unfold before_eq in F. lia.
    + rewrite Forall_forall. exact F.
Qed.
Lemma ssm_mid l1 l2 m : ssm l1 -> ssm l2 -> (forall x, In x l1 -> m_t x < m_t m) -> (forall x, In x l2 -> m_t m < m_t x) -> ssm (l1 ++ m :: l2).
Proof.
  intros S1 S2 H1 H2. induction S1 as [|a r S IH F]; cbn.
  - constructor; [exact S2|]. rewrite Forall_forall. exact H2.
  - constructor; [apply IH; intros x I; apply H1; now right|]. rewrite Forall_forall in *. intros x I.
    pose proof (H1 a (or_introl eq_refl)). apply in_app_or in I. destruct I as [I|[<-|I]]; [now apply F|exact H|].
    specialize (H2 x I). unfold before_eq. lia.
Qed.
Lemma filter_keyed_after l1 l2 t : (forall m, In m l1 -> m_t m < t) -> (forall m, In m l2 -> t < m_t m) ->
  filter (fun e => t <? fst e) (keyed (l1 ++ l2)) = keyed l2.
Proof.
  intros H1 H2. unfold keyed. rewrite map_app, filter_app, filter_all_false, filter_all_true; [reflexivity| |];
    rewrite Forall_forall; intros e I; apply in_map_iff in I; destruct I as [x [<- I]]; cbn; [specialize (H2 x I)|specialize (H1 x I)]; lia.
Qed.

(** one arrival *)
Variables tmax sl : Z.
Hypothesis Ck : Spec_Handler.clock tmax sl.
Lemma process_chrono h hz b0 ms m : ssm ms -> ssorted b0 ->
  (forall x, In x (m :: ms) -> routed x /\ 0 <= m_t x < tmax) ->
  (forall e x, In e b0 -> In x (m :: ms) -> fst e < m_t x) ->
  (forall x, In x ms -> m_t x <> m_t m) ->
  (forall x y, In x (m :: ms) -> In y (m :: ms) -> m_t x - m_t y <= hz - sl) ->
  h_near h hz -> 0 <= hz < 2097151 * giga ->
  exists ms' vec, ssm ms' /\ Permutation (m :: ms) ms' /\
    process_measurement cb cb m (Filt (chronological_result g b0 ms) (keyed ms) true h)
    = Ok (Filt (chronological_result g b0 ms') (keyed ms') true h, vec).
Proof.
  intros S Sb R0 Hb N W D Hh.
  assert (R : forall x, In x (m :: ms) -> routed x) by (intros x I; now apply R0).
  assert (R2 : forall x, In x (m :: ms) -> 0 <= m_t x < tmax) by (intros x I; now apply R0). clear R0.
  destruct (split_at ms (m_t m) S N) as [l1 [l2 [-> [A1 [A2 [S1 S2]]]]]].
  exists (l1 ++ m :: l2). assert (S' : ssm (l1 ++ m :: l2)) by (now apply ssm_mid).
  assert (Pm : Permutation (m :: l1 ++ l2) (l1 ++ m :: l2)) by apply Permutation_middle.
  pose proof (keyed_wsorted _ S) as Wk. pose proof (keyed_wsorted _ S') as Wk'.
  rewrite cr_app. destruct (cr_split (chronological_result g b0 l1) l2) as [L [EL KL]]. rewrite EL.
  set (A := chronological_result g b0 l1) in *.
  assert (HA : forall e, In e A -> fst e < m_t m).
  { intros e I. apply cr_keys in I. destruct I as [I|[x [I ->]]]; [apply Hb; [exact I|now left]|auto]. }
  assert (HL : forall e, In e L -> m_t m < fst e) by (apply (keys_bound L l2 (fun z => m_t m < z)); auto).
  assert (Ins : mb_insert (m_t m) m (keyed (l1 ++ l2)) = keyed (l1 ++ m :: l2)).
  { rewrite mb_insert_split by exact Wk. rewrite filter_keyed_after by auto.
    unfold keyed. rewrite (map_app _ l1 (m :: l2)). cbn [map]. f_equal.
    rewrite map_app, filter_app, filter_all_true, filter_all_false, app_nil_r; [reflexivity| |];
    rewrite Forall_forall; intros e I; apply in_map_iff in I; destruct I as [x [<- I]]; cbn; [specialize (A2 x I)|specialize (A1 x I)]; lia. }
  assert (Chk : check_horizon h (keyed (l1 ++ m :: l2)) = Ok (keyed (l1 ++ m :: l2))).
  { assert (NE : keyed (l1 ++ m :: l2) <> []) by (unfold keyed; rewrite map_app; intros Q; apply app_eq_nil in Q; destruct Q; discriminate).
    assert (Mem : forall e, In e (keyed (l1 ++ m :: l2)) -> exists x, e = (m_t x, x) /\ In x (m :: l1 ++ l2)).
    { intros e I. apply in_map_iff in I. destruct I as [x [<- I]]. exists x. split; [reflexivity|].
      apply Permutation_in with (1 := Permutation_sym Pm). exact I. }
    apply (ClockProofs.check_clock tmax sl Ck h hz); auto.
    - intros e I. destruct (Mem e I) as [x [-> Ix]]. exact (R2 x Ix).
    - intros e e' I I'. destruct (Mem e I) as [x [-> Ix]], (Mem e' I') as [y [-> Iy]]. now apply W. }
  unfold process_measurement. cbn [f_bel f_meas f_delayed f_hor_meas].
  rewrite delegate_causal by (apply R; now left).
  rewrite (filter_app _ A L), (filter_all_true _ A), (filter_all_false _ L), app_nil_r.
  2:{ rewrite Forall_forall. intros e I. specialize (HL e I). lia. }
  2:{ rewrite Forall_forall. intros e I. specialize (HA e I). lia. }
  rewrite hb_insert_mid by auto. cbn [r_status].
  destruct l2 as [|x q].
  - destruct L; [|discriminate KL].
    replace (existsb _ (A ++ [])) with false.
    2:{ symmetry. apply not_true_is_false. intros X. apply existsb_exists in X. destruct X as [e [I X]]. rewrite app_nil_r in I. specialize (HA e I). lia. }
    cbn [is_ooo is_disc andb negb]. unfold insert_measurement. cbn [f_bel f_meas f_delayed f_hor_meas].
    rewrite Ins, Chk. cbn [obind f_bel f_meas f_delayed f_hor_meas]. eexists. split; [exact S'|]. split; [exact Pm|].
    rewrite cr_app. fold A. reflexivity.
  - assert (X : existsb (fun e : Z * B => m_t m <? fst e) (A ++ L) = true).
    { destruct L as [|e L]; [discriminate KL|]. apply existsb_exists. exists e. split; [apply in_or_app; right; now left|].
      specialize (HL e (or_introl eq_refl)). lia. }
    rewrite X. cbn [is_ooo is_disc negb].
    assert (Xa : exist_after_t (m_t m) (keyed (l1 ++ x :: q)) = true).
    { apply exist_after_iff. exists (m_t x, x). split; [unfold keyed; rewrite map_app; apply in_or_app; right; now left|].
      cbn. apply A2. now left. }
    rewrite Xa. cbn [andb]. rewrite redo_spec by exact Wk. cbn [f_bel f_meas f_delayed f_hor_meas].
    unfold FilterProofs.later. rewrite filter_keyed_after by auto.
    set (todo := match keyed (x :: q) with [] => [] | (k, m0) :: r => _ end).
    assert (T : todo = x :: q).
    { unfold todo, keyed. cbn [map]. rewrite map_map. cbn [snd]. rewrite map_id.
      destruct q as [|y q]; [reflexivity|]. cbn [map forallb fst]. apply StronglySorted_inv in S2. destruct S2 as [_ F].
      rewrite Forall_forall in F. specialize (F y (or_introl eq_refl)). unfold before_eq in F.
      replace (m_t y =? m_t x) with false by lia. reflexivity. }
    rewrite T. replace (remove_after_t (m_t m) (A ++ (m_t m, g A m) :: L)) with (A ++ [(m_t m, g A m)]).
    2:{ symmetry. replace (A ++ (m_t m, g A m) :: L) with ((A ++ [(m_t m, g A m)]) ++ L) by (now rewrite <- app_assoc).
        apply remove_after_mid; [|exact HL]. intros e I. apply in_app_or in I. destruct I as [I|[<-|[]]]; [|cbn; lia].
        specialize (HA e I). lia. }
    match goal with |- context [fold_left ?f ?l ?a] => destruct (fold_left f l a) as [b' vec] eqn:FL end.
    assert (Q : b' = chronological_result g (A ++ [(m_t m, g A m)]) (x :: q)).
    { change b' with (fst (b', vec)). rewrite <- FL. apply redo_chrono; [exact S2| |].
      - intros y I. apply R. right. apply in_or_app. now right.
      - intros e y I J. specialize (A2 y J). apply in_app_or in I. destruct I as [I|[<-|[]]]; [specialize (HA e I); lia|cbn; lia]. }
    rewrite Q.
    unfold insert_measurement. cbn [f_bel f_meas f_delayed f_hor_meas].
    rewrite Ins, Chk. cbn [obind f_bel f_meas f_delayed f_hor_meas]. eexists. split; [exact S'|]. split; [exact Pm|].
    rewrite cr_app. fold A. reflexivity.
Qed.

Lemma process_all_chrono h hz b0 : ssorted b0 -> h_near h hz -> 0 <= hz < 2097151 * giga -> forall todo ms,
  ssm ms ->
  (forall x, In x (todo ++ ms) -> routed x /\ 0 <= m_t x < tmax) ->
  (forall e x, In e b0 -> In x (todo ++ ms) -> fst e < m_t x) ->
  NoDup (map m_t (todo ++ ms)) ->
  (forall x y, In x (todo ++ ms) -> In y (todo ++ ms) -> m_t x - m_t y <= hz - sl) ->
  exists ms', ssm ms' /\ Permutation (todo ++ ms) ms' /\
    process_all cb cb (Filt (chronological_result g b0 ms) (keyed ms) true h) todo
    = Ok (Filt (chronological_result g b0 ms') (keyed ms') true h).
Proof.
  intros Sb D Hh. induction todo as [|m r IH]; intros ms S R Hb N W.
  - exists ms. repeat split; auto.
  - cbn [app map] in N. apply NoDup_cons_iff in N. destruct N as [Nm N].
    assert (Sub : forall x, In x (m :: ms) -> In x ((m :: r) ++ ms)) by (intros x [->|I]; [now left|right; apply in_or_app; now right]).
    destruct (process_chrono h hz b0 ms m) as [ms1 [vec [S1 [P1 E]]]]; auto.
    { intros x I E. apply Nm. rewrite <- E. apply in_map. apply in_or_app. now right. }
    assert (Pr : Permutation (m :: r ++ ms) (r ++ ms1)).
    { transitivity (r ++ m :: ms); [apply Permutation_middle|]. now apply Permutation_app_head. }
    assert (Sub2 : forall x, In x (r ++ ms1) -> In x ((m :: r) ++ ms)) by (intros x I; exact (Permutation_in _ (Permutation_sym Pr) I)).
    destruct (IH ms1) as [ms' [S' [P' E']]]; auto.
    { apply (Permutation_NoDup (Permutation_map m_t Pr)). constructor; auto. }
    exists ms'. split; [exact S'|]. split; [exact (Permutation_trans Pr P')|].
    cbn [process_all]. rewrite E. cbn [obind fst]. exact E'.
Qed.
End Chrono.

Lemma chrono_ssorted {T} (l : buf T) : strictly_chronological l -> ssorted l.
Proof.
  induction l as [|a r IH]; intros H; constructor.
  - apply IH. intros i j x y L Hi Hj. apply (H (S i) (S j)); [lia|exact Hi|exact Hj].
  - rewrite Forall_forall. intros x I. apply In_nth_error in I. destruct I as [n I]. apply (H 0%nat (S n)); [lia|reflexivity|exact I].
Qed.
Lemma ssm_unique {P} (a b : list (meas P)) : StronglySorted (@before_eq P) a -> StronglySorted (@before_eq P) b ->
  Permutation a b -> a = b.
Proof.
  revert b. induction a as [|x r IH]; intros b Sa Sb Pm.
  - apply Permutation_nil in Pm. now subst.
  - destruct b as [|y q]; [apply Permutation_sym, Permutation_nil in Pm; discriminate|].
    apply StronglySorted_inv in Sa, Sb. destruct Sa as [Sa Fa], Sb as [Sb Fb]. rewrite Forall_forall in Fa, Fb.
    assert (x = y).
    { assert (Ix : In x (y :: q)) by (apply (Permutation_in _ Pm); now left).
      assert (Iy : In y (x :: r)) by (apply (Permutation_in _ (Permutation_sym Pm)); now left).
      destruct Ix as [->|Ix]; [reflexivity|]. destruct Iy as [->|Iy]; [reflexivity|].
      specialize (Fa y Iy). specialize (Fb x Ix). unfold before_eq in *. lia. }
    subst y. f_equal. apply IH; auto. now apply Permutation_cons_inv in Pm.
Qed.

(** whatever the arrival order, the beliefs and the stored measurements are those of the chronological order *)
Theorem C61_arrival_order_irrelevant :
  forall (B P : Type) (g : list (Z * B) -> meas P -> B) (cb : buf B -> meas P -> list (hb_op B) * status)
    (h : double) (hz tmax slack : Z) (b0 : buf B) (arrivals inorder : list (meas P)),
  Spec_Handler.clock tmax slack -> causal_cb g cb -> denotes_ns h hz -> 0 <= hz < 2097151 * giga ->
  strictly_chronological b0 ->
  (forall m, In m arrivals -> (m_ty m = PROPAGATION \/ m_ty m = PRIVATE) /\ 0 <= m_t m < tmax) ->
  (forall k v m, In (k, v) b0 -> In m arrivals -> k < m_t m) ->
  (forall x y, In x arrivals -> In y arrivals -> m_t x - m_t y <= hz - slack) ->
  NoDup (map m_t arrivals) ->
  Permutation arrivals inorder -> StronglySorted (fun x y => m_t x < m_t y) inorder ->
  process_all cb cb (Filt b0 [] true h) arrivals =
    Ok (Filt (chronological_result g b0 inorder) (map (fun m => (m_t m, m)) inorder) true h).
Proof.
  intros B P g cb h hz tmax slack b0 arr ord Ck C D Hh Sb R Hb W N Pm So.
  assert (Ap : forall x, In x (arr ++ []) -> In x arr) by (intros x I; now rewrite app_nil_r in I).
  pose proof (process_all_chrono g cb C tmax slack Ck h hz b0 (chrono_ssorted b0 Sb) D Hh arr [] (SSorted_nil _)) as Q.
  rewrite app_nil_r in Q. destruct Q as [ms' [S' [P' E]]]; auto.
  - intros [k v] x I J. apply (Hb k v x); auto.
  - cbn [chronological_result keyed map] in E. rewrite E.
    rewrite (ssm_unique ms' ord); [reflexivity|exact S'|exact So|]. exact (Permutation_trans (Permutation_sym P') Pm).
Qed.
(** with two measurements of one instant the arrival order decides the result *)
Theorem C61_distinct_times_needed :
  exists (g : list (Z * Z) -> meas Z -> Z) cb (m1 m2 : meas Z) (f1 f2 : filt Z Z),
    causal_cb g cb /\ m_t m1 = m_t m2 /\
    process_all cb cb (Filt [(0, 1)] [] true (set_horizon (d_of_Z 10))) [m1; m2] = Ok f1 /\
    process_all cb cb (Filt [(0, 1)] [] true (set_horizon (d_of_Z 10))) [m2; m1] = Ok f2 /\
    f_bel f1 <> f_bel f2.
Proof.
  pose (g := fun (b : list (Z * Z)) (m : meas Z) => fold_left (fun a e => 2 * a + snd e) b (m_dat m)).
  pose (cb := fun (b : buf Z) (m : meas Z) =>
    ([HInsert (m_t m) (g (filter (fun e => fst e <=? m_t m) b) m)], if existsb (fun e => m_t m <? fst e) b then OUTOFORDER else PROCESSED)).
  exists g, cb. pose (m1 := Meas 0 5 PRIVATE 1). pose (m2 := Meas 1 5 PRIVATE 3). exists m1, m2.
  assert (E1 : check_horizon (set_horizon (d_of_Z 10)) [(5, m1)] = Ok [(5, m1)]) by (vm_compute; reflexivity).
  assert (E2 : check_horizon (set_horizon (d_of_Z 10)) [(5, m2)] = Ok [(5, m2)]) by (vm_compute; reflexivity).
  assert (E3 : check_horizon (set_horizon (d_of_Z 10)) [(5, m1); (5, m2)] = Ok [(5, m1); (5, m2)]) by (vm_compute; reflexivity).
  assert (E4 : check_horizon (set_horizon (d_of_Z 10)) [(5, m2); (5, m1)] = Ok [(5, m2); (5, m1)]) by (vm_compute; reflexivity).
  set (H := set_horizon (d_of_Z 10)) in *. clearbody H. eexists _, _. split; [intros b m; reflexivity|]. split; [reflexivity|].
  split; [cbn -[check_horizon]; change (m_t m1) with 5; cbn -[check_horizon]; rewrite E1; cbn -[check_horizon]; rewrite E3; reflexivity|].
  split; [cbn -[check_horizon]; change (m_t m2) with 5; cbn -[check_horizon]; rewrite E2; cbn -[check_horizon]; rewrite E4; reflexivity|].
  cbn. discriminate.
Qed.
(** the hypotheses are met by a delayed measurement between two others *)
Example C61_example : exists arrivals inorder : list (meas Z),
  arrivals = [Meas 0 5 PROPAGATION 1; Meas 0 9 PROPAGATION 3; Meas 0 7 PRIVATE 2] /\
  Permutation arrivals inorder /\ StronglySorted (fun x y => m_t x < m_t y) inorder /\ NoDup (map m_t arrivals) /\
  (forall x y, In x arrivals -> In y arrivals -> m_t x - m_t y <= 10 * giga) /\
  chronological_result (fun b m => fold_left (fun a e => 2 * a + snd e) b (m_dat m)) [(0, 1)] inorder =
    [(0, 1); (5, 3); (7, 13); (9, 47)].
Proof.
  eexists _, [Meas 0 5 PROPAGATION 1; Meas 0 7 PRIVATE 2; Meas 0 9 PROPAGATION 3]. split; [reflexivity|].
  split; [do 2 constructor|]. split; [repeat constructor|]. split; [repeat constructor; cbn; lia|]. split; [|reflexivity].
  unfold giga. cbn. intros x y. intuition (subst; cbn; lia).
Qed.
Print Assumptions C30_joint_and_unknown_discarded. Print Assumptions C30_routed. Print Assumptions C30_storage_invariant.
Print Assumptions C30_total. Print Assumptions C31_replay.
Print Assumptions C31_concurrent_first_only. Print Assumptions C31_concurrent_lost.
Print Assumptions C32_exact. Print Assumptions C32_closest. Print Assumptions C32_predict.
Print Assumptions C60_read. Print Assumptions C60_null_deref.
Print Assumptions C61_arrival_order_irrelevant. Print Assumptions C61_distinct_times_needed.
