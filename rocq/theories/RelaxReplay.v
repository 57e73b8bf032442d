(** What the estimators hold after arrivals under the relaxed order: the replay of the stored history in its stored order. *)
From Coq Require Import ZArith List Bool Arith Lia Sorted Permutation.
From Flocq Require Import IEEE754.BinarySingleNaN.
From Verif Require Import Outcome TimestampModel DoubleModel BufModel Spec_Buf BufProofs HorizonModel HorizonProofs MeasModel HandlerModel Spec_Handler HandlerProofs AgeProofs ClockProofs ReplayProofs ArrivalProofs UtilModel RelaxModel RelaxProofs.
Import ListNotations.
Local Open Scope Z_scope.
Local Open Scope outcome_scope.

Section Lists.
Context {P : Type}.
Notation meas := (meas P).
Lemma filter_partition {A} (f : A -> bool) l : Permutation l (filter f l ++ filter (fun x => negb (f x)) l).
Proof.
  induction l as [|a r IH]; [constructor|]. cbn. destruct (f a); cbn; [now constructor|].
  apply Permutation_cons_app. exact IH.
Qed.
Lemma filter_len {A} (f : A -> bool) l : (length (filter f l) <= length l)%nat.
Proof. induction l as [|a r IH]; [apply le_n|]. cbn. destruct (f a); cbn; lia. Qed.
Lemma perm_instants {T} (l1 l2 : buf T) : (forall s, Permutation (elements_at s l1) (elements_at s l2)) -> Permutation l1 l2.
Proof.
  assert (G : forall n (l1 l2 : buf T), (length l1 <= n)%nat -> (forall s, Permutation (elements_at s l1) (elements_at s l2)) -> Permutation l1 l2).
  2:{ apply (G (length l1)). lia. }
  clear. induction n as [|n IH]; intros l1 l2 L E.
  - destruct l1; [|cbn in L; lia]. destruct l2 as [|[k v] r]; [constructor|]. specialize (E k). unfold elements_at in E. cbn in E.
    rewrite Z.eqb_refl in E. apply Permutation_nil in E. discriminate.
  - destruct l1 as [|[k v] r].
    + destruct l2 as [|[k v] r]; [constructor|]. specialize (E k). unfold elements_at in E. cbn in E. rewrite Z.eqb_refl in E. apply Permutation_nil in E. discriminate.
    + set (f := fun e : Z * T => fst e =? k). etransitivity; [apply (filter_partition f)|]. etransitivity; [|apply Permutation_sym, (filter_partition f)].
      apply Permutation_app; [exact (E k)|]. apply IH.
      * cbn. unfold f at 1. cbn. rewrite Z.eqb_refl. cbn. pose proof (filter_len (fun x => negb (f x)) r). cbn in L. lia.
      * intros s. unfold elements_at. rewrite !filter_filter. specialize (E s). unfold elements_at in E.
        destruct (Z.eq_dec s k) as [->|N].
        { rewrite !filter_all_false; [constructor|rewrite Forall_forall; intros x _; unfold f; destruct (fst x =? k); reflexivity|rewrite Forall_forall; intros x _; unfold f; destruct (fst x =? k); reflexivity]. }
        assert (Q : forall l : buf T, filter (fun e => negb (f e) && (fst e =? s)) l = filter (fun e => fst e =? s) l).
        { intros l. apply filter_ext. intros x. unfold f. destruct (Z.eqb_spec (fst x) s) as [->|]; [|apply andb_false_r]. rewrite (proj2 (Z.eqb_neq s k) N). reflexivity. }
        now rewrite !Q.
Qed.
Lemma by_type_perm (l : buf meas) : (forall e, In e l -> typed (snd e)) -> Permutation l (by_type l).
Proof.
  induction l as [|e r IH]; intros T; [constructor|].
  pose proof (IH (fun x I => T x (or_intror I))) as IH'. pose proof (T e (or_introl eq_refl)) as Te. unfold typed in Te.
  unfold by_type, of_type in *. cbn [filter]. destruct (m_ty (snd e)); cbn [obs_eqb]; [congruence| | |].
  - now constructor.
  - now apply Permutation_cons_app.
  - rewrite app_assoc in *. now apply Permutation_cons_app.
Qed.
Lemma keyed_map (l : buf meas) : keyed_ok l -> keyed (map snd l) = l.
Proof.
  intros K. unfold keyed. rewrite map_map. induction l as [|[k x] r IH]; [reflexivity|]. cbn. f_equal; [f_equal; symmetry; exact (K _ (or_introl eq_refl))|].
  apply IH. intros e I. apply K. now right.
Qed.
Notation tsorted l := (wsorted (keyed l)).
Lemma tsorted_split t (l : list meas) : tsorted l -> l = filter (fun x => m_t x <? t) l ++ filter (fun x => t <=? m_t x) l.
Proof.
  induction l as [|x r IH]; [reflexivity|]. intros S. cbn [keyed map] in S. apply ws_inv in S. destruct S as [S F]. specialize (IH S). cbn. destruct (Z.ltb_spec (m_t x) t) as [L|L].
  - replace (t <=? m_t x) with false by lia. cbn. f_equal. exact IH.
  - replace (t <=? m_t x) with true by lia. rewrite Forall_forall in F.
    assert (A : filter (fun x => m_t x <? t) r = []).
    { apply filter_all_false. rewrite Forall_forall. intros y I. assert (J : In (m_t y, y) (keyed r)) by (apply keyed_In; exists y; auto). specialize (F _ J). unfold kle in F. cbn in F. lia. }
    rewrite A in *. cbn in *. f_equal. exact IH.
Qed.
Lemma insert_last m (l : list meas) : tsorted l -> (forall x, In x l -> m_t x <= m_t m) -> mb_insert (m_t m) m (keyed l) = keyed (l ++ [m]).
Proof.
  intros S H. assert (S' : tsorted (l ++ [m])).
  { rewrite keyed_app. apply ws_app. split; [exact S|]. split; [repeat constructor|]. intros a b Ia [<-|[]]. apply keyed_In in Ia. destruct Ia as [x [I ->]]. cbn. now apply H. }
  apply wsorted_ext; [now apply mb_insert_wsorted|exact S'|].
  intros s. rewrite mb_insert_at by exact S. rewrite keyed_app. unfold elements_at. rewrite filter_app. cbn [keyed map filter fst]. reflexivity.
Qed.
(** re-sorting after an insertion: the same measurements, and those before the start of the sort where they were *)
Lemma sort_insert_r t m (l : list meas) : tsorted l -> (forall x, In x (m :: l) -> typed x) -> t <= m_t m ->
  exists L, sort_from t (mb_insert (m_t m) m (keyed l)) = keyed L /\ tsorted L /\ Permutation (m :: l) L /\
    filter (fun x => m_t x <? t) L = filter (fun x => m_t x <? t) l.
Proof.
  intros W Ty Lt. set (q := mb_insert (m_t m) m (keyed l)). assert (Wq : wsorted q) by now apply mb_insert_wsorted.
  assert (Kq : keyed_ok q). { intros e I. apply mb_insert_In in I; [|exact W]. destruct I as [->|I]; [reflexivity|now apply (keyed_ok' l)]. }
  destruct (sort_from_spec t q Wq Kq) as [Ws E]. unfold q in E at 1. 
  assert (X : existsb (fun e => t <=? fst e) q = true) by (apply existsb_exists; exists (m_t m, m); split; [apply mb_insert_In; [exact W|now left]|cbn; lia]).
  rewrite X in E. clear X. assert (Ks : keyed_ok (sort_from t q)).
  { intros e I. apply elements_at_all in I. rewrite E in I. apply Kq. destruct (fst e <? t).
    - unfold elements_at in I. apply filter_In in I. tauto.
    - apply by_type_In in I. destruct I as [I _]. unfold elements_at in I. apply filter_In in I. tauto. }
  exists (map snd (sort_from t q)). rewrite keyed_map by exact Ks. split; [reflexivity|]. split; [exact Ws|]. split.
  - assert (Pq : Permutation (keyed (m :: l)) q).
    { apply perm_instants. intros s. unfold q. rewrite mb_insert_at by exact W. unfold elements_at. cbn [keyed map filter fst].
      destruct (m_t m =? s); [|rewrite app_nil_r; reflexivity]. apply Permutation_cons_append. }
    assert (Ps : Permutation q (sort_from t q)).
    { apply perm_instants. intros s. rewrite E. destruct (s <? t); [reflexivity|]. apply by_type_perm. intros e I. unfold elements_at in I. apply filter_In in I. destruct I as [I _].
      apply (Permutation_in _ (Permutation_sym Pq)) in I. apply keyed_In in I. destruct I as [x [I ->]]. now apply Ty. }
    apply (Permutation_map snd) in Pq, Ps. rewrite keyed_snd in Pq. now apply Permutation_trans with (map snd q).
  - assert (Q : keyed (filter (fun x => m_t x <? t) (map snd (sort_from t q))) = keyed (filter (fun x => m_t x <? t) l)).
    2:{ apply (f_equal (map snd)) in Q. now rewrite !keyed_snd in Q. }
    rewrite <- (filter_keyed (fun k => k <? t)), keyed_map, <- (filter_keyed (fun k => k <? t)) by exact Ks. apply wsorted_ext; [now apply wsorted_filter|now apply wsorted_filter|].
    intros s. rewrite !elements_at_filter_lt, E. destruct (Z.ltb_spec s t) as [L|L]; [|reflexivity]. unfold q. rewrite mb_insert_at by exact W.
    replace (m_t m =? s) with false by lia. apply app_nil_r.
Qed.
End Lists.

Section RR.
Context {B M P : Type}.
Notation meas := (meas P). Notation inst := (inst B M). Notation dict := (dict B M). Notation handler := (handler B M P).
Implicit Types (h : handler) (m : meas) (d : dict) (i : inst).
Variable deleg : dict -> meas -> dict * status.
Notation step := (replay_step deleg).
Variables wa wb : Z.
Variables (good : dict -> Prop) (okm : meas -> Prop).
Notation wf := (fine wa wb good).
Notation runs := (runs deleg).
Notation fit := (fit deleg wa wb good okm).
(** ArrivalProofs.Inv without the order at one instant *)
Record inv_r d0 h (l : list meas) : Prop := {
  w_meas : h_meas h = keyed l; w_sorted : wsorted (keyed l); w_redo : h_redo h = []; w_wf : wf (h_dict h);
  w_same : same (h_dict h) (sd (runs d0 l)); w_ooo : h_ooo h = so (runs d0 l) }.
Variable viol : meas -> buf meas -> bool.
Hypothesis Vr : forall m l, order_violated_relaxed m l = true -> viol m l = true.
Variable disc : meas -> handler -> bool.
Hypothesis Dn : forall m h, disc m h = false.
Hypothesis C : contract wa wb good okm deleg.
Variables (d0 : dict) (lo hz hzo tmax sl : Z).
Hypothesis Ck : clock tmax sl.
Hypothesis W0 : wf d0.
Hypothesis An0 : forall e, In e d0 -> exists k v, k < lo /\ bel_at k (snd e) = Some v.
Hypothesis Be0 : below lo d0.
Hypothesis Hhz : 0 <= hz < 2097151 * 1000000000.
Hypothesis Hhzo : 0 <= hzo < 2097151 * 1000000000.
Hypothesis Lo : 0 <= lo.

Lemma check_noop_r hx m (l : list meas) : h_near hx hz -> wsorted (keyed l) -> fit d0 lo hz hzo tmax sl (m :: l) ->
  check_horizon hx (mb_insert (m_t m) m (keyed l)) = Ok (mb_insert (m_t m) m (keyed l)).
Proof.
  intros N S [F1 [F2 _]]. set (L := mb_insert (m_t m) m (keyed l)).
  assert (W : wsorted L) by now apply mb_insert_wsorted.
  assert (In_L : forall e, In e L -> exists x, In x (m :: l) /\ e = (m_t x, x)).
  { intros e I. apply mb_insert_In in I; [|exact S]. destruct I as [->|I]; [exists m; split; [now left|reflexivity]|].
    apply keyed_In in I. destruct I as [x [I ->]]. exists x. split; [now right|reflexivity]. }
  apply (check_clock tmax sl Ck hx hz); [exact W|exact N|exact Hhz| |].
  - intros e I. apply In_L in I. destruct I as [x [I ->]]. destruct (F1 x I) as [_ [? _]]. cbn. lia.
  - intros e e' I I'. apply In_L in I, I'. destruct I as [x [I ->]], I' as [y [I' ->]]. now apply F2.
Qed.
Lemma find_in_r h l id i : inv_r d0 h l -> wins wa wb okm l -> d_find id d0 = Some i -> i_enabled i = true ->
  exists j, d_find id (h_dict h) = Some j /\ i_enabled j = true.
Proof.
  intros V N E En. assert (K : keeps (fun _ => False) d0 (sd (runs d0 l))).
  { apply (fold_keeps wa wb good okm deleg C (fun _ => False) l (d0, [], [])); [intros ? ? []|exact W0|exact N]. }
  pose proof (keeps_find _ id _ _ K) as Q1. pose proof (same_find id _ _ (w_same _ _ _ V)) as Q2. rewrite E in Q1.
  destruct (d_find id (sd (runs d0 l))) as [a|]; [|contradiction]. destruct (d_find id (h_dict h)) as [j|]; [|contradiction].
  exists j. split; [reflexivity|]. destruct Q2 as [-> _]. congruence.
Qed.
Lemma flags_kept_r h l m : inv_r d0 h l -> fit d0 lo hz hzo tmax sl (m :: l) -> h_near (h_ooo_max h) hzo ->
  check_horizon_from_t (h_ooo_max h) (from_stamp_ns (m_t m)) (h_ooo h) = Ok (h_ooo h).
Proof.
  intros V [F1 [F2 F3]] N. rewrite (w_ooo _ _ _ V). destruct F3 as [F3|F3].
  - rewrite (runs_no_ooo deleg wa wb good okm C d0 W0); [reflexivity| |exact F3]. intros x I. apply F1. now right.
  - apply (check_from_clock tmax sl Ck _ hzo); [apply ssorted_w, fold_so_sorted; constructor|exact N|exact Hhzo|destruct (F1 m) as [_ [? _]]; [now left|lia]|].
    intros [k v] I. destruct (fold_flags deleg l (d0, [], []) k) as [[? []]|[x [Ix ->]]]; [exists v; exact I|].
    specialize (F3 m x (or_introl eq_refl) (or_intror Ix)). cbn. lia.
Qed.
Lemma arrive_r h l m : inv_r d0 h l -> h_near (h_max h) hz -> h_near (h_ooo_max h) hzo ->
  fit d0 lo hz hzo tmax sl (m :: l) -> (l = [] \/ exists x, In x l /\ m_t x + sl < m_t m) ->
  exists h' vec, process_gen deleg viol disc m h = Ok (h', vec) /\ frame h h' /\
    exists L, inv_r d0 h' L /\ Permutation (m :: l) L /\ (viol m (keyed l) = false -> so (runs d0 l) = [] -> L = l ++ [m]).
Proof.
  intros V N No F Old. pose proof V as [Vm Vs Vq Vw Vd Vo]. pose proof F as [F1 [F2 F3]].
  destruct (F1 m (or_introl eq_refl)) as [Tm [Bm [_ [i [Ei En]]]]].
  assert (Nml : wins wa wb okm (m :: l)) by (intros x I; destruct (F1 x I) as [_ [_ [Nx _]]]; exact Nx). assert (Nm : win wa wb okm m) by (apply Nml; now left). assert (Nl : wins wa wb okm l) by (intros x I; apply Nml; now right).
  destruct (find_in_r h l _ i V Nl Ei En) as [j [Ej Enj]].
  assert (Typ : forall x, In x (m :: l) -> typed x) by (intros x I; now apply F1).
  unfold process_gen. unfold exists_id. rewrite Ej. cbn [negb].
  assert (TO : too_old m (h_meas h) = false).
  { rewrite Vm. destruct (too_old m (keyed l)) eqn:To; [exfalso|reflexivity].
    apply (too_old_clock tmax sl m (keyed l) Ck) in To; [|exact Vs| |lia].
    - destruct To as [Nl' To]. destruct Old as [->|[x [Ix Lx]]]; [now apply Nl'|].
      specialize (To (m_t x, x)). rewrite keyed_In in To. specialize (To (ex_intro _ x (conj Ix eq_refl))). cbn in To. lia.
    - intros e I. apply keyed_In in I. destruct I as [x [I ->]]. destruct (F1 x (or_intror I)) as [_ [? _]]. cbn. lia. }
  rewrite TO.
  assert (SR : serve_requests deleg h = Ok h).
  { unfold serve_requests. rewrite Vq. cbn [check_horizon_from_t empty negb obind get_oldest]. f_equal. unfold set_redo. rewrite <- Vq. symmetry. apply handler_eta. }
  rewrite SR. cbn [obind]. rewrite Dn. rewrite (flags_kept_r h l m V F No). cbn [obind].
  set (flags := h_ooo h). assert (Sf : ssorted flags) by (unfold flags; rewrite Vo; apply fold_so_sorted; constructor).
  assert (FL : forall k v, In (k, v) flags -> exists x, In x l /\ k = m_t x).
  { intros k v I. unfold flags in I. rewrite Vo in I. destruct (fold_flags deleg l (d0, [], []) k) as [[? []]|Q]; [exists v; exact I|exact Q]. }
  destruct (viol m (h_meas h) || (hb_exist_before_t (m_t m) flags || exist_at_t (m_t m) flags)) eqn:Vi.
  - (* replay *)
    cbn [set_ooo h_max h_meas]. rewrite Vm. rewrite check_noop_r by (auto; exact F). cbn [obind].
    set (ooo_exists := hb_exist_before_t (m_t m) flags || exist_at_t (m_t m) flags) in *.
    set (ts := if ooo_exists then _ else m_t m).
    assert (Ts : ts <= m_t m /\ lo <= ts /\ forall k v, In (k, v) flags -> ts <= k).
    { unfold ts. destruct ooo_exists eqn:Oe.
      - assert (flags <> []) by (intros Q; unfold ooo_exists in Oe; rewrite Q in Oe; discriminate).
        destruct (nonempty_oldest flags H) as [b Eb]. rewrite Eb. destruct (oldest_t_spec _ _ (ssorted_w _ Sf) Eb) as [[vb Ib] Mb].
        destruct (FL _ _ Ib) as [x [Ix ->]]. destruct (F1 x (or_intror Ix)) as [_ [Bx _]].
        destruct (Z.ltb_spec (m_t x) (m_t m)); (split; [lia|]); (split; [lia|]); intros k v I; specialize (Mb _ I); cbn in Mb; lia.
      - split; [lia|]. split; [lia|]. unfold ooo_exists in Oe. apply orb_false_elim in Oe. destruct Oe as [O1 O2]. intros k v I.
        destruct (Z_le_gt_dec (m_t m) k) as [Q|Q]; [exact Q|]. rewrite hb_exist_before_get in O1.
        destruct (get_before_t (m_t m) flags) eqn:G; [discriminate|]. pose proof (proj1 (get_before_none (m_t m) flags (ssorted_w _ Sf)) G) as Z0.
        specialize (Z0 _ I). cbn in Z0. lia. }
    assert (OF : so (runs d0 l) = [] -> ooo_exists = false) by (intros Oo; unfold ooo_exists, flags; now rewrite Vo, Oo).
    destruct Ts as [Ts1 [LoTs Ts2]]. clearbody ts ooo_exists.
    destruct (sort_insert_r ts m l Vs Typ Ts1) as [L [EqL [SL [PL FiL]]]]. rewrite EqL.
    rewrite redo_from_spec by (cbn; exact SL).
    cbn [set_meas set_ooo h_meas h_dict]. rewrite from_t_keyed.
    set (suf := filter (fun x => ts <=? m_t x) L). set (pre := filter (fun x => m_t x <? ts) l).
    assert (EL : L = pre ++ suf).
    { unfold pre, suf. rewrite (tsorted_split ts L SL) at 1. f_equal. exact FiL. }
    set (Pst := fold_left step pre (d0, [], [])).
    assert (Np : wins wa wb okm pre) by (intros x I; unfold pre in I; apply filter_In in I; apply Nl; tauto).
    assert (Ns : wins wa wb okm suf) by (intros x I; unfold suf in I; apply filter_In in I; destruct I as [I _]; apply (Permutation_in _ (Permutation_sym PL)) in I; now apply Nml).
    assert (WP : wf (sd Pst)) by (apply (fold_wf wa wb good okm deleg C); auto).
    assert (EF : runs d0 l = fold_left step (filter (fun x => ts <=? m_t x) l) Pst).
    { unfold ArrivalProofs.runs. rewrite (tsorted_split ts l Vs) at 1. now rewrite fold_left_app. }
    assert (OP : so Pst = []).
    { destruct (so Pst) as [|[k v] r] eqn:Q; [reflexivity|]. exfalso.
      assert (A : exists v0, In (k, v0) (so Pst)) by (rewrite Q; exists v; now left).
      pose proof (fold_grow deleg (filter (fun x => ts <=? m_t x) l) Pst k A) as [v1 G]. rewrite <- EF, <- Vo in G.
      specialize (Ts2 _ _ G). destruct (fold_flags deleg pre (d0, [], []) k A) as [[? []]|[x [Ix ->]]].
      unfold pre in Ix. apply filter_In in Ix. lia. }
    assert (KP : keeps (fun k => k < ts) (sd Pst) (h_dict h)).
    { apply keeps_same with (sd (runs d0 l)); [|exact Vd]. rewrite EF. apply (fold_keeps wa wb good okm deleg C); [|exact WP|].
      - intros x I. apply filter_In in I. lia.
      - intros x I. apply filter_In in I. apply Nl; tauto. }
    assert (Q : same (sd Pst) (remove_beliefs_from ts (h_dict h))).
    { apply (rbf_restores wa wb good); [exact Vw| | |exact KP].
      - apply (keeps_anchored deleg good lo ts d0); [|exact An0|exact LoTs]. apply keeps_same with (sd (runs d0 l)); [|exact Vd].
        apply (fold_keeps wa wb good okm deleg C (fun k => k < lo) l (d0, [], [])); [|exact W0|exact Nl]. intros x I. destruct (F1 x (or_intror I)) as [_ [? _]]. lia.
      - apply (keeps_below ts d0).
        + apply (fold_keeps wa wb good okm deleg C (fun k => ts <= k) pre (d0, [], [])); [|exact W0|exact Np]. intros x I. unfold pre in I. apply filter_In in I. lia.
        + intros e I. destruct (Be0 e I) as [A1 A2]. split; intros; [apply A1|apply A2]; lia. }
    assert (WR : wf (remove_beliefs_from ts (h_dict h))) by now apply (rbf_wf wa wb good okm deleg C).
    assert (EQ : eqs (fold_left step suf (remove_beliefs_from ts (h_dict h), [], [])) (fold_left step suf (sd Pst, [], []))).
    { apply (fold_eqs wa wb good okm deleg C); [exact WR|exact WP|exact Ns|]. split; [now apply same_sym|split; reflexivity]. }
    assert (ER : sd (runs d0 L) = sd (fold_left step suf (sd Pst, [], [])) /\ so (runs d0 L) = so (fold_left step suf (sd Pst, [], []))).
    { unfold ArrivalProofs.runs. rewrite EL, fold_left_app. fold Pst.
      assert (EP : Pst = (sd Pst, [], snd Pst)) by (clear - OP; destruct Pst as [[a b] c]; cbn in OP; subst b; reflexivity).
      rewrite EP at 1 3. exact (fold_vec deleg suf (sd Pst) [] (snd Pst)). }
    destruct EQ as [E1 [E2 _]]. destruct ER as [R1 R2].
    pose proof (fold_wf wa wb good okm deleg C suf (remove_beliefs_from ts (h_dict h), [], []) WR Ns) as WF.
    destruct (fold_left step suf (remove_beliefs_from ts (h_dict h), [], [])) as [[d' o'] v'] eqn:FE.
    exists (set_ooo o' (set_dict d' (set_meas (keyed L) (set_ooo (if ooo_exists then [] else flags) (set_meas (mb_insert (m_t m) m (keyed l)) (set_ooo flags h)))))), v'.
    split; [reflexivity|]. split; [split; reflexivity|]. cbn [sd so fst snd] in *.
    exists L. split; [|split; [exact PL|]].
    2:{ intros Vf Oo. exfalso. rewrite Vm, Vf, (OF Oo) in Vi. discriminate. }
    constructor; cbn [set_ooo set_dict set_meas h_meas h_dict h_redo h_ooo]; auto.
    + rewrite R1. exact E1.
    + rewrite R2. exact E2.
  - (* in order *)
    apply orb_false_elim in Vi. destruct Vi as [Vi Oe]. apply orb_false_elim in Oe. destruct Oe as [O1 O2]. rewrite Vm in Vi.
    assert (LE : forall x, In x l -> m_t x <= m_t m).
    { assert (X : order_violated_relaxed m (keyed l) = false) by (destruct (order_violated_relaxed m (keyed l)) eqn:X; [apply Vr in X; congruence|reflexivity]).
      unfold order_violated_relaxed in X. destruct (exist_after_t (m_t m) (keyed l)) eqn:X1; [discriminate|]. intros x Ix.
      destruct (Z_le_gt_dec (m_t x) (m_t m)) as [Q|Q]; [exact Q|]. assert (exist_after_t (m_t m) (keyed l) = true); [|congruence].
      apply exist_after_iff. exists (m_t x, x). split; [apply keyed_In; eauto|cbn; lia]. }
    assert (EF : flags = []).
    { destruct flags as [|[k v] r] eqn:Ef; [reflexivity|]. exfalso. destruct (FL k v (or_introl eq_refl)) as [x [Ix ->]].
      specialize (LE x Ix). rewrite hb_exist_before_get in O1. destruct (get_before_t (m_t m) _) eqn:G in O1; [discriminate|].
      pose proof (proj1 (get_before_none (m_t m) _ (ssorted_w _ Sf)) G (m_t x, v) (or_introl eq_refl)) as Z0. cbn in Z0.
      assert (exist_at_t (m_t m) ((m_t x, v) :: r) = true); [|congruence]. apply exist_at_iff. exists v. left. f_equal. lia. }
    rewrite EF in *. cbn [set_ooo h_dict]. rewrite (surjective_pairing (h_delegate deleg (h_dict h) m)).
    assert (ND : is_disc (r_status (snd (h_delegate deleg (h_dict h) m))) = false).
    { unfold h_delegate. rewrite Ej, Enj. pose proof (c_disc wa wb good okm deleg C (h_dict h) m (proj1 Vw) (proj2 Vw) (proj1 Nm) (proj2 Nm)) as Q. destruct (deleg (h_dict h) m) as [d' st]. cbn in *. now destruct st. }
    rewrite ND. cbn [negb set_ooo set_dict h_max h_meas]. rewrite Vm, check_noop_r by (auto; exact F). cbn [obind].
    eexists _, _. split; [reflexivity|]. split; [split; reflexivity|]. exists (l ++ [m]).
    split; [|split; [apply Permutation_cons_append|reflexivity]]. rewrite insert_last by assumption.
    assert (OR : so (runs d0 l) = []) by (rewrite <- Vo; exact EF).
    assert (ST : sd (runs d0 (l ++ [m])) = fst (h_delegate deleg (sd (runs d0 l)) m) /\
                 so (runs d0 (l ++ [m])) = if is_ooo (r_status (snd (h_delegate deleg (sd (runs d0 l)) m))) then hb_insert (m_t m) true [] else []).
    { unfold ArrivalProofs.runs. rewrite fold_left_app. cbn [fold_left]. fold (runs d0 l). revert OR. destruct (runs d0 l) as [[a b] c]. cbn [so sd fst snd]. intros ->. now apply step_sd. }
    destruct ST as [ST1 ST2]. destruct (hdel_same wa wb good okm deleg C (h_dict h) (sd (runs d0 l)) m Vw (runs_wf deleg wa wb good okm C d0 W0 l Nl) Nm Vd) as [HD1 HD2].
    constructor; cbn [set_ooo set_dict set_meas h_meas h_dict h_redo h_ooo]; auto.
    + rewrite <- insert_last by assumption. now apply mb_insert_wsorted.
    + now apply (hdel_wf wa wb good okm deleg C).
    + rewrite ST1. exact HD1.
    + rewrite ST2, HD2. reflexivity.
Qed.

Fixpoint all_gen h (ms : list meas) : outcome handler :=
  match ms with [] => Ok h | m :: r => let! x := process_gen deleg viol disc m h in all_gen (fst x) r end.
Notation fitl := (fit d0 lo hz hzo tmax sl).
Lemma fitl_incl ms ms' : (forall x, In x ms' -> In x ms) -> fitl ms -> fitl ms'.
Proof. intros I [A [B' D]]. split; [auto|]. split; [auto|]. destruct D as [D|D]; [now left|right; auto]. Qed.
Lemma all_gen_inv todo : forall h l, inv_r d0 h l -> h_near (h_max h) hz -> h_near (h_ooo_max h) hzo ->
  fitl (l ++ todo) -> (exists x, In x l /\ forall y, In y todo -> m_t x + sl < m_t y) ->
  exists h' L, all_gen h todo = Ok h' /\ inv_r d0 h' L /\ Permutation (l ++ todo) L /\
    ((forall p m q, todo = p ++ m :: q -> viol m (keyed (l ++ p)) = false) -> (forall l, wins wa wb okm l -> so (runs d0 l) = []) -> L = l ++ todo).
Proof.
  induction todo as [|m r IH]; intros h l V N No F [x [Ix Lx]].
  { exists h, l. rewrite app_nil_r. split; [reflexivity|]. split; [exact V|]. split; [reflexivity|reflexivity]. }
  cbn [all_gen]. destruct (arrive_r h l m V N No) as [h1 [vec [E [[Fr1 Fr2] [L1 [V1 [P1 K1]]]]]]].
  - apply fitl_incl with (l ++ m :: r); [|exact F]. intros y [<-|I]; apply in_or_app; [right; now left|now left].
  - right. exists x. split; [exact Ix|apply Lx; now left].
  - rewrite E. cbn [obind fst].
    assert (PP : Permutation (l ++ m :: r) (L1 ++ r)).
    { transitivity (m :: l ++ r); [apply Permutation_sym, Permutation_middle|]. change (m :: l ++ r) with ((m :: l) ++ r). now apply Permutation_app_tail. }
    destruct (IH h1 L1) as [h2 [L2 [E2 [V2 [P2 K2]]]]]; auto.
    + now rewrite Fr1.
    + now rewrite Fr2.
    + apply fitl_incl with (l ++ m :: r); [|exact F]. intros y. apply Permutation_in. now apply Permutation_sym.
    + exists x. split; [apply (Permutation_in _ P1); now right|]. intros y I. apply Lx. now right.
    + exists h2, L2. split; [exact E2|]. split; [exact V2|]. split; [now transitivity (L1 ++ r)|]. intros Nv Ns.
      assert (EL : L1 = l ++ [m]).
      { apply K1; [specialize (Nv [] m r eq_refl); now rewrite app_nil_r in Nv|]. apply Ns. intros y I. destruct F as [F1 _].
        destruct (F1 y (in_or_app _ _ _ (or_introl I))) as [_ [_ [Q _]]]. exact Q. }
      rewrite K2, EL, <- app_assoc; [reflexivity| |exact Ns]. intros p y q ->. rewrite EL, <- app_assoc. apply (Nv (m :: p) y q). reflexivity.
Qed.
Lemma all_gen_exact h m0 rest : h_dict h = d0 -> h_meas h = [] -> h_ooo h = [] -> h_redo h = [] ->
  h_near (h_max h) hz -> h_near (h_ooo_max h) hzo -> fitl (m0 :: rest) -> (forall y, In y rest -> m_t m0 + sl < m_t y) ->
  exists h' L, all_gen h (m0 :: rest) = Ok h' /\ inv_r d0 h' L /\ Permutation (m0 :: rest) L /\
    ((forall p m q, m0 :: rest = p ++ m :: q -> viol m (keyed p) = false) -> (forall l, wins wa wb okm l -> so (runs d0 l) = []) -> L = m0 :: rest).
Proof.
  intros Hd Hm Ho Hr N No F Old.
  assert (V : inv_r d0 h []) by (constructor; rewrite ?Hd, ?Hm, ?Ho, ?Hr; [reflexivity|constructor|reflexivity|exact W0|apply same_refl|reflexivity]).
  destruct (arrive_r h [] m0 V N No) as [h1 [vec [E [[Fr1 Fr2] [L1 [V1 [P1 K1]]]]]]]; [apply fitl_incl with (m0 :: rest); [intros x [<-|[]]; now left|exact F]|now left|].
  apply Permutation_length_1_inv in P1. subst L1. cbn [all_gen]. rewrite E. cbn [obind fst].
  destruct (all_gen_inv rest h1 [m0]) as [h2 [L2 [E2 [V2 [P2 K2]]]]]; auto.
  - now rewrite Fr1.
  - now rewrite Fr2.
  - exists m0. split; [now left|exact Old].
  - exists h2, L2. split; [exact E2|]. split; [exact V2|]. split; [exact P2|]. intros Nv Ns. apply K2; [|exact Ns].
    intros p m q ->. apply (Nv (m0 :: p) m q). reflexivity.
Qed.
End RR.

(** a history in relaxed order violates it nowhere *)
Lemma ordered_not_viol {P} (p : list (meas P)) m q : ordered_r (keyed (p ++ m :: q)) -> order_violated_relaxed m (keyed p) = false.
Proof.
  intros [W [_ S]]. rewrite keyed_app in W, S. apply ws_app in W. destruct W as [Wp [_ Wm]]. unfold order_violated_relaxed.
  destruct (exist_after_t (m_t m) (keyed p)) eqn:X.
  { exfalso. apply exist_after_iff in X. destruct X as [e [I L]]. specialize (Wm e (m_t m, m) I (or_introl eq_refl)). exact (Zlt_not_le _ _ L Wm). }
  destruct (m_ty m) eqn:T; try reflexivity. rewrite get_all_eq by exact Wp. destruct (existsb _ _) eqn:Y; [exfalso|reflexivity].
  apply existsb_exists in Y. destruct Y as [x [I Y]]. apply in_map_iff in I. destruct I as [e [<- I]].
  specialize (S (m_t m)). unfold elements_at in S, I. rewrite filter_app in S. cbn [keyed map filter fst] in S. rewrite Z.eqb_refl in S.
  induction (filter _ (keyed p)) as [|a r IH]; [contradiction|]. cbn in S. apply StronglySorted_inv in S. destruct S as [S F]. destruct I as [->|I]; [|now apply IH].
  rewrite Forall_forall in F. specialize (F (m_t m, m)). unfold rler in F. cbn [snd] in F. apply F; [apply in_or_app; right; now left| |exact T].
  apply orb_true_iff in Y. destruct Y as [Y|Y]; apply obs_eqb_iff in Y; [now left|now right].
Qed.
