(** Processing measurements in any arrival order: the handler's state is always the in-order replay of its history. *)
From Coq Require Import ZArith List Bool Arith Lia Sorted Permutation.
From Flocq Require Import IEEE754.BinarySingleNaN.
From Verif Require Import Outcome TimestampModel DoubleModel BufModel Spec_Buf BufProofs HorizonModel HorizonProofs MeasModel HandlerModel Spec_Handler HandlerProofs AgeProofs ClockProofs ReplayProofs.
Import ListNotations.
Local Open Scope Z_scope.
Local Open Scope outcome_scope.

Section AP.
Context {B M P : Type}.
Notation meas := (meas P). Notation inst := (inst B M). Notation dict := (dict B M). Notation handler := (handler B M P).
Implicit Types (h : handler) (m : meas) (d : dict) (i : inst).
Variable deleg : dict -> meas -> dict * status.
Notation step := (replay_step deleg).

Fixpoint process_all h (ms : list meas) : outcome handler :=
  match ms with [] => Ok h | m :: r => let! x := process deleg m h in process_all (fst x) r end.

Definition runs d0 (l : list meas) := fold_left step l (d0, [], []).
Variables wa wb : Z.
Variables (good : dict -> Prop) (okm : meas -> Prop).
Notation wf := (fine wa wb good).
Record Inv d0 h (l : list meas) : Prop := {
  v_meas : h_meas h = keyed l; v_sorted : msorted l; v_redo : h_redo h = []; v_wf : wf (h_dict h);
  v_same : same (h_dict h) (sd (runs d0 l)); v_ooo : h_ooo h = so (runs d0 l) }.

Lemma keeps_same p d d' d'' : keeps p d d' -> same d'' d' -> keeps (B:=B) (M:=M) p d d''.
Proof.
  intros K. revert d''. induction K as [|a b r r' [E [S1 [S2 S3]]] F IH]; intros d'' S;
    inversion S as [|c ? r'' ? [E' [T1 [T2 T3]]] F']; subst; constructor; [|now apply IH].
  split; [congruence|]. split; [congruence|]. split; intros; [rewrite S2, T2 by assumption|rewrite S3, T3 by assumption]; reflexivity.
Qed.
Lemma keeps_find p id d d' : keeps p d d' -> 
  match d_find id d, d_find id d' with Some i, Some i' => i_enabled i = i_enabled (B:=B) (M:=M) i' | None, None => True | _, _ => False end.
Proof.
  induction 1 as [|[a i] [b i'] r r' [E [S _]] F IH]; [exact I|]. cbn [fst snd] in *. subst b. cbn [d_find].
  destruct (a =? id)%nat; [exact S|exact IH].
Qed.
Lemma keeps_anchored lo t d d' : keeps (B:=B) (M:=M) (fun k => k < lo) d d' -> (forall e, In e d -> exists k v, k < lo /\ bel_at k (snd e) = Some v) -> lo <= t -> anchored t d'.
Proof.
  intros K. induction K as [|a b r r' [E [S1 [S2 S3]]] F IH]; intros H L e I; [contradiction|]. destruct I as [<-|I].
  - destruct (H a (or_introl eq_refl)) as [k [v [Lk Ev]]]. exists k, v. split; [lia|]. now rewrite <- S2.
  - apply IH; [intros x Ix; apply H; now right|exact L|exact I].
Qed.
Lemma keeps_below t d d' : keeps (B:=B) (M:=M) (fun k => t <= k) d d' -> below t d -> below t d'.
Proof.
  intros K. induction K as [|a b r r' [E [S1 [S2 S3]]] F IH]; intros H e I; [contradiction|]. destruct I as [<-|I].
  - destruct (H a (or_introl eq_refl)) as [A1 A2]. split; intros; [rewrite <- S2|rewrite <- S3]; auto.
  - apply IH; [intros x Ix; apply H; now right|exact I].
Qed.

Lemma sorted_split t (l : list meas) : msorted l -> l = filter (fun x => m_t x <? t) l ++ filter (fun x => t <=? m_t x) l.
Proof.
  induction 1 as [|x r S IH F]; [reflexivity|]. cbn. destruct (Z.ltb_spec (m_t x) t) as [L|L].
  - replace (t <=? m_t x) with false by lia. cbn. f_equal. exact IH.
  - replace (t <=? m_t x) with true by lia. rewrite Forall_forall in F.
    assert (A : filter (fun x => m_t x <? t) r = []).
    { apply filter_all_false. rewrite Forall_forall. intros y I. specialize (F y I). unfold mle in F. lia. }
    rewrite A in *. cbn in *. f_equal. exact IH.
Qed.
Lemma from_t_keyed t (l : list meas) : from_t t (keyed l) = filter (fun x => t <=? m_t x) l.
Proof. unfold from_t. rewrite (filter_keyed (fun k => t <=? k)), keyed_snd. reflexivity. Qed.
Lemma insert_keyed m (l : list meas) : msorted l -> (forall x, In x l -> mle x m) -> mb_insert (m_t m) m (keyed l) = keyed (l ++ [m]).
Proof.
  intros S H. apply wsorted_ext; [now apply mb_insert_wsorted, keyed_ws| |].
  - rewrite <- rinsert_last by exact H. now apply keyed_ws, rinsert_sorted.
  - intros s. rewrite mb_insert_at by now apply keyed_ws. rewrite keyed_app. unfold elements_at. rewrite filter_app. cbn [keyed map filter fst].
    reflexivity.
Qed.

Hypothesis C : contract wa wb good okm deleg.
Variables (d0 : dict) (lo hz hzo tmax sl : Z).
Hypothesis Ck : clock tmax sl.
Hypothesis W0 : wf d0.
Hypothesis An0 : forall e, In e d0 -> exists k v, k < lo /\ bel_at k (snd e) = Some v.
Hypothesis Be0 : below lo d0.
Hypothesis Hhz : 0 <= hz < 2097151 * 1000000000.
Hypothesis Hhzo : 0 <= hzo < 2097151 * 1000000000.
Hypothesis Lo : 0 <= lo.

(** what is asked of a set of measurements *)
Definition fit (ms : list meas) : Prop :=
  (forall x, In x ms -> typed x /\ lo <= m_t x < tmax /\ (wa <= m_t x <= wb /\ okm x) /\ exists i, d_find (m_id x) d0 = Some i /\ i_enabled i = true) /\
  (forall x y, In x ms -> In y ms -> m_t x - m_t y <= hz - sl) /\
  ((forall d m, wf d -> win wa wb okm m -> snd (deleg d m) <> OUTOFORDER) \/ (forall x y, In x ms -> In y ms -> m_t x - m_t y <= hzo - sl)).

Lemma fit_wins ms : fit ms -> wins wa wb okm ms.
Proof. intros [H _] x I. apply H in I. unfold win. tauto. Qed.
Lemma runs_wf l : wins wa wb okm l -> wf (sd (runs d0 l)). Proof. intros N. apply (fold_wf wa wb good okm deleg C); auto. Qed.

Lemma runs_no_ooo l : wins wa wb okm l -> (forall d m, wf d -> win wa wb okm m -> snd (deleg d m) <> OUTOFORDER) -> so (runs d0 l) = [].
Proof.
  intros Wl N. unfold runs. set (s := (d0, [], [])). assert (E : so s = []) by reflexivity. assert (Ws : wf (sd s)) by exact W0. clearbody s. revert s E Ws.
  induction l as [|m r IH]; intros s E Ws; [exact E|]. cbn. assert (Nm : win wa wb okm m) by (apply Wl; now left).
  apply IH; [intros x I; apply Wl; now right| |now apply (step_wf wa wb good okm deleg C)]. destruct s as [[d o] v]. cbn in E. subst o.
  unfold replay_step. cbn [empty orb]. unfold h_delegate. destruct (d_find _ _) as [i|]; [|reflexivity].
  destruct (i_enabled i); [|reflexivity]. pose proof (N d m Ws Nm) as Q. destruct (deleg d m) as [d' st]. cbn in *. destruct st; try reflexivity. congruence.
Qed.

(** the check on the insertion is the identity inside the horizon *)
Lemma check_noop hx m (l : list meas) : h_near hx hz -> msorted l -> fit (m :: l) ->
  check_horizon hx (mb_insert (m_t m) m (keyed l)) = Ok (mb_insert (m_t m) m (keyed l)).
Proof.
  intros N S [F1 [F2 _]]. set (L := mb_insert (m_t m) m (keyed l)).
  assert (W : wsorted L) by now apply mb_insert_wsorted, keyed_ws.
  assert (In_L : forall e, In e L -> exists x, In x (m :: l) /\ e = (m_t x, x)).
  { intros e I. apply mb_insert_In in I; [|now apply keyed_ws]. destruct I as [->|I]; [exists m; split; [now left|reflexivity]|].
    apply keyed_In in I. destruct I as [x [I ->]]. exists x. split; [now right|reflexivity]. }
  apply (check_clock tmax sl Ck hx hz); [exact W|exact N|exact Hhz| |].
  - intros e I. apply In_L in I. destruct I as [x [I ->]]. destruct (F1 x I) as [_ [? _]]. cbn. lia.
  - intros e e' I I'. apply In_L in I, I'. destruct I as [x [I ->]], I' as [y [I' ->]]. now apply F2.
Qed.

Lemma find_in h l id i : Inv d0 h l -> wins wa wb okm l -> d_find id d0 = Some i -> i_enabled i = true ->
  exists j, d_find id (h_dict h) = Some j /\ i_enabled j = true.
Proof.
  intros V N E En. assert (K : keeps (fun _ => False) d0 (sd (runs d0 l))).
  { apply (fold_keeps wa wb good okm deleg C (fun _ => False) l (d0, [], [])); [intros ? ? []|exact W0|exact N]. }
  pose proof (keeps_find _ id _ _ K) as Q1. pose proof (same_find id _ _ (v_same _ _ _ V)) as Q2. rewrite E in Q1.
  destruct (d_find id (sd (runs d0 l))) as [a|]; [|contradiction]. destruct (d_find id (h_dict h)) as [j|]; [|contradiction].
  exists j. split; [reflexivity|]. destruct Q2 as [-> _]. congruence.
Qed.

Lemma handler_eta h : h = Handler (h_dict h) (h_meas h) (h_ooo h) (h_redo h) (h_sec h) (h_max h) (h_ooo_max h) (h_redo_max h).
Proof. now destruct h. Qed.

Lemma flags_kept h l m : Inv d0 h l -> fit (m :: l) -> h_near (h_ooo_max h) hzo ->
  check_horizon_from_t (h_ooo_max h) (from_stamp_ns (m_t m)) (h_ooo h) = Ok (h_ooo h).
Proof.
  intros V [F1 [F2 F3]] N. rewrite (v_ooo _ _ _ V). destruct F3 as [F3|F3].
  - rewrite runs_no_ooo; [reflexivity| |exact F3]. intros x I. apply F1. now right.
  - apply (check_from_clock tmax sl Ck _ hzo); [apply ssorted_w, fold_so_sorted; constructor|exact N|exact Hhzo|destruct (F1 m) as [_ [? _]]; [now left|lia]|].
    intros [k v] I. destruct (fold_flags deleg l (d0, [], []) k) as [[? []]|[x [Ix ->]]]; [exists v; exact I|].
    specialize (F3 m x (or_introl eq_refl) (or_intror Ix)). cbn. lia.
Qed.

Lemma step_sd d o v m : empty o = true -> sd (step (d, o, v) m) = fst (h_delegate deleg d m) /\
  so (step (d, o, v) m) = if is_ooo (r_status (snd (h_delegate deleg d m))) then hb_insert (m_t m) true o else o.
Proof. intros E. unfold replay_step. rewrite E. cbn [orb]. destruct (h_delegate deleg d m). split; reflexivity. Qed.

Definition frame h h' := h_max h' = h_max h /\ h_ooo_max h' = h_ooo_max h.

Lemma arrive h l m : Inv d0 h l -> h_near (h_max h) hz -> h_near (h_ooo_max h) hzo ->
  fit (m :: l) -> (l = [] \/ exists x, In x l /\ m_t x + sl < m_t m) ->
  exists h' vec, process deleg m h = Ok (h', vec) /\ Inv d0 h' (rinsert m l) /\ frame h h'.
Proof.
  intros V N No F Old. pose proof V as [Vm Vs Vr Vw Vd Vo]. pose proof F as [F1 [F2 F3]].
  destruct (F1 m (or_introl eq_refl)) as [Tm [Bm [_ [i [Ei En]]]]].
  pose proof (fit_wins _ F) as Nml. assert (Nm : win wa wb okm m) by (apply Nml; now left). assert (Nl : wins wa wb okm l) by (intros x I; apply Nml; now right).
  destruct (find_in h l _ i V Nl Ei En) as [j [Ej Enj]].
  assert (Typ : forall x, In x (m :: l) -> typed x) by (intros x I; now apply F1).
  unfold process, process_gen. unfold exists_id. rewrite Ej. cbn [negb].
  assert (TO : too_old m (h_meas h) = false).
  { rewrite Vm. destruct (too_old m (keyed l)) eqn:To; [exfalso|reflexivity].
    apply (too_old_clock tmax sl m (keyed l) Ck) in To; [|now apply keyed_ws| |lia].
    - destruct To as [Nl' To]. destruct Old as [->|[x [Ix Lx]]]; [now apply Nl'|].
      specialize (To (m_t x, x)). rewrite keyed_In in To. specialize (To (ex_intro _ x (conj Ix eq_refl))). cbn in To. lia.
    - intros e I. apply keyed_In in I. destruct I as [x [I ->]]. destruct (F1 x (or_intror I)) as [_ [? _]]. cbn. lia. }
  rewrite TO.
  assert (SR : serve_requests deleg h = Ok h).
  { unfold serve_requests. rewrite Vr. cbn [check_horizon_from_t empty negb obind get_oldest]. f_equal. unfold set_redo. rewrite <- Vr. symmetry. apply handler_eta. }
  rewrite SR. cbn [obind]. rewrite (flags_kept h l m V F No). cbn [obind].
  set (flags := h_ooo h). assert (Sf : ssorted flags) by (unfold flags; rewrite Vo; apply fold_so_sorted; constructor).
  assert (FL : forall k v, In (k, v) flags -> exists x, In x l /\ k = m_t x).
  { intros k v I. unfold flags in I. rewrite Vo in I. destruct (fold_flags deleg l (d0, [], []) k) as [[? []]|Q]; [exists v; exact I|exact Q]. }
  destruct (order_violated m (h_meas h) || (hb_exist_before_t (m_t m) flags || exist_at_t (m_t m) flags)) eqn:Vi.
  - (* replay *)
    cbn [set_ooo h_max h_meas]. rewrite Vm. rewrite check_noop by (auto; exact F). cbn [obind].
    set (ooo_exists := hb_exist_before_t (m_t m) flags || exist_at_t (m_t m) flags) in *.
    set (ts := if ooo_exists then _ else m_t m).
    assert (Ts : ts <= m_t m /\ lo <= ts /\ forall k v, In (k, v) flags -> ts <= k).
    { unfold ts. destruct ooo_exists eqn:Oe.
      - assert (flags <> []) by (intros Q; unfold ooo_exists in Oe; rewrite Q in Oe; discriminate).
        destruct (nonempty_oldest flags H) as [b Eb]. rewrite Eb. destruct (oldest_t_spec _ _ (ssorted_w _ Sf) Eb) as [[vb Ib] Mb].
        destruct (FL _ _ Ib) as [x [Ix ->]]. destruct (F1 x (or_intror Ix)) as [_ [Bx _]].
        destruct (Z.ltb_spec (m_t x) (m_t m)); (split; [lia|]); (split; [lia|]); intros k v I; specialize (Mb _ I); cbn in Mb; lia.
      - split; [lia|]. split; [lia|]. unfold ooo_exists in Oe. apply orb_false_elim in Oe. destruct Oe as [O1 O2]. intros k v I.
        destruct (Z_le_gt_dec (m_t m) k) as [Q|Q]; [exact Q|]. rewrite hb_exist_before_get in O1.
        destruct (get_before_t (m_t m) flags) eqn:G; [discriminate|]. pose proof (proj1 (get_before_none (m_t m) flags (ssorted_w _ Sf)) G) as Z0.
        specialize (Z0 _ I). cbn in Z0. lia. }
    destruct Ts as [Ts1 [LoTs Ts2]]. clearbody ts ooo_exists.
    rewrite (sort_insert ts m l Vs Typ Ts1).
    set (L := rinsert m l). assert (SL : msorted L) by now apply rinsert_sorted.
    rewrite redo_from_spec by (cbn; now apply keyed_ws).
    cbn [set_meas set_ooo h_meas h_dict]. rewrite from_t_keyed.
    set (suf := filter (fun x => ts <=? m_t x) L). set (pre := filter (fun x => m_t x <? ts) l).
    assert (EL : L = pre ++ suf).
    { unfold pre, suf. rewrite (sorted_split ts L SL) at 1. f_equal. unfold L. rewrite rinsert_filter by exact Vs.
      replace (m_t m <? ts) with false by lia. reflexivity. }
    set (Pst := fold_left step pre (d0, [], [])).
    assert (Np : wins wa wb okm pre) by (intros x I; unfold pre in I; apply filter_In in I; apply Nl; tauto).
    assert (Ns : wins wa wb okm suf) by (intros x I; unfold suf in I; apply filter_In in I; destruct I as [I _]; apply (Permutation_in _ (Permutation_sym (rinsert_perm m l))) in I; now apply Nml).
    assert (WP : wf (sd Pst)) by (apply (fold_wf wa wb good okm deleg C); auto).
    assert (EF : runs d0 l = fold_left step (filter (fun x => ts <=? m_t x) l) Pst).
    { unfold runs. rewrite (sorted_split ts l Vs) at 1. now rewrite fold_left_app. }
    assert (OP : so Pst = []).
    { destruct (so Pst) as [|[k v] r] eqn:Q; [reflexivity|]. exfalso.
      assert (A : exists v0, In (k, v0) (so Pst)) by (rewrite Q; exists v; now left).
      pose proof (fold_grow deleg (filter (fun x => ts <=? m_t x) l) Pst k A) as [v1 G]. rewrite <- EF, <- Vo in G.
      specialize (Ts2 _ _ G). destruct (fold_flags deleg pre (d0, [], []) k A) as [[? []]|[x [Ix ->]]].
      unfold pre in Ix. apply filter_In in Ix. lia. }
    assert (KP : keeps (fun k => k < ts) (sd Pst) (h_dict h)).
    { apply keeps_same with (sd (runs d0 l)); [|exact Vd]. rewrite EF. apply (fold_keeps wa wb good okm deleg C); [|exact WP|].
      - intros x I. apply filter_In in I. lia.
      - intros x I. apply filter_In in I. apply Nl; tauto. }
    assert (Q : same (sd Pst) (remove_beliefs_from ts (h_dict h))).
    { apply (rbf_restores wa wb good); [exact Vw| | |exact KP].
      - apply (keeps_anchored lo ts d0); [|exact An0|exact LoTs]. apply keeps_same with (sd (runs d0 l)); [|exact Vd].
        apply (fold_keeps wa wb good okm deleg C (fun k => k < lo) l (d0, [], [])); [|exact W0|exact Nl]. intros x I. destruct (F1 x (or_intror I)) as [_ [? _]]. lia.
      - apply (keeps_below ts d0).
        + apply (fold_keeps wa wb good okm deleg C (fun k => ts <= k) pre (d0, [], [])); [|exact W0|exact Np]. intros x I. unfold pre in I. apply filter_In in I. lia.
        + intros e I. destruct (Be0 e I) as [A1 A2]. split; intros; [apply A1|apply A2]; lia. }
    assert (WR : wf (remove_beliefs_from ts (h_dict h))) by now apply (rbf_wf wa wb good okm deleg C).
    assert (EQ : eqs (fold_left step suf (remove_beliefs_from ts (h_dict h), [], [])) (fold_left step suf (sd Pst, [], []))).
    { apply (fold_eqs wa wb good okm deleg C); [exact WR|exact WP|exact Ns|]. split; [now apply same_sym|split; reflexivity]. }
    assert (ER : sd (runs d0 L) = sd (fold_left step suf (sd Pst, [], [])) /\ so (runs d0 L) = so (fold_left step suf (sd Pst, [], []))).
    { unfold runs. rewrite EL, fold_left_app. fold Pst.
      assert (EP : Pst = (sd Pst, [], snd Pst)) by (clear - OP; destruct Pst as [[a b] c]; cbn in OP; subst b; reflexivity).
      rewrite EP at 1 3. exact (fold_vec deleg suf (sd Pst) [] (snd Pst)). }
    destruct EQ as [E1 [E2 _]]. destruct ER as [R1 R2].
    pose proof (fold_wf wa wb good okm deleg C suf (remove_beliefs_from ts (h_dict h), [], []) WR Ns) as WF.
    destruct (fold_left step suf (remove_beliefs_from ts (h_dict h), [], [])) as [[d' o'] v'] eqn:FE.
    exists (set_ooo o' (set_dict d' (set_meas (keyed L) (set_ooo (if ooo_exists then [] else flags) (set_meas (mb_insert (m_t m) m (keyed l)) (set_ooo flags h)))))), v'.
    split; [reflexivity|]. split; [|split; reflexivity]. cbn [sd so fst snd] in *.
    constructor; cbn [set_ooo set_dict set_meas h_meas h_dict h_redo h_ooo]; auto.
    + rewrite R1. exact E1.
    + rewrite R2. exact E2.
  - (* in order *)
    apply orb_false_elim in Vi. destruct Vi as [Vi Oe]. apply orb_false_elim in Oe. destruct Oe as [O1 O2]. rewrite Vm in Vi.
    pose proof (not_violated m l Vs Typ Vi) as LE.
    assert (EF : flags = []).
    { destruct flags as [|[k v] r] eqn:Ef; [reflexivity|]. exfalso. destruct (FL k v (or_introl eq_refl)) as [x [Ix ->]].
      specialize (LE x Ix). rewrite hb_exist_before_get in O1. destruct (get_before_t (m_t m) _) eqn:G in O1; [discriminate|].
      pose proof (proj1 (get_before_none (m_t m) _ (ssorted_w _ Sf)) G (m_t x, v) (or_introl eq_refl)) as Z0. cbn in Z0.
      assert (exist_at_t (m_t m) ((m_t x, v) :: r) = true); [|congruence]. apply exist_at_iff. exists v. left. f_equal. unfold mle in LE. lia. }
    rewrite EF in *. cbn [set_ooo h_dict]. rewrite (surjective_pairing (h_delegate deleg (h_dict h) m)).
    assert (ND : is_disc (r_status (snd (h_delegate deleg (h_dict h) m))) = false).
    { unfold h_delegate. rewrite Ej, Enj. pose proof (c_disc wa wb good okm deleg C (h_dict h) m (proj1 Vw) (proj2 Vw) (proj1 Nm) (proj2 Nm)) as Q. destruct (deleg (h_dict h) m) as [d' st]. cbn in *. now destruct st. }
    rewrite ND. cbn [negb set_ooo set_dict h_max h_meas]. rewrite Vm, check_noop by (auto; exact F). cbn [obind].
    eexists _, _. split; [reflexivity|]. split; [|split; reflexivity].
    rewrite insert_keyed by assumption. rewrite rinsert_last by exact LE.
    assert (OR : so (runs d0 l) = []) by (rewrite <- Vo; exact EF).
    assert (ST : sd (runs d0 (l ++ [m])) = fst (h_delegate deleg (sd (runs d0 l)) m) /\
                 so (runs d0 (l ++ [m])) = if is_ooo (r_status (snd (h_delegate deleg (sd (runs d0 l)) m))) then hb_insert (m_t m) true [] else []).
    { unfold runs. rewrite fold_left_app. cbn [fold_left]. fold (runs d0 l). revert OR. destruct (runs d0 l) as [[a b] c]. cbn [so sd fst snd]. intros ->. now apply step_sd. }
    destruct ST as [ST1 ST2]. destruct (hdel_same wa wb good okm deleg C (h_dict h) (sd (runs d0 l)) m Vw (runs_wf l Nl) Nm Vd) as [HD1 HD2].
    constructor; cbn [set_ooo set_dict set_meas h_meas h_dict h_redo h_ooo]; auto.
    + rewrite <- rinsert_last by exact LE. now apply rinsert_sorted.
    + now apply (hdel_wf wa wb good okm deleg C).
    + rewrite ST1. exact HD1.
    + rewrite ST2, HD2. reflexivity.
Qed.

Lemma fit_perm ms ms' : Permutation ms ms' -> fit ms -> fit ms'.
Proof.
  intros Pm [A [B' D]]. assert (I : forall x, In x ms' -> In x ms) by (intros x; apply Permutation_in; now apply Permutation_sym).
  split; [auto|]. split; [auto|]. destruct D as [D|D]; [now left|right; auto].
Qed.
Lemma fit_incl ms ms' : (forall x, In x ms' -> In x ms) -> fit ms -> fit ms'.
Proof. intros I [A [B' D]]. split; [auto|]. split; [auto|]. destruct D as [D|D]; [now left|right; auto]. Qed.

Lemma process_all_inv todo : forall h l, Inv d0 h l -> h_near (h_max h) hz -> h_near (h_ooo_max h) hzo ->
  fit (l ++ todo) -> (exists x, In x l /\ forall y, In y todo -> m_t x + sl < m_t y) ->
  exists h', process_all h todo = Ok h' /\ Inv d0 h' (fold_left (fun l m => rinsert m l) todo l) /\ frame h h'.
Proof.
  induction todo as [|m r IH]; intros h l V N No F [x [Ix Lx]]; [exists h; split; [reflexivity|split; [exact V|split; reflexivity]]|]. cbn [process_all fold_left].
  destruct (arrive h l m V N No) as [h1 [vec [E [V1 [Fr1 Fr2]]]]].
  - apply fit_incl with (l ++ m :: r); [|exact F]. intros y [<-|I]; apply in_or_app; [right; now left|now left].
  - right. exists x. split; [exact Ix|apply Lx; now left].
  - rewrite E. cbn [obind fst]. destruct (IH h1 (rinsert m l)) as [h2 [E2 [V2 [Fr3 Fr4]]]]; auto.
    + now rewrite Fr1. 
    + now rewrite Fr2.
    + apply fit_perm with (l ++ m :: r); [|exact F]. transitivity (m :: l ++ r); [apply Permutation_sym, Permutation_middle|].
      change (m :: l ++ r) with ((m :: l) ++ r). apply Permutation_app_tail, rinsert_perm.
    + exists x. split; [apply (Permutation_in _ (rinsert_perm m l)); now right|]. intros y I. apply Lx. now right.
    + exists h2. split; [exact E2|]. split; [exact V2|]. split; congruence.
Qed.

Lemma process_all_exact h m0 rest : h_dict h = d0 -> h_meas h = [] -> h_ooo h = [] -> h_redo h = [] ->
  h_near (h_max h) hz -> h_near (h_ooo_max h) hzo -> fit (m0 :: rest) -> (forall y, In y rest -> m_t m0 + sl < m_t y) ->
  exists h', process_all h (m0 :: rest) = Ok h' /\ Inv d0 h' (fold_left (fun l m => rinsert m l) (m0 :: rest) []) /\ frame h h'.
Proof.
  intros Hd Hm Ho Hr N No F Old.
  assert (V : Inv d0 h []) by (constructor; rewrite ?Hd, ?Hm, ?Ho, ?Hr; [reflexivity|constructor|reflexivity|exact W0|apply same_refl|reflexivity]).
  destruct (arrive h [] m0 V N No) as [h1 [vec [E [V1 [Fr1 Fr2]]]]]; [apply fit_incl with (m0 :: rest); [intros x [<-|[]]; now left|exact F]|now left|].
  cbn [process_all]. rewrite E. cbn [obind fst fold_left].
  destruct (process_all_inv rest h1 (rinsert m0 [])) as [h2 [E2 [V2 [Fr3 Fr4]]]]; auto.
  - now rewrite Fr1.
  - now rewrite Fr2.
  - exists m0. split; [now left|exact Old].
  - exists h2. split; [exact E2|]. split; [exact V2|]. split; congruence.
Qed.

(** ** estimators that agree on what can happen give the same run *)
Variable deleg' : dict -> meas -> dict * status.
Hypothesis Ag : forall d m, wf d -> win wa wb okm m -> deleg' d m = deleg d m.
Lemma hdel_agree d m : wf d -> win wa wb okm m -> h_delegate deleg' d m = h_delegate deleg d m.
Proof. intros W N. unfold h_delegate. now rewrite Ag. Qed.
Lemma fold_agree ms : forall s, wf (sd s) -> wins wa wb okm ms -> fold_left (replay_step deleg') ms s = fold_left step ms s.
Proof.
  induction ms as [|m r IH]; intros s W N; [reflexivity|]. cbn [fold_left]. assert (Nm : win wa wb okm m) by (apply N; now left).
  assert (E : replay_step deleg' s m = step s m) by (destruct s as [[d o] v]; unfold replay_step; cbn [sd fst] in W; now rewrite hdel_agree).
  rewrite E. apply IH; [now apply (step_wf wa wb good okm deleg C)|intros x I; apply N; now right].
Qed.
Lemma process_agree h l m : Inv d0 h l -> h_near (h_max h) hz -> fit (m :: l) -> process deleg' m h = process deleg m h.
Proof.
  intros V N F. pose proof V as [Vm Vs Vr Vw Vd Vo]. pose proof F as [F1 [F2 F3]].
  pose proof (fit_wins _ F) as Nml. assert (Nm : win wa wb okm m) by (apply Nml; now left).
  assert (Typ : forall x, In x (m :: l) -> typed x) by (intros x I; now apply F1).
  assert (Sf : ssorted (h_ooo h)) by (rewrite Vo; apply fold_so_sorted; constructor).
  unfold process, process_gen. destruct (negb (exists_id (m_id m) h)); [reflexivity|]. destruct (too_old m (h_meas h)); [reflexivity|].
  assert (SR : forall del, serve_requests del h = Ok h).
  { intros del. unfold serve_requests. rewrite Vr. cbn [check_horizon_from_t empty negb obind get_oldest]. f_equal. unfold set_redo. rewrite <- Vr. symmetry. apply handler_eta. }
  rewrite !SR. cbn [obind]. destruct (check_horizon_from_t (h_ooo_max h) (from_stamp_ns (m_t m)) (h_ooo h)) as [flags|e|e]; [|reflexivity|reflexivity]. cbn [obind].
  destruct (order_violated m (h_meas h) || (hb_exist_before_t (m_t m) flags || exist_at_t (m_t m) flags)) eqn:Vi.
  - cbn [set_ooo h_max h_meas]. rewrite Vm, check_noop by (auto; exact F). cbn [obind]. f_equal.
    set (ooo_exists := hb_exist_before_t (m_t m) flags || exist_at_t (m_t m) flags).
    set (ts := if ooo_exists then _ else m_t m).
    assert (Ts1 : ts <= m_t m) by (unfold ts; destruct ooo_exists; [destruct (get_oldest_t flags) as [t0|]; [destruct (Z.ltb_spec t0 (m_t m)); lia|lia]|lia]).
    rewrite (sort_insert ts m l Vs Typ Ts1). set (L := rinsert m l). assert (SL : msorted L) by now apply rinsert_sorted.
    rewrite !redo_from_spec by (cbn; now apply keyed_ws). cbn [set_meas set_ooo h_meas h_dict]. rewrite from_t_keyed.
    rewrite fold_agree; [reflexivity|now apply (rbf_wf wa wb good okm deleg C)|].
    intros x I. apply filter_In in I. destruct I as [I _]. apply (Permutation_in _ (Permutation_sym (rinsert_perm m l))) in I. now apply Nml.
  - cbn [set_ooo h_dict]. rewrite hdel_agree by assumption. reflexivity.
Qed.
Fixpoint process_all' h (ms : list meas) : outcome handler :=
  match ms with [] => Ok h | m :: r => let! x := process deleg' m h in process_all' (fst x) r end.
Lemma process_all_agree todo : forall h l, Inv d0 h l -> h_near (h_max h) hz -> h_near (h_ooo_max h) hzo ->
  fit (l ++ todo) -> (l = [] \/ exists x, In x l /\ forall y, In y todo -> m_t x + sl < m_t y) -> (l = [] -> match todo with [] => True | m0 :: r => forall y, In y r -> m_t m0 + sl < m_t y end) ->
  process_all' h todo = process_all h todo.
Proof.
  induction todo as [|m r IH]; intros h l V N No F Old First; [reflexivity|]. cbn [process_all process_all'].
  assert (Fm : fit (m :: l)) by (apply fit_incl with (l ++ m :: r); [intros y [<-|I]; apply in_or_app; [right; now left|now left]|exact F]).
  rewrite (process_agree h l m V N Fm).
  destruct (arrive h l m V N No Fm) as [h1 [vec [E [V1 [Fr1 Fr2]]]]].
  { destruct Old as [->|[x [Ix Lx]]]; [now left|right; exists x; split; [exact Ix|apply Lx; now left]]. }
  rewrite E. cbn [obind fst]. apply (IH h1 (rinsert m l)); auto.
  - now rewrite Fr1.
  - now rewrite Fr2.
  - apply fit_perm with (l ++ m :: r); [|exact F]. transitivity (m :: l ++ r); [apply Permutation_sym, Permutation_middle|].
    change (m :: l ++ r) with ((m :: l) ++ r). apply Permutation_app_tail, rinsert_perm.
  - right. destruct Old as [->|[x [Ix Lx]]].
    + exists m. split; [now left|]. intros y I. now apply (First eq_refl).
    + exists x. split; [apply (Permutation_in _ (rinsert_perm m l)); now right|]. intros y I. apply Lx. now right.
  - intros Q. exfalso. pose proof (Permutation_in m (rinsert_perm m l) (or_introl eq_refl)) as I. rewrite Q in I. contradiction.
Qed.
End AP.
Lemma process_all'_eq {B M P} (deleg : dict B M -> meas P -> dict B M * status) ms : forall h, process_all' deleg h ms = process_all deleg h ms.
Proof. induction ms as [|m r IH]; intros h; [reflexivity|]. cbn. destruct (process deleg m h) as [x|e|e]; cbn; auto. Qed.

(** ** the stable chronological sort *)
Section Sort.
Context {P : Type}.
Notation meas := (meas P).
Definition chrono (ms : list meas) : list meas := fold_left (fun l m => rinsert m l) ms [].
Lemma fold_sorted (ms : list meas) : forall l, msorted l -> msorted (fold_left (fun l m => rinsert m l) ms l).
Proof. induction ms as [|m r IH]; intros l S; [exact S|]. cbn. apply IH. now apply rinsert_sorted. Qed.
Lemma fold_perm (ms : list meas) : forall l, Permutation (l ++ ms) (fold_left (fun l m => rinsert m l) ms l).
Proof.
  induction ms as [|m r IH]; intros l; [now rewrite app_nil_r|]. cbn. rewrite <- IH. 
  transitivity (m :: l ++ r); [apply Permutation_sym, Permutation_middle|].
  change (m :: l ++ r) with ((m :: l) ++ r). apply Permutation_app_tail, rinsert_perm.
Qed.
Lemma fold_slot t ty (ms : list meas) : forall l, msorted l -> slot t ty (fold_left (fun l m => rinsert m l) ms l) = slot t ty l ++ slot t ty ms.
Proof.
  induction ms as [|m r IH]; intros l S; [cbn; now rewrite app_nil_r|]. cbn [fold_left]. rewrite IH by now apply rinsert_sorted.
  replace (slot t ty (m :: r)) with (if (m_t m =? t) && obs_eqb (m_ty m) ty then m :: slot t ty r else slot t ty r) by reflexivity.
  unfold slot at 1. rewrite rinsert_filter by exact S. fold (slot t ty l).
  destruct ((m_t m =? t) && obs_eqb (m_ty m) ty) eqn:E; [|reflexivity]. rewrite rinsert_last, <- app_assoc; [reflexivity|].
  intros x I. unfold slot in I. apply filter_In in I. destruct I as [_ I]. apply andb_true_iff in I, E. destruct I as [I1 I2], E as [E1 E2].
  apply obs_eqb_iff in I2, E2. right. unfold mrank. rewrite I2, E2. lia.
Qed.
Lemma chrono_unique (l1 l2 : list meas) : msorted l1 -> msorted l2 -> (forall t ty, slot t ty l1 = slot t ty l2) -> l1 = l2.
Proof.
  intros S1. revert l2. induction S1 as [|a r S1 IH F1]; intros l2 S2 H.
  - destruct l2 as [|b q]; [reflexivity|]. specialize (H (m_t b) (m_ty b)). unfold slot in H. cbn in H. rewrite Z.eqb_refl in H.
    replace (obs_eqb (m_ty b) (m_ty b)) with true in H by (now destruct (m_ty b)). discriminate.
  - assert (RF : forall ty, obs_eqb ty ty = true) by (intros []; reflexivity).
    assert (Ia : In a l2). { assert (In a (slot (m_t a) (m_ty a) l2)); [|unfold slot in H0; apply filter_In in H0; tauto].
      rewrite <- H. unfold slot. cbn. rewrite Z.eqb_refl, RF. now left. }
    destruct l2 as [|b q]; [contradiction|]. assert (Ib : In b (a :: r)). { assert (In b (slot (m_t b) (m_ty b) (a :: r))); [|unfold slot in H0; apply filter_In in H0; tauto].
      rewrite H. unfold slot. cbn. rewrite Z.eqb_refl, RF. now left. }
    pose proof S2 as S2'. inversion S2' as [|? ? S2q F2]; subst. rewrite Forall_forall in F1, F2.
    assert (Lab : mle a b) by (destruct Ib as [->|I]; [right; lia|now apply F1]).
    assert (Lba : mle b a) by (destruct Ia as [->|I]; [right; lia|now apply F2]).
    assert (Et : m_t a = m_t b) by (unfold mle in *; lia). assert (Ey : m_ty a = m_ty b).
    { unfold mle, mrank in *. assert (rank (m_ty a) = rank (m_ty b)) by lia. clear - H0. destruct (m_ty a), (m_ty b); cbn in H0; congruence || lia. }
    assert (Hab : a = b). { specialize (H (m_t a) (m_ty a)). unfold slot in H. cbn in H. rewrite Z.eqb_refl, RF, <- Et, <- Ey, Z.eqb_refl, RF in H. cbn in H. congruence. }
    subst b. f_equal. apply IH; [exact S2q|]. intros t ty. specialize (H t ty). unfold slot in *. cbn in H. destruct ((m_t a =? t) && _); [now injection H|exact H].
Qed.
Lemma chrono_id (l : list meas) : msorted l -> chrono l = l.
Proof. intros S. apply chrono_unique; [apply fold_sorted; constructor|exact S|]. intros t ty. unfold chrono. now rewrite fold_slot by constructor. Qed.
Lemma chrono_stable (ms s : list meas) : msorted s -> (forall t ty, slot t ty s = slot t ty ms) -> chrono ms = s.
Proof. intros S H. apply chrono_unique; [apply fold_sorted; constructor|exact S|]. intros t ty. unfold chrono. rewrite fold_slot by constructor. symmetry. apply H. Qed.
End Sort.
