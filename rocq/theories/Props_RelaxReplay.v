(** C106, continued: whatever order simultaneous measurements arrived in, the estimators hold what replaying the stored history gives. *)
From Coq Require Import ZArith List Bool Arith Lia Sorted Permutation Reals.
From Flocq Require Import IEEE754.BinarySingleNaN.
From Verif Require Import Outcome TimestampModel DoubleModel BufModel Spec_Time Spec_Buf BufProofs HorizonModel HorizonProofs Props_Buffers MeasModel HandlerModel Spec_Handler HandlerProofs AgeProofs ClockProofs ReplayProofs ArrivalProofs Props_Handler Props_Handler2 UtilModel RelaxModel RelaxProofs Props_Relax RelaxReplay.
Import ListNotations.
Local Open Scope Z_scope.
Local Open Scope outcome_scope.

Section Setup.
Context {B M P : Type} (good : dict B M -> Prop) (okm : meas P -> Prop) (deleg : dict B M -> meas P -> dict B M * status)
  (rem : Z -> dict B M -> bool) (wa wb lo hz hzo tmax slack : Z).
(** the conditions of C42_arrival_order_irrelevant on a handler and the measurements submitted to it *)
Record submittable (h : handler B M P) (m0 : meas P) (rest : list (meas P)) : Prop := {
  s_clock : clock tmax slack; s_contract : contract wa wb good okm deleg; s_wf : wf wa wb (h_dict h); s_good : good (h_dict h);
  s_init : initialised lo (h_dict h); s_meas : h_meas h = []; s_ooo : h_ooo h = []; s_redo : h_redo h = [];
  s_hor : denotes_ns (h_max h) hz; s_hz : 0 <= hz < 2097151 * giga; s_horo : denotes_ns (h_ooo_max h) hzo; s_hzo : 0 <= hzo < 2097151 * giga; s_lo : 0 <= lo;
  s_proc : processable good okm deleg (h_dict h) lo wa wb hz hzo tmax slack (m0 :: rest);
  s_old : forall m, In m rest -> m_t m0 + slack < m_t m }.
Definition never_ooo : Prop := forall d m, wf wa wb d -> good d -> wa <= m_t m <= wb -> okm m -> snd (deleg d m) <> OUTOFORDER.

Lemma gen_is_c os rs ms : forall h : handler B M P, all_gen deleg (c_order_violated os) (c_discard_with rem rs) h ms = c_process_all deleg rem os rs h ms.
Proof. induction ms as [|m r IH]; intros h; [reflexivity|]. cbn [all_gen c_process_all]. unfold c_process. destruct (process_gen _ _ _ m h); cbn [obind]; auto. Qed.
Lemma submit os rs h m0 rest : submittable h m0 rest -> rs <> RD_DISCARD ->
  exists h' L, c_process_all deleg rem os rs h (m0 :: rest) = Ok h' /\ inv_r deleg wa wb good (h_dict h) h' L /\ Permutation (m0 :: rest) L /\
    ((forall p m q, m0 :: rest = p ++ m :: q -> c_order_violated os m (keyed p) = false) ->
     (forall l, wins wa wb okm l -> so (runs deleg (h_dict h) l) = []) -> L = m0 :: rest).
Proof.
  intros [Ck C W G In0 Hm Ho Hr Dn Hh Dno Hho Lo Pr Old] D.
  assert (An : forall e, In e (h_dict h) -> exists k v, k < lo /\ bel_at k (snd e) = Some v).
  { intros e I. destruct (In0 e I) as [[k [v Ev]] [Nb _]]. exists k, v. split; [|exact Ev]. destruct (Z_lt_dec k lo) as [Q|Q]; [exact Q|]. rewrite Nb in Ev; [discriminate|lia]. }
  assert (Be : below lo (h_dict h)) by (intros e I; destruct (In0 e I) as [_ Q]; exact Q).
  assert (F : fit deleg wa wb good okm (h_dict h) lo hz hzo tmax slack (m0 :: rest)).
  { destruct Pr as [A [B' D']]. split; [exact A|]. split; [exact B'|]. destruct D' as [D'|D']; [left|right; exact D']. intros d m [Wd Gd] [Wm Om]. now apply D'. }
  rewrite <- gen_is_c.
  apply (all_gen_exact deleg wa wb good okm (c_order_violated os) (relaxed_or_strict os P) (c_discard_with rem rs)
    (fun m h => match rs return rs <> RD_DISCARD -> c_discard_with rem rs m h = false with RD_DISCARD => fun N => False_ind _ (N eq_refl) | _ => fun _ => eq_refl end D)
    C (h_dict h) lo hz hzo tmax slack Ck (conj W G) An Be Hh Hho Lo h m0 rest eq_refl Hm Ho Hr Dn Dno F Old).
Qed.
Lemma runs_plain d0 l : (forall d m, fine wa wb good d -> win wa wb okm m -> snd (deleg d m) <> OUTOFORDER) -> contract wa wb good okm deleg ->
  fine wa wb good d0 -> wins wa wb okm l -> sd (runs deleg d0 l) = fold_left (fun d m => fst (h_delegate deleg d m)) l d0.
Proof.
  intros N C. revert d0. unfold runs. induction l as [|m r IH] using rev_ind; intros d0 W0 Wl; [reflexivity|].
  assert (Wr : wins wa wb okm r) by (intros x I; apply Wl, in_or_app; now left).
  rewrite !fold_left_app. cbn [fold_left]. rewrite <- (IH d0 W0 Wr).
  pose proof (runs_no_ooo deleg wa wb good okm C d0 W0 r Wr N) as O. unfold runs in O. destruct (fold_left (replay_step deleg) r (d0, [], [])) as [[d o] v]. cbn [so sd fst snd] in *. subst o.
  unfold replay_step. cbn [empty orb]. now destruct (h_delegate deleg d m).
Qed.

(** ** the estimators hold the replay of the stored history *)
(** under both order strategies: every submitted measurement is stored once, and replaying the stored history in its stored order from the
    initial instances gives the instances and the out-of-order flags there are *)
Theorem C106_replay : forall os rs (h : handler B M P) m0 rest, submittable h m0 rest -> rs <> RD_DISCARD ->
  exists h', c_process_all deleg rem os rs h (m0 :: rest) = Ok h' /\ Permutation (m0 :: rest) (map snd (h_meas h')) /\
    let replay := fold_left (replay_step deleg) (map snd (h_meas h')) (h_dict h, [], []) in
    same (h_dict h') (fst (fst replay)) /\ h_ooo h' = snd (fst replay).
Proof.
  intros os rs h m0 rest Su D. destruct (submit os rs h m0 rest Su D) as [h' [L [E [[A1 A2 A3 A4 A5 A6] [Pm _]]]]]. exists h'. split; [exact E|].
  rewrite A1, keyed_snd. split; [exact Pm|]. split; [exact A5|exact A6].
Qed.
(** estimators that never report out of order: each measurement of the history handed to them once, in its stored order *)
Theorem C106_replay_in_order : forall os rs (h : handler B M P) m0 rest, submittable h m0 rest -> rs <> RD_DISCARD -> never_ooo ->
  exists h', c_process_all deleg rem os rs h (m0 :: rest) = Ok h' /\ Permutation (m0 :: rest) (map snd (h_meas h')) /\
    same (h_dict h') (fold_left (fun d m => fst (h_delegate deleg d m)) (map snd (h_meas h')) (h_dict h)) /\ h_ooo h' = [].
Proof.
  intros os rs h m0 rest Su D N. destruct (submit os rs h m0 rest Su D) as [h' [L [E [[A1 A2 A3 A4 A5 A6] [Pm _]]]]]. exists h'. split; [exact E|].
  rewrite A1, keyed_snd. split; [exact Pm|]. destruct Su as [Ck C W G _ _ _ _ _ _ _ _ _ Pr _].
  assert (Wl : wins wa wb okm L). { intros x I. apply (Permutation_in _ (Permutation_sym Pm)) in I. destruct Pr as [A _]. destruct (A x I) as [_ [_ [Q _]]]. exact Q. }
  assert (N' : forall d m, fine wa wb good d -> win wa wb okm m -> snd (deleg d m) <> OUTOFORDER) by (intros d m [Wd Gd] [Wm Om]; now apply N).
  rewrite <- (runs_plain (h_dict h) L N' C (conj W G) Wl). split; [exact A5|]. rewrite A6. exact (runs_no_ooo deleg wa wb good okm C (h_dict h) (conj W G) L Wl N').
Qed.
(** ** only the stored history counts: two orders of arrival that leave the same history leave the same estimators *)
Theorem C106_history_decides : forall os os' rs rs' (h : handler B M P) m0 rest m0' rest', submittable h m0 rest -> submittable h m0' rest' ->
  rs <> RD_DISCARD -> rs' <> RD_DISCARD ->
  exists h1 h2, c_process_all deleg rem os rs h (m0 :: rest) = Ok h1 /\ c_process_all deleg rem os' rs' h (m0' :: rest') = Ok h2 /\
    (h_meas h1 = h_meas h2 -> same (h_dict h1) (h_dict h2) /\ h_ooo h1 = h_ooo h2).
Proof.
  intros os os' rs rs' h m0 rest m0' rest' S1 S2 D1 D2.
  destruct (submit os rs h m0 rest S1 D1) as [h1 [L1 [E1 [[A1 A2 A3 A4 A5 A6] [P1 _]]]]].
  destruct (submit os' rs' h m0' rest' S2 D2) as [h2 [L2 [E2 [[B1 B2 B3 B4 B5 B6] [P2 _]]]]].
  exists h1, h2. split; [exact E1|]. split; [exact E2|]. intros Q. rewrite A1, B1 in Q. apply (f_equal (map snd)) in Q. rewrite !keyed_snd in Q. subst L2.
  split; [eapply same_trans; [exact A5|now apply same_sym]|now rewrite A6, B6].
Qed.
(** ** resubmitting: the stored history sent to the initial handler in its stored order is kept in that order and gives the same estimators *)
Theorem C106_resubmit : forall rs (h : handler B M P) m0 rest, submittable h m0 rest -> rs <> RD_DISCARD -> never_ooo ->
  exists h1 h2, c_process_all deleg rem OS_RELAXED rs h (m0 :: rest) = Ok h1 /\
    c_process_all deleg rem OS_RELAXED rs h (map snd (h_meas h1)) = Ok h2 /\ h_meas h2 = h_meas h1 /\ same (h_dict h2) (h_dict h1).
Proof.
  intros rs h m0 rest Su D N. destruct (submit OS_RELAXED rs h m0 rest Su D) as [h1 [L [E [I1 [Pm _]]]]].
  assert (Ri : rinv h1).
  { assert (R0 : rinv h) by (destruct Su as [_ _ _ _ _ Hm Ho Hr _ _ _ _ _ _ _]; constructor; rewrite ?Hm, ?Ho, ?Hr; [split; [constructor|split; [intros ? []|intros s; constructor]]|constructor|constructor]).
    revert R0 E. clear - D. generalize (m0 :: rest). intros ms. revert h. induction ms as [|m r IH]; intros h R0 E; [injection E as <-; exact R0|].
    cbn [c_process_all] in E. destruct (c_process deleg rem OS_RELAXED rs m h) as [[hx v]| |] eqn:Ec; cbn [obind fst] in E; try discriminate.
    apply (IH hx); [|exact E]. unfold c_process in Ec. apply process_rinv in Ec; [tauto|exact (relaxed_or_strict OS_RELAXED P)|exact R0]. }
  destruct I1 as [A1 A2 A3 A4 A5 A6]. exists h1. rewrite A1, keyed_snd.
  pose proof Su as [Ck C W G In0 Hm Ho Hr Dn Hh Dno Hho Lo Pr Old]. destruct (clock_bounds tmax slack Ck) as [Hs _].
  assert (Hd : exists r, L = m0 :: r).
  { assert (I0 : In m0 L) by (apply (Permutation_in _ Pm); now left). destruct L as [|x r]; [contradiction|].
    assert (x = m0); [|subst; now exists r]. destruct I0 as [->|I0]; [reflexivity|]. cbn [keyed map] in A2. apply ws_inv in A2. destruct A2 as [_ Fr]. rewrite Forall_forall in Fr.
    assert (J : In (m_t m0, m0) (keyed r)) by (apply keyed_In; eauto). specialize (Fr _ J). unfold kle in Fr. cbn [fst] in Fr.
    assert (Ix : In x (m0 :: rest)) by (apply (Permutation_in _ (Permutation_sym Pm)); now left). destruct Ix as [->|Ix]; [reflexivity|].
    specialize (Old x Ix). lia. }
  destruct Hd as [r ->]. pose proof (Permutation_cons_inv Pm) as Pr'.
  assert (Sub : forall x, In x (m0 :: r) -> In x (m0 :: rest)) by (intros x; apply Permutation_in; now apply Permutation_sym).
  assert (Su2 : submittable h m0 r).
  { constructor; auto. 2:{ intros x I. apply Old. exact (Permutation_in _ (Permutation_sym Pr') I). }
    destruct Pr as [P1 [P2 P3]]. split; [auto|]. split; [auto|]. left. exact N. }
  destruct (submit OS_RELAXED rs h m0 r Su2 D) as [h2 [L2 [E2 [[B1 B2 B3 B4 B5 B6] [P2 K2]]]]].
  assert (EL : L2 = m0 :: r).
  { apply K2.
    - intros p m q Eq. cbn [c_order_violated]. apply (ordered_not_viol p m q). rewrite <- Eq, <- A1. apply Ri.
    - intros l Wl. apply (runs_no_ooo deleg wa wb good okm C (h_dict h) (conj W G) l Wl). intros d m [Wd Gd] [Wm Om]. now apply N. }
  subst L2. exists h2. split; [exact E|]. split; [exact E2|]. split; [congruence|]. eapply same_trans; [exact B5|now apply same_sym].
Qed.
End Setup.

(** the private and the joint measurement of one instant of C106_simultaneous, in both orders of arrival *)
Example C106_replay_example :
  submittable (fun _ => True) (fun _ => True) dbl_deleg 0 1000 10 (10 * giga) (10 * giga) (2097151 * giga) 0 rh rm0 [rP; rJ; rQ] /\
  submittable (fun _ => True) (fun _ => True) dbl_deleg 0 1000 10 (10 * giga) (10 * giga) (2097151 * giga) 0 rh rm0 [rJ; rP] /\
  never_ooo (fun _ => True) (fun _ => True) dbl_deleg 0 1000 /\
  rshow (c_process_all dbl_deleg (fun _ _ => false) OS_RELAXED RD_POSTCORRELATED rh [rm0; rJ; rP]) = Some ([PROPAGATION; JOINT; PRIVATE], [[(1, 100); (10, 201); (20, 812)]]).
Proof.
  assert (H : denotes_ns (d_of_Z 10) (10 * giga)).
  { destruct (DoubleProofs.d_of_Z_exact 10) as [E F]; [lia|]. split; [exact F|]. rewrite E. unfold giga.
    rewrite mult_IZR. replace (_ - _)%R with 0%R by ring. rewrite Rabs_R0. apply Rlt_le, Rinv_0_lt_compat. apply IZR_lt. lia. }
  assert (S : forall rest, (forall m, In m rest -> In m [rP; rJ; rQ]) -> submittable (fun _ => True) (fun _ => True) dbl_deleg 0 1000 10 (10 * giga) (10 * giga) (2097151 * giga) 0 rh rm0 rest).
  { intros rest Sub. destruct (relaxed_hyps rest Sub) as [A1 [A2 [[P1 [P2 P3]] A4]]]. unfold giga in *. constructor; try reflexivity; try (split; [discriminate|reflexivity]); try discriminate; try exact I; try exact H; try exact A4.
    - left. split; reflexivity.
    - apply dbl_contract.
    - exact A1.
    - exact A2.
    - split; [exact P1|]. split; [intros x y Ix Iy; specialize (P2 x y Ix Iy); lia|]. left. intros d m _ _ _ _. cbn. discriminate. }
  split; [apply S; auto|]. split; [apply S; intros m [<-|[<-|[]]]; cbn; tauto|]. split; [|vm_compute; reflexivity].
  intros d m _ _ _ _. cbn. discriminate.
Qed.
Print Assumptions C106_replay.
Print Assumptions C106_replay_in_order.
Print Assumptions C106_history_decides.
Print Assumptions C106_resubmit.
