(** C106: arrival order for the collaborative handlers, whose order of simultaneous measurements is relaxed. *)
From Coq Require Import ZArith List Bool Arith Lia Sorted Permutation Reals.
From Flocq Require Import IEEE754.BinarySingleNaN.
From Verif Require Import Outcome TimestampModel DoubleModel BufModel Spec_Time Spec_Buf BufProofs HorizonModel HorizonProofs Props_Buffers MeasModel HandlerModel Spec_Handler HandlerProofs AgeProofs ClockProofs ReplayProofs ArrivalProofs Props_Handler Props_Handler2 UtilModel RelaxModel RelaxProofs.
Import ListNotations.
Local Open Scope Z_scope.
Local Open Scope outcome_scope.

(** what may follow what under the relaxed order: at one instant no propagation follows a private or joint measurement *)
Definition may_precede_relaxed {P} (a b : meas P) : Prop :=
  m_t a < m_t b \/ (m_t a = m_t b /\ ((m_ty a = PRIVATE \/ m_ty a = JOINT) -> m_ty b <> PROPAGATION)).
Definition relaxed_or_strict os : forall P (m : meas P) l, order_violated_relaxed m l = true -> c_order_violated os m l = true.
Proof. intros P m l H. destruct os; [now apply C58_relaxed_implies_strict|exact H]. Qed.

Lemma c_step_rinv {B M P} deleg rem os rs (h h' : handler B M P) o : never_raw_insert o -> rinv h -> c_step deleg rem os rs h o = Ok h' -> rinv h'.
Proof.
  intros N I. destruct o; cbn in N; cbn [c_step hstep]; try contradiction.
  - unfold c_process. destruct (process_gen _ _ _ m h) as [[h1 v]| |] eqn:E; cbn [omap obind]; try discriminate. intros [= <-].
    apply process_rinv in E; [tauto|exact (relaxed_or_strict os P)|exact I].
  - intros [= <-]. unfold add. destruct (exists_id _ _); [exact I|]. destruct I. now constructor.
  - intros [= <-]. unfold remove. destruct (get_inst _ _); [|exact I]. destruct I. now constructor.
  - intros [= <-]. destruct I. now constructor.
  - intros [= <-]. constructor; cbn; [|constructor|constructor]. split; [constructor|]. split; [intros ? []|]. intros s. constructor.
  - intros [= <-]. destruct I. now constructor.
  - unfold schedule_redo. destruct (check_horizon _ _) as [r| |] eqn:E; cbn [obind]; try discriminate. intros [= <-].
    destruct I as [I1 I2 I3]. constructor; cbn; auto. apply check_suffix in E. destruct E as [[p E] _].
    pose proof (hb_insert_ssorted t after (h_redo h) I3) as S. rewrite E in S. clear - S. induction p as [|a q IH]; [exact S|]. apply IH. cbn in S. now apply ss_inv in S.
  - intros [= <-]. destruct I as [I1 I2 I3]. destruct (redo_after_fields deleg t h (proj1 I1)) as [A1 [A2 [_ [_ [_ [_ A7]]]]]].
    constructor; [now rewrite A1|exact A7|now rewrite A2].
Qed.
Lemma c_run_rinv {B M P} deleg rem os rs ops : forall (h h' : handler B M P), (forall o, In o ops -> never_raw_insert o) -> rinv h ->
  c_run deleg rem os rs h ops = Ok h' -> rinv h'.
Proof.
  induction ops as [|o r IH]; intros h h' N I E; [injection E as <-; exact I|]. cbn [c_run] in E.
  destruct (c_step deleg rem os rs h o) as [h1| |] eqn:Es; cbn [obind] in E; try discriminate.
  apply (IH h1); [intros x Ix; apply N; now right| |exact E]. exact (c_step_rinv deleg rem os rs h h1 o (N o (or_introl eq_refl)) I Es).
Qed.
(** ** the history under both strategies: in time order, and no propagation after a private or joint measurement of its instant *)
Theorem C106_history :
  forall (B M P : Type) (deleg : dict B M -> meas P -> dict B M * status) rem os rs (hor : double) ops (h : handler B M P),
  (forall o, In o ops -> never_raw_insert o) -> c_run deleg rem os rs (new_handler hor) ops = Ok h ->
  (forall k m, In (k, m) (h_meas h) -> k = m_t m) /\
  (forall a b, comes_before (h_meas h) a b -> may_precede_relaxed (snd a) (snd b)).
Proof.
  intros B M P deleg rem os rs hor ops h N E.
  assert (I0 : rinv (new_handler (B:=B) (M:=M) (P:=P) hor)) by (constructor; cbn; [split; [constructor|split; [intros ? []|intros s; constructor]]|constructor|constructor]).
  pose proof (c_run_rinv deleg rem os rs ops _ h N I0 E) as [[W [K S]] _ _].
  split; [intros k m I; exact (K _ I)|]. intros a b [p [q [r Eq]]].
  assert (Ia : In a (h_meas h)) by (rewrite Eq; apply in_or_app; right; now left).
  assert (Ib : In b (h_meas h)) by (rewrite Eq; apply in_or_app; right; right; apply in_or_app; right; now left).
  assert (L : fst a <= fst b). { rewrite Eq in W. apply ws_app in W. destruct W as [_ [W _]]. apply ws_inv in W. destruct W as [_ F].
    rewrite Forall_forall in F. apply F. apply in_or_app. right. now left. }
  unfold may_precede_relaxed. rewrite <- (K a Ia), <- (K b Ib). destruct (Z.eq_dec (fst a) (fst b)) as [Et|Nt]; [right; split; [exact Et|]|left; lia].
  specialize (S (fst a)). rewrite Eq in S. unfold elements_at in S. rewrite filter_app in S. cbn [filter] in S. rewrite Z.eqb_refl in S.
  rewrite filter_app in S. cbn [filter] in S. rewrite <- Et, Z.eqb_refl in S. clear - S.
  induction (filter _ p) as [|x y IH]; [|apply IH; cbn in S; now apply StronglySorted_inv in S]. cbn in S. apply StronglySorted_inv in S. destruct S as [_ F].
  rewrite Forall_forall in F. apply F. apply in_or_app. right. now left.
Qed.

(** ** the same runs as the base class *)
(** no instant sees both a private and a joint measurement *)
Definition no_private_joint {P} (ms : list (meas P)) : Prop :=
  forall x y, In x ms -> In y ms -> m_t x = m_t y -> m_ty x = PRIVATE -> m_ty y <> JOINT.
Lemma same_run_from {B M P} deleg rem rs ms : forall (h : handler B M P), rinv h -> no_private_joint (map snd (h_meas h) ++ ms) ->
  c_process_all deleg rem OS_RELAXED rs h ms = c_process_all deleg rem OS_STRICT rs h ms.
Proof.
  induction ms as [|m r IH]; intros h I N; [reflexivity|]. cbn [c_process_all].
  assert (E : c_process deleg rem OS_RELAXED rs m h = c_process deleg rem OS_STRICT rs m h).
  { unfold c_process. destruct I as [[W [K _]] So Sr]. apply process_viol; auto. apply rules_agree; [exact W|].
    intros T x Ix. pose proof (K _ Ix) as Ek. cbn in Ek. apply (N m x); [apply in_or_app; right; now left| |exact Ek|exact T].
    apply in_or_app. left. apply in_map_iff. now exists (m_t m, x). }
  rewrite E. destruct (c_process deleg rem OS_STRICT rs m h) as [[h1 v]| |] eqn:E1; [|reflexivity|reflexivity]. cbn [obind fst].
  unfold c_process in E1. apply process_rinv in E1; [|exact (relaxed_or_strict OS_STRICT P)|exact I]. destruct E1 as [I1 Sub]. apply IH; [exact I1|].
  intros x y Ix Iy. assert (Q : forall z, In z (map snd (h_meas h1) ++ r) -> In z (map snd (h_meas h) ++ m :: r)).
  { intros z Iz. apply in_app_or in Iz. apply in_or_app. destruct Iz as [Iz|Iz]; [|right; now right]. apply in_map_iff in Iz. destruct Iz as [e [<- Ie]].
    destruct (Sub e Ie) as [->|J]; [right; now left|left; apply in_map_iff; now exists e]. }
  apply N; auto.
Qed.
Lemma strict_is_base {B M P} deleg rem rs ms : forall (h : handler B M P), rs <> RD_DISCARD ->
  c_process_all deleg rem OS_STRICT rs h ms = process_all deleg h ms.
Proof.
  induction ms as [|m r IH]; intros h N; [reflexivity|]. cbn [c_process_all process_all].
  assert (E : c_process deleg rem OS_STRICT rs m h = process deleg m h) by (destruct rs; [reflexivity|reflexivity|contradiction]).
  rewrite E. destruct (process deleg m h) as [x| |]; cbn [obind]; [now apply IH|reflexivity|reflexivity].
Qed.
Theorem C106_same_run :
  forall (B M P : Type) (deleg : dict B M -> meas P -> dict B M * status) rem rs (hor : double) ops (h : handler B M P) ms,
  (forall o, In o ops -> never_raw_insert o) -> c_run deleg rem OS_RELAXED rs (new_handler hor) ops = Ok h ->
  rs <> RD_DISCARD -> no_private_joint (map snd (h_meas h) ++ ms) ->
  c_process_all deleg rem OS_RELAXED rs h ms = process_all deleg h ms.
Proof.
  intros B M P deleg rem rs hor ops h ms N E D Q. rewrite <- (strict_is_base deleg rem rs) by exact D. apply same_run_from; [|exact Q].
  apply (c_run_rinv deleg rem OS_RELAXED rs ops (new_handler hor) h N); [|exact E].
  constructor; cbn; [split; [constructor|split; [intros ? []|intros s; constructor]]|constructor|constructor].
Qed.
(** ** arrival order does not matter for the shipped strategies, when no instant sees both a private and a joint measurement *)
Theorem C106_any_two_orders :
  forall (B M P : Type) (good : dict B M -> Prop) (okm : meas P -> Prop)
    (deleg : dict B M -> meas P -> dict B M * status) rem (wa wb lo hz hzo tmax slack : Z) (h : handler B M P)
    (m0 : meas P) (rest rest' : list (meas P)),
  clock tmax slack -> contract wa wb good okm deleg ->
  wf wa wb (h_dict h) -> good (h_dict h) -> initialised lo (h_dict h) -> h_meas h = [] -> h_ooo h = [] -> h_redo h = [] ->
  denotes_ns (h_max h) hz -> 0 <= hz < 2097151 * giga -> denotes_ns (h_ooo_max h) hzo -> 0 <= hzo < 2097151 * giga -> 0 <= lo ->
  processable good okm deleg (h_dict h) lo wa wb hz hzo tmax slack (m0 :: rest) ->
  (forall m, In m rest -> m_t m0 + slack < m_t m) ->
  NoDup (map (fun m => (m_t m, m_ty m)) rest) -> Permutation rest rest' -> no_private_joint rest ->
  exists h1 h2, c_process_all deleg rem OS_RELAXED RD_POSTCORRELATED h (m0 :: rest) = Ok h1 /\
    c_process_all deleg rem OS_RELAXED RD_POSTCORRELATED h (m0 :: rest') = Ok h2 /\
    same (h_dict h1) (h_dict h2) /\ h_meas h1 = h_meas h2 /\ h_ooo h1 = h_ooo h2.
Proof.
  intros B M P good okm deleg rem wa wb lo hz hzo tmax slack h m0 rest rest' Ck C W G In0 Hm Ho Hr Dn Hh Dno Hho Lo Pr Old ND Pm NJ.
  destruct (C42_any_two_orders B M P good okm deleg wa wb lo hz hzo tmax slack h m0 rest rest' Ck C W G In0 Hm Ho Hr Dn Hh Dno Hho Lo Pr Old ND Pm) as [h1 [h2 [E1 [E2 R]]]].
  destruct (clock_bounds tmax slack Ck) as [Hs _].
  assert (I : rinv h) by (constructor; rewrite ?Hm, ?Ho, ?Hr; [split; [constructor|split; [intros ? []|intros s; constructor]]|constructor|constructor]).
  assert (Q : forall r, (forall x, In x r -> In x rest) -> no_private_joint (map snd (h_meas h) ++ m0 :: r)).
  { intros r Sub. rewrite Hm. cbn [map app]. intros x y [<-|Ix] [<-|Iy] Et Tx.
    - congruence.
    - pose proof (Old y (Sub y Iy)). lia.
    - pose proof (Old x (Sub x Ix)). lia.
    - exact (NJ x y (Sub x Ix) (Sub y Iy) Et Tx). }
  exists h1, h2. rewrite !same_run_from, !strict_is_base by (try discriminate; auto; apply Q; auto; intros x; apply Permutation_in; now apply Permutation_sym).
  auto.
Qed.
(** the shipped strategies are those of the constructor *)
Theorem C106_shipped : forall (B M P : Type) (deleg : dict B M -> meas P -> dict B M * status) rem m h,
  shipped_process deleg rem m h = process_gen deleg order_violated_relaxed (fun _ _ => false) m h.
Proof. reflexivity. Qed.
(** under the DISCARD strategy a measurement that remote estimators are correlated with later leaves everything but served requests alone *)
Theorem C106_discard : forall (B M P : Type) (deleg : dict B M -> meas P -> dict B M * status) rem os m (h : handler B M P),
  exists_id (m_id m) h = true -> too_old m (h_meas h) = false -> h_redo h = [] -> rem (m_t m) (h_dict h) = true ->
  c_process deleg rem os RD_DISCARD m h = Ok (h, [discarded_result]).
Proof.
  intros B M P deleg rem os m h E T R D. unfold c_process, process_gen. rewrite E, T. cbn [negb].
  assert (S : serve_requests deleg h = Ok h) by (unfold serve_requests; rewrite R; cbn; f_equal; destruct h; cbn in *; now rewrite R).
  rewrite S. cbn [obind c_discard_with]. now rewrite D.
Qed.

(** ** a private and a joint measurement of one instant: the arrival order decides *)
(** a contract-abiding estimator whose belief is twice the previous one plus the measurement *)
Definition dbl_deleg (d : dict Z unit) (m : meas Z) : dict Z unit * status :=
  (map (fun e => if (fst e =? m_id m)%nat then (fst e, Inst (i_enabled (snd e)) (hb_insert (m_t m) (2 * ex_prev (m_t m) (i_bel (snd e)) + m_dat m) (i_bel (snd e))) (i_ccf (snd e))) else e) d,
   PROCESSED).
Lemma dbl_contract wa wb : contract wa wb (fun _ => True) (fun _ => True) dbl_deleg.
Proof.
  split.
  - easy.
  - intros d m [W0 W] _ N _. split; [|exact I]. split.
    { cbn. rewrite map_map. replace (map _ d) with (map fst d); [exact W0|]. apply map_ext. intros x. now destruct (fst x =? m_id m)%nat. }
    intros e I. cbn in I. apply in_map_iff in I. destruct I as [x [<- I]]. destruct (W x I) as [[S1 S2] S3].
    destruct (fst x =? m_id m)%nat; [|now split]. split; cbn; [|exact S3]. split; [now apply hb_insert_ssorted|].
    intros y J. apply hb_insert_In in J; [|exact S1]. destruct J as [->|[J _]]; [exact N|auto].
  - intros d m [_ W] _ N _. cbn. assert (forall e, In e d -> wf_inst wa wb (snd e)) by exact W. clear W. induction d as [|[k i] r IH]; constructor; [|apply IH; intros e I; apply H; now right].
    destruct (H (k, i) (or_introl eq_refl)) as [[S1 _] _]. cbn [fst snd] in *. destruct (k =? m_id m)%nat; split; try reflexivity; cbn [snd]; [|repeat split].
    split; [reflexivity|]. split; [|reflexivity]. intros q Q. unfold bel_at. cbn [i_bel]. rewrite get_at_insert by exact S1. now destruct (Z.eqb_spec q (m_t m)).
  - intros d d' m [_ W] _ [_ W'] _ N _ S. split; [|reflexivity]. cbn. induction S as [|[k i] [k' i'] r r' [E [E1 [E2 E3]]] F IH]; constructor.
    + cbn [fst snd] in *. subst k'. destruct (W (k, i) (or_introl eq_refl)) as [[S1 _] _]. destruct (W' (k, i') (or_introl eq_refl)) as [[S1' _] _]. cbn [snd] in *.
      assert (Eb : i_bel i = i_bel i') by now apply pointwise_eq. destruct (k =? m_id m)%nat; (split; [reflexivity|]); cbn [snd]; [|split; auto].
      split; [exact E1|]. unfold bel_at, ccf_at in *. cbn. rewrite Eb. split; [reflexivity|exact E3].
    + apply IH; intros e I; [apply W|apply W']; now right.
  - intros d m _. cbn. discriminate.
Qed.
Definition rd0 : dict Z unit := [(0%nat, Inst true [(1, 100)] [])].
Definition rm0 : meas Z := Meas 0 10 PROPAGATION 1.
Definition rP : meas Z := Meas 0 20 PRIVATE 2.
Definition rJ : meas Z := Meas 0 20 JOINT 3.
Definition rQ : meas Z := Meas 0 15 PRIVATE 4.
Definition rh : handler Z unit Z := Handler rd0 [] [] [] (d_of_Z 10) (d_of_Z 10) (d_of_Z 10) (d_of_Z 10).
Definition rshow (o : outcome (handler Z unit Z)) :=
  match o with Ok h => Some (map (fun e => m_ty (snd e)) (h_meas h), map (fun e => i_bel (snd e)) (h_dict h)) | _ => None end.
Notation relaxed := (c_process_all dbl_deleg (fun _ _ => false) OS_RELAXED RD_POSTCORRELATED rh).
Notation strict := (c_process_all dbl_deleg (fun _ _ => false) OS_STRICT RD_POSTCORRELATED rh).
Lemma relaxed_hyps rest : (forall m, In m rest -> In m [rP; rJ; rQ]) ->
  wf 0 1000 rd0 /\ initialised 10 rd0 /\ processable (fun _ => True) (fun _ => True) dbl_deleg rd0 10 0 1000 1000 1000 (2097151 * giga) 0 (rm0 :: rest) /\
  (forall m, In m rest -> m_t rm0 + 0 < m_t m).
Proof.
  intros Sub. assert (A : forall m, In m (rm0 :: rest) -> In m [rm0; rP; rJ; rQ]) by (intros m [<-|I]; [now left|right; auto]).
  split; [|split; [|split]].
  - split; [repeat constructor; cbn; tauto|]. intros e [<-|[]]; cbn. split; [split; [repeat constructor|intros x [<-|[]]; cbn; lia]|split; [intros j b []|constructor]].
  - intros e [<-|[]]; cbn. split; [exists 1, 100; reflexivity|]. split; [|reflexivity].
    intros k L. unfold bel_at. rewrite get_at_first. cbn [snd i_bel find fst]. destruct (Z.eqb_spec 1 k); [lia|reflexivity].
  - unfold processable, giga. split; [|split].
    + intros m H. apply A in H. repeat (destruct H as [<-|H]); try contradiction; cbn; (split; [discriminate|split; [lia|split; [lia|eauto]]]).
    + intros x y Hx Hy. apply A in Hx, Hy. repeat (destruct Hx as [<-|Hx]; [repeat (destruct Hy as [<-|Hy]; [cbn; lia|]); contradiction|]); contradiction.
    + left. intros d m _ _ _ _. cbn. discriminate.
  - intros m H. apply Sub in H. repeat (destruct H as [<-|H]); try contradiction; cbn; lia.
Qed.
(** all hypotheses of C106_any_two_orders but the last hold; the stored order and the belief depend on which arrived first, while
    the strict order gives one result; a measurement arriving late at an earlier time re-sorts the instant *)
Theorem C106_simultaneous : contract 0 1000 (fun _ => True) (fun _ => True) dbl_deleg /\
  wf 0 1000 rd0 /\ initialised 10 rd0 /\ processable (fun _ => True) (fun _ => True) dbl_deleg rd0 10 0 1000 1000 1000 (2097151 * giga) 0 [rm0; rP; rJ] /\
  rshow (relaxed [rm0; rP; rJ]) = Some ([PROPAGATION; PRIVATE; JOINT], [[(1, 100); (10, 201); (20, 811)]]) /\
  rshow (relaxed [rm0; rJ; rP]) = Some ([PROPAGATION; JOINT; PRIVATE], [[(1, 100); (10, 201); (20, 812)]]) /\
  rshow (strict [rm0; rJ; rP]) = rshow (relaxed [rm0; rP; rJ]) /\
  rshow (relaxed [rm0; rJ; rP; rQ]) = rshow (relaxed [rm0; rP; rJ; rQ]).
Proof.
  split; [apply dbl_contract|]. destruct (relaxed_hyps [rP; rJ]) as [A [B [C _]]]; [intros m [<-|[<-|[]]]; cbn; tauto|].
  split; [exact A|]. split; [exact B|]. split; [exact C|]. vm_compute. repeat split.
Qed.
Example C106_example : wf 0 1000 rd0 /\ initialised 10 rd0 /\
  processable (fun _ => True) (fun _ => True) dbl_deleg rd0 10 0 1000 1000 1000 (2097151 * giga) 0 [rm0; rJ; rQ] /\
  (forall m, In m [rJ; rQ] -> m_t rm0 + 0 < m_t m) /\ no_private_joint [rJ; rQ] /\ NoDup (map (fun m => (m_t m, m_ty m)) [rJ; rQ]) /\
  rshow (relaxed [rm0; rJ; rQ]) = rshow (relaxed [rm0; rQ; rJ]).
Proof.
  destruct (relaxed_hyps [rJ; rQ]) as [A [B [C D]]]; [intros m [<-|[<-|[]]]; cbn; tauto|].
  split; [exact A|]. split; [exact B|]. split; [exact C|]. split; [exact D|]. split.
  - intros x y [<-|[<-|[]]] [<-|[<-|[]]]; cbn; discriminate || lia.
  - split; [repeat constructor; cbn; intuition congruence|vm_compute; reflexivity].
Qed.
Print Assumptions C106_history.
Print Assumptions C106_same_run.
Print Assumptions C106_any_two_orders.
Print Assumptions C106_shipped.
Print Assumptions C106_discard.
Print Assumptions C106_simultaneous.
