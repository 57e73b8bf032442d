(** Two estimators that agree on the chronological replays of everything that has arrived give the same run of the handler. *)
From Coq Require Import ZArith List Bool Arith Lia Sorted Permutation.
From Verif Require Import Outcome TimestampModel DoubleModel BufModel Spec_Buf BufProofs HorizonModel HorizonProofs MeasModel HandlerModel Spec_Handler HandlerProofs AgeProofs ClockProofs ReplayProofs ArrivalProofs.
Import ListNotations.
Local Open Scope Z_scope.
Local Open Scope outcome_scope.

Section AG.
Context {B M P : Type}.
Notation meas := (meas P). Notation inst := (inst B M). Notation dict := (dict B M). Notation handler := (handler B M P).
Implicit Types (h : handler) (m : meas) (d : dict) (i : inst).
Variables deleg deleg' : dict -> meas -> dict * status.
Notation step := (replay_step deleg).
Variables wa wb : Z.
Variables (good : dict -> Prop) (okm : meas -> Prop).
Notation wf := (fine wa wb good).
Hypothesis C : contract wa wb good okm deleg.
Variables (d0 : dict) (lo hz hzo tmax sl : Z).
Hypothesis Ck : clock tmax sl.
Hypothesis W0 : wf d0.
Hypothesis An0 : forall e, In e d0 -> exists k v, k < lo /\ bel_at k (snd e) = Some v.
Hypothesis Be0 : below lo d0.
Hypothesis Hhz : 0 <= hz < 2097151 * 1000000000.
Hypothesis Hhzo : 0 <= hzo < 2097151 * 1000000000.
Hypothesis Lo : 0 <= lo.
Hypothesis No : forall d m, wf d -> win wa wb okm m -> snd (deleg d m) <> OUTOFORDER.
Notation fit := (fit deleg wa wb good okm d0 lo hz hzo tmax sl).
Notation runs := (runs deleg d0).
Notation Inv := (Inv deleg wa wb good d0).

(** on every call of the chronological replay of [L] *)
Definition calls (L : list meas) : Prop :=
  forall pre m post d, L = pre ++ m :: post -> wf d -> same d (sd (runs pre)) -> deleg' d m = deleg d m.

Lemma no_ooo l : wins wa wb okm l -> so (runs l) = [].
Proof. intros N. apply (runs_no_ooo deleg wa wb good okm C d0 W0 l N). exact No. Qed.
Lemma step_next l m : wins wa wb okm (l ++ [m]) -> sd (runs (l ++ [m])) = fst (h_delegate deleg (sd (runs l)) m).
Proof.
  intros N. assert (O : so (runs l) = []) by (apply no_ooo; intros x I; apply N; apply in_or_app; now left).
  unfold runs. rewrite fold_left_app. cbn [fold_left]. fold (runs l). revert O. destruct (runs l) as [[a b] c]. cbn [so sd fst snd]. intros ->.
  now apply step_sd.
Qed.

Lemma fold_agree2 suf : forall pre d v, calls (pre ++ suf) -> wf d -> wins wa wb okm (pre ++ suf) -> same d (sd (runs pre)) ->
  fold_left (replay_step deleg') suf (d, [], v) = fold_left step suf (d, [], v).
Proof.
  induction suf as [|m r IH]; intros pre d v Hc W N S; [reflexivity|]. cbn [fold_left].
  assert (Nm : win wa wb okm m) by (apply N; apply in_or_app; right; now left).
  assert (Np : wins wa wb okm (pre ++ [m])) by (intros x I; apply N; apply in_app_or in I; apply in_or_app; destruct I as [I|[<-|[]]]; [now left|right; now left]).
  assert (E : h_delegate deleg' d m = h_delegate deleg d m) by (unfold h_delegate; now rewrite (Hc pre m r d eq_refl W S)).
  unfold replay_step at 2 4. cbn [empty orb]. rewrite E.
  assert (Wp : wf (sd (runs pre))) by (apply (fold_wf wa wb good okm deleg C); [exact W0|intros x I; apply N; apply in_or_app; now left]).
  destruct (hdel_same wa wb good okm deleg C d (sd (runs pre)) m W Wp Nm S) as [H1 H2].
  pose proof (hdel_wf wa wb good okm deleg C d m W Nm) as H3.
  assert (O : is_ooo (r_status (snd (h_delegate deleg d m))) = false).
  { unfold h_delegate. destruct (d_find _ _) as [i|]; [|reflexivity]. destruct (i_enabled i); [|reflexivity]. pose proof (No d m W Nm) as Q.
    destruct (deleg d m) as [d' st]. cbn in *. destruct st; try reflexivity. congruence. }
  destruct (h_delegate deleg d m) as [d' r'] eqn:Ed. cbn [snd fst] in *. rewrite O.
  apply (IH (pre ++ [m])).
  - rewrite <- app_assoc. exact Hc.
  - exact H3.
  - rewrite <- app_assoc. exact N.
  - rewrite step_next by exact Np. exact H1.
Qed.

Lemma process_agree2 h l m : Inv h l -> h_near (h_max h) hz -> fit (m :: l) -> calls (rinsert m l) -> process deleg' m h = process deleg m h.
Proof.
  intros V N F Hc. pose proof V as [Vm Vs Vr Vw Vd Vo]. pose proof F as [F1 [F2 F3]].
  pose proof (fit_wins deleg wa wb good okm d0 lo hz hzo tmax sl Hhz Hhzo _ F) as Nml. assert (Nm : win wa wb okm m) by (apply Nml; now left).
  assert (Nl : wins wa wb okm l) by (intros x I; apply Nml; now right).
  assert (Typ : forall x, In x (m :: l) -> ReplayProofs.typed x) by (intros x I; now apply F1).
  rewrite (no_ooo l Nl) in Vo.
  unfold process, process_gen. destruct (negb (exists_id (m_id m) h)); [reflexivity|]. destruct (too_old m (h_meas h)); [reflexivity|].
  assert (SR : forall del, serve_requests del h = Ok h).
  { intros del. unfold serve_requests. rewrite Vr. cbn [check_horizon_from_t empty negb obind get_oldest]. f_equal. unfold set_redo. rewrite <- Vr. symmetry. apply handler_eta. }
  rewrite !SR. cbn [obind]. rewrite Vo. cbn [check_horizon_from_t empty negb obind hb_exist_before_t exist_at_t get_at_t orb].
  match goal with |- context [order_violated m (h_meas h) || ?b] => change b with false end. rewrite orb_false_r.
  destruct (order_violated m (h_meas h)) eqn:Vi.
  - cbn [set_ooo h_max h_meas]. rewrite Vm, (check_noop deleg wa wb good okm d0 lo hz hzo tmax sl Ck Hhz Lo) by (auto; exact F). cbn [obind]. f_equal.
    rewrite (sort_insert (m_t m) m l Vs Typ (Z.le_refl _)). set (L := rinsert m l) in *. assert (SL : msorted L) by now apply rinsert_sorted.
    rewrite !redo_from_spec by (cbn; now apply keyed_ws). cbn [set_meas set_ooo h_meas h_dict]. rewrite from_t_keyed.
    set (ts := m_t m). assert (LoTs : lo <= ts) by (unfold ts; destruct (F1 m (or_introl eq_refl)) as [_ [? _]]; lia).
    set (suf := filter (fun x => ts <=? m_t x) L). set (pre := filter (fun x => m_t x <? ts) l).
    assert (EL : L = pre ++ suf).
    { unfold pre, suf. rewrite (sorted_split deleg okm ts L SL) at 1. f_equal. unfold L. rewrite rinsert_filter by exact Vs.
      replace (m_t m <? ts) with false by (unfold ts; lia). reflexivity. }
    assert (Np : wins wa wb okm pre) by (intros x I; unfold pre in I; apply filter_In in I; apply Nl; tauto).
    assert (NL : wins wa wb okm (pre ++ suf)) by (rewrite <- EL; intros x I; apply (Permutation_in _ (Permutation_sym (rinsert_perm m l))) in I; now apply Nml).
    assert (WP : wf (sd (runs pre))) by (apply (fold_wf wa wb good okm deleg C); auto).
    assert (EF : runs l = fold_left step (filter (fun x => ts <=? m_t x) l) (runs pre)).
    { unfold ArrivalProofs.runs. rewrite (sorted_split deleg okm ts l Vs) at 1. now rewrite fold_left_app. }
    assert (KP : keeps (fun k => k < ts) (sd (runs pre)) (h_dict h)).
    { apply keeps_same with (sd (runs l)); [|exact Vd]. rewrite EF. apply (fold_keeps wa wb good okm deleg C); [|exact WP|].
      - intros x I. apply filter_In in I. lia.
      - intros x I. apply filter_In in I. apply Nl; tauto. }
    assert (Q : same (sd (runs pre)) (remove_beliefs_from ts (h_dict h))).
    { apply (rbf_restores wa wb good); [exact Vw| | |exact KP].
      - apply (keeps_anchored deleg good lo ts d0); [|exact An0|exact LoTs]. apply keeps_same with (sd (runs l)); [|exact Vd].
        apply (fold_keeps wa wb good okm deleg C (fun k => k < lo) l (d0, [], [])); [|exact W0|exact Nl]. intros x I. destruct (F1 x (or_intror I)) as [_ [? _]]. lia.
      - apply (keeps_below ts d0).
        + apply (fold_keeps wa wb good okm deleg C (fun k => ts <= k) pre (d0, [], [])); [|exact W0|exact Np]. intros x I. unfold pre in I. apply filter_In in I. lia.
        + intros e I. destruct (Be0 e I) as [A1 A2]. split; intros; [apply A1|apply A2]; lia. }
    rewrite (fold_agree2 suf pre); [reflexivity|now rewrite <- EL|now apply (rbf_wf wa wb good okm deleg C)|exact NL|now apply same_sym].
  - cbn [set_ooo h_dict]. rewrite Vm in Vi. pose proof (not_violated m l Vs Typ Vi) as LE.
    assert (E : h_delegate deleg' (h_dict h) m = h_delegate deleg (h_dict h) m); [|now rewrite E].
    unfold h_delegate. rewrite (Hc l m [] (h_dict h)); [reflexivity|now apply rinsert_last|exact Vw|exact Vd].
Qed.

Lemma process_all_agree2 todo : forall h l, Inv h l -> h_near (h_max h) hz -> h_near (h_ooo_max h) hzo ->
  fit (l ++ todo) -> (l = [] \/ exists x, In x l /\ forall y, In y todo -> m_t x + sl < m_t y) -> (l = [] -> match todo with [] => True | m0 :: r => forall y, In y r -> m_t m0 + sl < m_t y end) ->
  (forall a b, todo = a ++ b -> calls (fold_left (fun l m => rinsert m l) a l)) ->
  process_all deleg' h todo = process_all deleg h todo.
Proof.
  induction todo as [|m r IH]; intros h l V N No' F Old First Hc; [reflexivity|]. cbn [process_all].
  assert (Fm : fit (m :: l)) by (apply (fit_incl deleg wa wb good okm d0 lo hz hzo tmax sl) with (l ++ m :: r); [intros y [<-|I]; apply in_or_app; [right; now left|now left]|exact F]).
  rewrite (process_agree2 h l m V N Fm (Hc [m] r eq_refl)).
  destruct (arrive deleg wa wb good okm C d0 lo hz hzo tmax sl Ck W0 An0 Be0 Hhz Hhzo Lo h l m V N No' Fm) as [h1 [vec [E [V1 [Fr1 Fr2]]]]].
  { destruct Old as [->|[x [Ix Lx]]]; [now left|right; exists x; split; [exact Ix|apply Lx; now left]]. }
  rewrite E. cbn [obind fst]. apply (IH h1 (rinsert m l)); auto.
  - now rewrite Fr1.
  - now rewrite Fr2.
  - apply (fit_perm deleg wa wb good okm d0 lo hz hzo tmax sl) with (l ++ m :: r); [|exact F]. transitivity (m :: l ++ r); [apply Permutation_sym, Permutation_middle|].
    change (m :: l ++ r) with ((m :: l) ++ r). apply Permutation_app_tail, rinsert_perm.
  - right. destruct Old as [->|[x [Ix Lx]]].
    + exists m. split; [now left|]. intros y I. now apply (First eq_refl).
    + exists x. split; [apply (Permutation_in _ (rinsert_perm m l)); now right|]. intros y I. apply Lx. now right.
  - intros Q. exfalso. pose proof (Permutation_in m (rinsert_perm m l) (or_introl eq_refl)) as I. rewrite Q in I. contradiction.
  - intros a b Eb. apply (Hc (m :: a) b). cbn. now rewrite Eb.
Qed.
End AG.
