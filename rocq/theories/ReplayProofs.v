From Coq Require Import ZArith List Bool Arith Lia Sorted Permutation.
From Flocq Require Import IEEE754.BinarySingleNaN.
From Verif Require Import Outcome TimestampModel DoubleModel BufModel Spec_Buf BufProofs HorizonModel HorizonProofs MeasModel HandlerModel Spec_Handler HandlerProofs AgeProofs.
Import ListNotations.
Local Open Scope Z_scope.

Section RP.
Context {B M P : Type}.
Notation meas := (meas P). Notation inst := (inst B M). Notation dict := (dict B M). Notation handler := (handler B M P).
Implicit Types (h : handler) (m : meas) (d : dict) (i : inst).

Variables wa wb : Z.
Variables (good : dict -> Prop) (okm : meas -> Prop).
Definition fine d : Prop := Spec_Handler.wf wa wb d /\ good d.
Notation okb := (okb wa wb). Notation wf_inst := (wf_inst wa wb). Notation wf := fine.
Lemma same_inst_refl i : same_inst i i. Proof. repeat split. Qed.
Lemma same_inst_sym i j : same_inst i j -> same_inst j i.
Proof. intros [A [C D]]. repeat split; intros; symmetry; auto. Qed.
Lemma same_inst_trans i j k : same_inst i j -> same_inst j k -> same_inst i k.
Proof. intros [A [C D]] [A' [C' D']]. split; [congruence|]. split; intros; [rewrite C; apply C'|rewrite D; apply D']. Qed.
Lemma same_refl d : same d d.
Proof. induction d; constructor; auto. split; [reflexivity|apply same_inst_refl]. Qed.
Lemma same_sym d d' : same d d' -> same d' d.
Proof. induction 1 as [|a b r r' [E S] F IH]; constructor; auto. split; [now symmetry|now apply same_inst_sym]. Qed.
Lemma same_trans d1 d2 d3 : same d1 d2 -> same d2 d3 -> same d1 d3.
Proof.
  intros H. revert d3. induction H as [|a b r r' [E S] F IH]; intros d3 H3; inversion H3 as [|? c ? r'' [E' S'] F']; subst; constructor; [|now apply IH].
  split; [congruence|exact (same_inst_trans _ _ _ S S')].
Qed.

Lemma same_find id d d' : same d d' ->
  match d_find id d, d_find id d' with Some i, Some i' => same_inst i i' | None, None => True | _, _ => False end.
Proof.
  induction 1 as [|[a i] [b i'] r r' [E S] F IH]; [exact I|]. cbn [fst snd] in *. subst b. cbn [d_find].
  destruct (a =? id)%nat; [exact S|exact IH].
Qed.

(** ** the contract of the estimators *)
Variable deleg : dict -> meas -> dict * status.
Hypothesis C : contract wa wb good okm deleg.
Notation c_wf := (c_wf wa wb good okm deleg). Notation c_only := (c_only wa wb good okm deleg). Notation c_same := (c_same wa wb good okm deleg).
Definition win m : Prop := wa <= m_t m <= wb /\ okm m.
Notation step := (replay_step deleg).
Notation S3 := (dict * buf bool * list result)%type.
Definition sd (s : S3) := fst (fst s).
Definition so (s : S3) := snd (fst s).

Lemma only_refl t d : writes_only_at t d d.
Proof. induction d; constructor; auto. split; [reflexivity|repeat split]. Qed.
Lemma hdel_wf d m : wf d -> win m -> wf (fst (h_delegate deleg d m)).
Proof.
  intros W N. unfold h_delegate. destruct (d_find _ _) as [i|]; [|exact W]. destruct (i_enabled i); [|exact W].
  pose proof (c_wf C d m (proj1 W) (proj2 W) (proj1 N) (proj2 N)). now destruct (deleg d m).
Qed.
Lemma hdel_only d m : wf d -> win m -> writes_only_at (m_t m) d (fst (h_delegate deleg d m)).
Proof.
  intros W N. unfold h_delegate. destruct (d_find _ _) as [i|]; [|apply only_refl]. destruct (i_enabled i); [|apply only_refl].
  pose proof (c_only C d m (proj1 W) (proj2 W) (proj1 N) (proj2 N)). now destruct (deleg d m).
Qed.
Lemma hdel_same d d' m : wf d -> wf d' -> win m -> same d d' ->
  same (fst (h_delegate deleg d m)) (fst (h_delegate deleg d' m)) /\ snd (h_delegate deleg d m) = snd (h_delegate deleg d' m).
Proof.
  intros W W' N S. unfold h_delegate. pose proof (same_find (m_id m) d d' S) as F.
  destruct (d_find _ d) as [i|], (d_find _ d') as [i'|]; try contradiction; [|split; [exact S|reflexivity]].
  destruct F as [-> _]. destruct (i_enabled i'); [|split; [exact S|reflexivity]].
  destruct (c_same C d d' m (proj1 W) (proj2 W) (proj1 W') (proj2 W') (proj1 N) (proj2 N) S) as [A E]. destruct (deleg d m), (deleg d' m). cbn in *. split; [exact A|now rewrite E].
Qed.

Definition eqs (s s' : S3) : Prop := same (sd s) (sd s') /\ so s = so s' /\ snd s = snd s'.
Lemma step_wf s m : wf (sd s) -> win m -> wf (sd (step s m)).
Proof.
  destruct s as [[d o] v]. cbn [sd fst]. intros W N. unfold replay_step. destruct (_ || _); [|exact W].
  pose proof (hdel_wf d m W N). now destruct (h_delegate deleg d m).
Qed.
Definition wins (ms : list meas) : Prop := forall m, In m ms -> win m.
Lemma fold_wf ms s : wf (sd s) -> wins ms -> wf (sd (fold_left step ms s)).
Proof. revert s. induction ms as [|m r IH]; intros s W N; [exact W|]. cbn. apply IH; [apply step_wf; [exact W|apply N; now left]|intros x I; apply N; now right]. Qed.
Lemma step_eqs s s' m : wf (sd s) -> wf (sd s') -> win m -> eqs s s' -> eqs (step s m) (step s' m).
Proof.
  destruct s as [[d o] v], s' as [[d' o'] v']. unfold eqs. cbn [sd so fst snd]. intros W W' N [S [-> ->]]. unfold replay_step.
  destruct (_ || _); [|cbn; auto]. destruct (hdel_same d d' m W W' N S) as [A E].
  destruct (h_delegate deleg d m), (h_delegate deleg d' m). cbn in *. subst. auto.
Qed.
Lemma fold_eqs ms s s' : wf (sd s) -> wf (sd s') -> wins ms -> eqs s s' -> eqs (fold_left step ms s) (fold_left step ms s').
Proof.
  revert s s'. induction ms as [|m r IH]; intros s s' W W' N E; [exact E|]. cbn. assert (Nm : win m) by (apply N; now left).
  apply IH; [now apply step_wf|now apply step_wf|intros x I; apply N; now right|now apply step_eqs].
Qed.
(** the results collected so far only prefix the result list *)
Lemma step_vec d o v m : step (d, o, v) m = (sd (step (d, o, []) m), so (step (d, o, []) m), v ++ snd (step (d, o, []) m)).
Proof.
  unfold replay_step. destruct (_ || _); [|cbn; now rewrite app_nil_r]. destruct (h_delegate deleg d m). reflexivity.
Qed.
Lemma fold_vec ms d o v : sd (fold_left step ms (d, o, v)) = sd (fold_left step ms (d, o, [])) /\
  so (fold_left step ms (d, o, v)) = so (fold_left step ms (d, o, [])).
Proof.
  revert d o v. induction ms as [|m r IH]; intros d o v; [split; reflexivity|]. cbn [fold_left].
  rewrite step_vec. destruct (IH (sd (step (d, o, []) m)) (so (step (d, o, []) m)) (v ++ snd (step (d, o, []) m))) as [-> ->].
  destruct (IH (sd (step (d, o, []) m)) (so (step (d, o, []) m)) (snd (step (d, o, []) m))) as [E1 E2].
  rewrite <- E1, <- E2. destruct (step (d, o, []) m) as [[? ?] ?]. split; reflexivity.
Qed.

(** what the replay writes *)
Definition untouched (p : Z -> Prop) i i' : Prop :=
  i_enabled i = i_enabled i' /\ (forall k, p k -> bel_at k i = bel_at k i') /\ (forall j k, p k -> ccf_at j k i = ccf_at j k i').
Definition keeps (p : Z -> Prop) d d' : Prop := Forall2 (fun a b => fst a = fst b /\ untouched p (snd a) (snd b)) d d'.
Lemma keeps_refl p d : keeps p d d.
Proof. induction d; constructor; auto. split; [reflexivity|repeat split]. Qed.
Lemma keeps_trans p d1 d2 d3 : keeps p d1 d2 -> keeps p d2 d3 -> keeps p d1 d3.
Proof.
  intros H. revert d3. induction H as [|a b r r' [E [S1 [S2 S3]]] F IH]; intros d3 H3;
    inversion H3 as [|? c ? r'' [E' [S1' [S2' S3']]] F']; subst; constructor; [|now apply IH].
  split; [congruence|]. split; [congruence|]. split; intros; [rewrite S2 by assumption|rewrite S3 by assumption]; auto.
Qed.
Lemma only_keeps (p : Z -> Prop) t d d' : ~ p t -> writes_only_at t d d' -> keeps p d d'.
Proof.
  intros N. induction 1 as [|a b r r' [E [S1 [S2 S3]]] F IH]; constructor; [|exact IH]. split; [exact E|]. split; [exact S1|].
  split; intros; [apply S2|apply S3]; intros ->; contradiction.
Qed.
Lemma fold_keeps (p : Z -> Prop) ms s : (forall m, In m ms -> ~ p (m_t m)) -> wf (sd s) -> wins ms -> keeps p (sd s) (sd (fold_left step ms s)).
Proof.
  revert s. induction ms as [|m r IH]; intros s H W N; [apply keeps_refl|]. cbn [fold_left]. assert (Nm : win m) by (apply N; now left).
  apply keeps_trans with (sd (step s m)).
  - destruct s as [[d o] v]. cbn [sd fst] in *. unfold replay_step. destruct (_ || _); [|apply keeps_refl].
    pose proof (hdel_only d m W Nm) as O. destruct (h_delegate deleg d m). apply only_keeps with (m_t m); [apply H; now left|exact O].
  - apply IH; [intros x I; apply H; now right|now apply step_wf|intros x I; apply N; now right].
Qed.

(** ** removal *)
Lemma get_at_ext {T} (b : buf T) (f : Z -> bool) k : ssorted b -> get_at_t k (filter (fun e => f (fst e)) b) = if f k then get_at_t k b else None.
Proof.
  intros S. apply opt_ext. intros v. rewrite get_at_iff by (now apply ssorted_filter). rewrite filter_In. cbn [fst].
  destruct (f k); [|intuition discriminate]. rewrite get_at_iff by exact S. tauto.
Qed.
Lemma assoc_map {V W} (f : V -> W) j c : assoc j (map (fun e => (fst e, f (snd e))) c) = option_map f (assoc j c).
Proof. induction c as [|[k b] r IH]; [reflexivity|]. cbn. destruct (k =? j)%nat; [reflexivity|exact IH]. Qed.
Lemma assoc_In {V} j (c : list (nat * V)) b : assoc j c = Some b -> In (j, b) c.
Proof.
  induction c as [|[k x] r IH]; [discriminate|]. cbn. destruct (Nat.eqb_spec k j) as [->|N]; [intros [= ->]; now left|right; auto].
Qed.
Lemma remove_from_at t i k j : wf_inst i ->
  bel_at k (inst_remove_from t i) = (if k <? t then bel_at k i else None) /\
  ccf_at j k (inst_remove_from t i) = (if k <? t then ccf_at j k i else None).
Proof.
  intros [[Sb _] [Sc _]]. unfold bel_at, ccf_at. cbn [i_bel i_ccf inst_remove_from]. rewrite remove_from_filter by (now apply ssorted_w).
  split; [exact (get_at_ext (i_bel i) (fun x => x <? t) k Sb)|]. rewrite (assoc_map (fun b => remove_at_t t (remove_after_t t b))). destruct (assoc j (i_ccf i)) as [b|] eqn:E; cbn [option_map].
  - apply assoc_In in E. apply Sc in E. destruct E as [E _]. rewrite remove_from_filter by (now apply ssorted_w). exact (get_at_ext b (fun x => x <? t) k E).
  - now destruct (k <? t).
Qed.
Lemma remove_okb {T} t (b : buf T) : okb b -> okb (remove_at_t t (remove_after_t t b)).
Proof.
  intros [S H]. split; rewrite remove_from_filter by (now apply ssorted_w); [now apply ssorted_filter|].
  intros e I. apply filter_In in I. apply H. tauto.
Qed.
Lemma remove_from_wf t i : wf_inst i -> wf_inst (inst_remove_from t i).
Proof.
  intros [Sb [Sc Sn]]. split; [|split]; cbn [i_bel i_ccf inst_remove_from].
  - now apply remove_okb.
  - intros j b I. apply in_map_iff in I. destruct I as [[j' b'] [[= <- <-] I]]. apply Sc in I. now apply remove_okb.
  - now rewrite map_map.
Qed.
Lemma rbf_part t d : Spec_Handler.wf wa wb d -> part_of (remove_beliefs_from t d) d.
Proof.
  intros [_ W]. unfold remove_beliefs_from. induction d as [|x r IH]; cbn; constructor; [|apply IH; intros e I; apply W; now right].
  split; [reflexivity|]. cbn [snd]. pose proof (W x (or_introl eq_refl)) as Wx.
  destruct (hb_exist_before_t _ _); [|repeat split; auto]. split; [reflexivity|]. split.
  - intros k b. destruct (remove_from_at t (snd x) k 0 Wx) as [-> _]. now destruct (k <? t).
  - intros j k f. destruct (remove_from_at t (snd x) k j Wx) as [_ ->]. now destruct (k <? t).
Qed.
Lemma rbf_wf t d : wf d -> wf (remove_beliefs_from t d).
Proof.
  intros [W G]. split; [|exact (c_part wa wb good okm deleg C _ _ G (rbf_part t d W))].
  destruct W as [N W]. split; [unfold remove_beliefs_from; now rewrite map_map|].
  intros e I. unfold remove_beliefs_from in I. apply in_map_iff in I. destruct I as [x [<- I]]. cbn [snd].
  destruct (hb_exist_before_t _ _); [apply remove_from_wf|]; exact (W x I).
Qed.
(** every instance has a belief older than t *)
Definition anchored (t : Z) d : Prop := forall e, In e d -> exists k v, k < t /\ bel_at k (snd e) = Some v.
(** nothing is stored at or after t *)
Definition below (t : Z) d : Prop := forall e, In e d -> (forall k, t <= k -> bel_at k (snd e) = None) /\ (forall j k, t <= k -> ccf_at j k (snd e) = None).

Lemma anchored_before t i k v : wf_inst i -> k < t -> bel_at k i = Some v -> hb_exist_before_t t (i_bel i) = true.
Proof.
  intros [[Sb _] _] L E. rewrite hb_exist_before_get. destruct (get_before_t t (i_bel i)) as [e|] eqn:G; [reflexivity|].
  pose proof (proj1 (get_before_none t (i_bel i) (ssorted_w _ Sb)) G) as Q. apply get_at_In in E. specialize (Q _ E). cbn in Q. lia.
Qed.

(** removing from t whatever was written at or after t restores what was there before *)
Lemma rbf_restores t d d' : wf d' -> anchored t d' -> below t d -> keeps (fun k => k < t) d d' -> same d (remove_beliefs_from t d').
Proof.
  intros [[_ W] _] An Be K. unfold remove_beliefs_from. revert W An Be. induction K as [|a b r r' [E [S1 [S2 S3]]] F IH]; intros W An Be; cbn; constructor.
  - cbn [fst snd]. split; [exact E|].
    destruct (An b (or_introl eq_refl)) as [k0 [v0 [L0 E0]]]. pose proof (W b (or_introl eq_refl)) as Wb.
    rewrite (anchored_before t (snd b) k0 v0 Wb L0 E0). destruct (Be a (or_introl eq_refl)) as [Be1 Be2].
    split; [exact S1|]. split.
    + intros k. destruct (remove_from_at t (snd b) k 0 Wb) as [-> _]. destruct (Z.ltb_spec k t); auto.
    + intros j k. destruct (remove_from_at t (snd b) k j Wb) as [_ ->]. destruct (Z.ltb_spec k t); auto.
  - apply IH; intros e I; [apply W|apply An|apply Be]; now right.
Qed.

(** ** order of the history *)
Definition mrank m := rank (m_ty m).
Definition mleb (a b : meas) : bool := (m_t a <? m_t b) || ((m_t a =? m_t b) && (mrank a <=? mrank b)%nat).
Lemma mleb_iff a b : mleb a b = true <-> mle a b.
Proof.
  unfold mleb, mle, mrank. rewrite orb_true_iff, andb_true_iff, Z.ltb_lt, Z.eqb_eq, Nat.leb_le. tauto.
Qed.
Lemma mle_total (a b : meas) : mle a b \/ mle b a.
Proof. unfold mle. destruct (Z_lt_dec (m_t a) (m_t b)), (Z_lt_dec (m_t b) (m_t a)); try tauto. lia. Qed.
Lemma mle_trans (a b c : meas) : mle a b -> mle b c -> mle a c.
Proof. unfold mle. lia. Qed.
(** insert after everything that is not later *)
Fixpoint rinsert m (ms : list meas) : list meas :=
  match ms with [] => [m] | x :: r => if mleb x m then x :: rinsert m r else m :: x :: r end.
Definition msorted (ms : list meas) := StronglySorted (@mle P) ms.
Lemma rinsert_perm m ms : Permutation (m :: ms) (rinsert m ms).
Proof.
  induction ms as [|x r IH]; [repeat constructor|]. cbn. destruct (mleb x m); [|apply Permutation_refl].
  transitivity (x :: m :: r); [constructor|]. now constructor.
Qed.
Lemma rinsert_sorted m ms : msorted ms -> msorted (rinsert m ms).
Proof.
  induction 1 as [|x r S IH F]; [repeat constructor|]. cbn. destruct (mleb x m) eqn:E.
  - constructor; [exact IH|]. rewrite Forall_forall in *. intros y I.
    apply (Permutation_in _ (Permutation_sym (rinsert_perm m r))) in I. destruct I as [<-|I]; [now apply mleb_iff|now apply F].
  - constructor; [now constructor|]. assert (L : mle m x).
    { destruct (mle_total x m) as [Q|Q]; [apply mleb_iff in Q; congruence|exact Q]. }
    constructor; [exact L|]. rewrite Forall_forall in *. intros y I. exact (mle_trans _ _ _ L (F y I)).
Qed.
Definition keyed (ms : list meas) : buf meas := map (fun m => (m_t m, m)) ms.
Lemma keyed_ws ms : msorted ms -> wsorted (keyed ms).
Proof.
  induction 1 as [|m r S IH F]; cbn; constructor; [exact IH|]. rewrite Forall_forall in *. intros e I.
  apply in_map_iff in I. destruct I as [x [<- I]]. specialize (F x I). unfold kle, mle in *. cbn. lia.
Qed.
Lemma keyed_ok' ms : keyed_ok (keyed ms).
Proof. intros e I. apply in_map_iff in I. destruct I as [x [<- _]]. reflexivity. Qed.
Lemma keyed_In ms e : In e (keyed ms) <-> exists m, In m ms /\ e = (m_t m, m).
Proof. unfold keyed. rewrite in_map_iff. split; intros [x [A D]]; exists x; auto. Qed.
Lemma keyed_snd ms : map snd (keyed ms) = ms.
Proof. unfold keyed. rewrite map_map. cbn. apply map_id. Qed.
Lemma keyed_app a b : keyed (a ++ b) = keyed a ++ keyed b. Proof. apply map_app. Qed.

(** filtering commutes *)
Lemma filter_keyed (f : Z -> bool) ms : filter (fun e => f (fst e)) (keyed ms) = keyed (filter (fun m => f (m_t m)) ms).
Proof. induction ms as [|m r IH]; [reflexivity|]. cbn [keyed map filter fst]. destruct (f (m_t m)); [cbn [map]; f_equal|]; exact IH. Qed.
Lemma elements_at_keyed s ms : elements_at s (keyed ms) = keyed (filter (fun m => m_t m =? s) ms).
Proof. exact (filter_keyed (fun k => k =? s) ms). Qed.
Lemma rinsert_filter (f : meas -> bool) m ms : msorted ms ->
  filter f (rinsert m ms) = if f m then rinsert m (filter f ms) else filter f ms.
Proof.
  induction 1 as [|x r S IH F]; [cbn; now destruct (f m)|]. cbn [rinsert filter]. destruct (mleb x m) eqn:E; cbn [filter].
  - rewrite IH. destruct (f m), (f x); cbn [rinsert]; rewrite ?E; reflexivity.
  - destruct (f m); [|reflexivity]. destruct (f x); cbn [rinsert]; [now rewrite E|].
    (* m goes before all remaining elements *)
    destruct (filter f r) as [|y q] eqn:G; [reflexivity|]. cbn [rinsert].
    assert (Iy : In y r) by (assert (In y (filter f r)) by (rewrite G; now left); apply filter_In in H; tauto).
    rewrite Forall_forall in F. specialize (F y Iy).
    destruct (mleb y m) eqn:Ey; [|reflexivity]. apply mleb_iff in Ey. assert (mle x m) by exact (mle_trans _ _ _ F Ey).
    apply mleb_iff in H. congruence.
Qed.
Lemma msorted_filter f ms : msorted ms -> msorted (filter f ms).
Proof.
  induction 1 as [|x r S IH F]; [constructor|]. cbn. destruct (f x); [|exact IH]. constructor; [exact IH|].
  rewrite Forall_forall in *. intros y I. apply filter_In in I. now apply F.
Qed.

(** at one instant, inserting in order is the same as appending and sorting by type *)
Definition typed m := m_ty m <> UNKNOWN.
Definition mof (ty : obs_type) (q : list meas) := filter (fun m => obs_eqb (m_ty m) ty) q.
Definition mby (q : list meas) := mof PROPAGATION q ++ mof PRIVATE q ++ mof JOINT q.
Lemma of_type_keyed ty q : of_type ty (keyed q) = keyed (mof ty q).
Proof. unfold of_type, mof. induction q as [|x r IH]; [reflexivity|]. cbn [keyed map filter snd]. destruct (obs_eqb _ _); [cbn [map]; f_equal|]; exact IH. Qed.
Lemma by_type_keyed q : by_type (keyed q) = keyed (mby q).
Proof. unfold by_type, mby. now rewrite !of_type_keyed, !keyed_app. Qed.

Lemma mby_id q s : msorted q -> (forall x, In x q -> m_t x = s /\ typed x) -> mby q = q.
Proof.
  induction 1 as [|x r S IH F]; intros H; [reflexivity|].
  assert (IH' := IH (fun y I => H y (or_intror I))). rewrite Forall_forall in F.
  destruct (H x (or_introl eq_refl)) as [Tx Ty].
  assert (Lo : forall ty, (rank ty < mrank x)%nat -> mof ty r = []).
  { intros ty L. apply filter_all_false. rewrite Forall_forall. intros y I. destruct (obs_eqb (m_ty y) ty) eqn:E; [|reflexivity].
    apply obs_eqb_iff in E. specialize (F y I). destruct (H y (or_intror I)) as [Tz _]. unfold mle, mrank in *. rewrite E in F. lia. }
  unfold mby in *. unfold mof in *. cbn [filter]. unfold typed in Ty. unfold mrank in Lo. destruct (m_ty x); cbn [obs_eqb]; [congruence| | |].
  - cbn [app]. now rewrite IH'.
  - rewrite (Lo PROPAGATION) in * by (cbn; lia). cbn [app] in *. now rewrite IH'.
  - rewrite (Lo PROPAGATION), (Lo PRIVATE) in * by (cbn; lia). cbn [app] in *. now rewrite IH'.
Qed.
Lemma rinsert_same q m : msorted q -> (forall x, In x q -> m_t x = m_t m /\ typed x) -> typed m -> mby (q ++ [m]) = rinsert m q.
Proof.
  intros S H Tm.
  assert (R : forall a b, (forall x, In x a -> mleb x m = true) -> (forall x, In x b -> mleb x m = false) -> rinsert m (a ++ b) = a ++ m :: b).
  { clear. intros a b Ha Hb. induction a as [|x r IH]; cbn.
    - destruct b as [|y q]; [reflexivity|]. cbn. now rewrite (Hb y (or_introl eq_refl)).
    - rewrite (Ha x (or_introl eq_refl)). f_equal. apply IH. intros y I. apply Ha. now right. }
  rewrite <- (mby_id q (m_t m) S H) at 2. unfold mby, mof. rewrite !filter_app. cbn [filter].
  assert (Q : forall ty x, In x (filter (fun m => obs_eqb (m_ty m) ty) q) -> mleb x m = (rank ty <=? mrank m)%nat).
  { intros ty x I. apply filter_In in I. destruct I as [I E]. apply obs_eqb_iff in E. destruct (H x I) as [Et _].
    unfold mleb, mrank. rewrite E, Et, Z.ltb_irrefl, Z.eqb_refl. reflexivity. }
  unfold typed in Tm. unfold mrank in Q. destruct (m_ty m) eqn:T; cbn [obs_eqb]; [congruence| | |]; rewrite ?app_nil_r; symmetry.
  - rewrite <- app_assoc. cbn [app]. apply R.
    + intros x I. rewrite (Q _ x I). reflexivity.
    + intros x I. apply in_app_or in I. destruct I as [I|I]; rewrite (Q _ x I); reflexivity.
  - match goal with |- rinsert m (?a ++ ?b ++ ?c) = _ => rewrite (app_assoc a b c), <- (app_assoc b [m] c), (app_assoc a b ([m] ++ c)) end. cbn [app]. apply R.
    + intros x I. apply in_app_or in I. destruct I as [I|I]; rewrite (Q _ x I); reflexivity.
    + intros x I. rewrite (Q _ x I); reflexivity.
  - match goal with |- rinsert m ?a = _ => rewrite <- (app_nil_r a) end. rewrite R.
    + now rewrite !app_assoc.
    + intros x I. apply in_app_or in I. destruct I as [I|I]; [rewrite (Q _ x I); reflexivity|].
      apply in_app_or in I. destruct I as [I|I]; rewrite (Q _ x I); reflexivity.
    + contradiction.
Qed.

(** inserting m and re-sorting from t yields the ordered insertion *)
Lemma sort_insert t m ms : msorted ms -> (forall x, In x (m :: ms) -> typed x) -> t <= m_t m ->
  sort_from t (mb_insert (m_t m) m (keyed ms)) = keyed (rinsert m ms).
Proof.
  intros S Ty L. pose proof (keyed_ws ms S) as W. pose proof (rinsert_sorted m ms S) as S'.
  set (l := mb_insert (m_t m) m (keyed ms)). assert (Wl : wsorted l) by (now apply mb_insert_wsorted).
  assert (Kl : keyed_ok l).
  { intros e I. apply mb_insert_In in I; [|exact W]. destruct I as [->|I]; [reflexivity|now apply (keyed_ok' ms)]. }
  destruct (sort_from_spec t l Wl Kl) as [Ws E]. apply wsorted_ext; [exact Ws|now apply keyed_ws|]. intros s. rewrite E.
  replace (existsb (fun e => t <=? fst e) l) with true.
  2:{ symmetry. apply existsb_exists. exists (m_t m, m). split; [apply mb_insert_In; [exact W|now left]|cbn; lia]. }
  unfold l. rewrite mb_insert_at by exact W. rewrite !elements_at_keyed. rewrite rinsert_filter by exact S.
  assert (Sf : msorted (filter (fun x => m_t x =? s) ms)) by (now apply msorted_filter).
  assert (Hf : forall x, In x (filter (fun x => m_t x =? s) ms) -> m_t x = s /\ typed x).
  { intros x I. apply filter_In in I. split; [lia|apply Ty; right; tauto]. }
  destruct (Z.eqb_spec (m_t m) s) as [<-|N].
  - replace (m_t m <? t) with false by lia. change [(m_t m, m)] with (keyed [m]). rewrite <- keyed_app, by_type_keyed.
    f_equal. apply rinsert_same; auto. apply Ty. now left.
  - rewrite app_nil_r. destruct (s <? t); [reflexivity|]. rewrite by_type_keyed. f_equal. exact (mby_id _ s Sf Hf).
Qed.

(** a measurement that does not violate the order goes to the end *)
Lemma rinsert_last m ms : (forall x, In x ms -> mle x m) -> rinsert m ms = ms ++ [m].
Proof.
  induction ms as [|x r IH]; intros H; [reflexivity|]. cbn. rewrite (proj2 (mleb_iff x m) (H x (or_introl eq_refl))).
  f_equal. apply IH. intros y I. apply H. now right.
Qed.
Lemma not_violated m ms : msorted ms -> (forall x, In x (m :: ms) -> typed x) -> order_violated m (keyed ms) = false ->
  forall x, In x ms -> mle x m.
Proof.
  intros S Ty V x I. unfold order_violated in V. rewrite get_all_eq in V by (now apply keyed_ws).
  destruct (exist_after_t (m_t m) (keyed ms)) eqn:X; [discriminate|].
  assert (L : m_t x <= m_t m).
  { destruct (Z_le_gt_dec (m_t x) (m_t m)) as [Q|Q]; [exact Q|]. assert (exist_after_t (m_t m) (keyed ms) = true); [|congruence].
    apply exist_after_iff. exists (m_t x, x). split; [apply keyed_In; eauto|cbn; lia]. }
  destruct (Z.eq_dec (m_t x) (m_t m)) as [Et|Nt]; [|left; lia]. right. split; [exact Et|].
  assert (Q : forall f, existsb f (map snd (elements_at (m_t m) (keyed ms))) = false -> f x = false).
  { intros f Y. destruct (f x) eqn:Ef; [|reflexivity]. assert (existsb f (map snd (elements_at (m_t m) (keyed ms))) = true); [|congruence].
    apply existsb_exists. exists x. split; [|exact Ef]. rewrite elements_at_keyed, keyed_snd. apply filter_In. split; [exact I|lia]. }
  pose proof (Ty x (or_intror I)) as Tx. pose proof (Ty m (or_introl eq_refl)) as Tm. unfold mrank, typed in *.
  destruct (m_ty m); [congruence| | |]; [specialize (Q _ V)|specialize (Q _ V)|]; cbn beta in *; destruct (m_ty x); cbn in *; try lia; try congruence; discriminate.
Qed.

(** ** flags of a replay *)
Lemma step_flags s m k : (exists v, In (k, v) (so (step s m))) -> (exists v, In (k, v) (so s)) \/ k = m_t m.
Proof.
  destruct s as [[d o] v]. cbn [so fst snd]. intros [w I]. unfold replay_step in I.
  assert (Q : forall o, In (k, w) (hb_insert (m_t m) true o) -> (exists v0, In (k, v0) o) \/ k = m_t m).
  { clear. intros o. induction o as [|[x y] r IH]; cbn; [intros [[= -> _]|[]]; now right|].
    destruct (m_t m <? x); [intros [[= -> _]|I]; [now right|left; exists w; exact I]|].
    destruct (m_t m =? x) eqn:E; [intros [[= -> _]|I]; [now right|left; exists w; now right]|].
    intros [[= -> ->]|I]; [left; exists w; now left|]. destruct (IH I) as [[v0 J]|J]; [left; exists v0; now right|now right]. }
  destruct (_ || _); [destruct (h_delegate deleg d m) as [d' r]; cbn [so fst snd] in I; destruct (is_ooo _)|]; cbn [so fst snd] in I; eauto.
Qed.
Lemma fold_flags ms s k : (exists v, In (k, v) (so (fold_left step ms s))) -> (exists v, In (k, v) (so s)) \/ exists m, In m ms /\ k = m_t m.
Proof.
  revert s. induction ms as [|m r IH]; intros s H; [now left|]. cbn in H. apply IH in H. destruct H as [H|[x [I E]]].
  - apply step_flags in H. destruct H as [H| ->]; [now left|right; exists m; split; [now left|reflexivity]].
  - right. exists x. split; [now right|exact E].
Qed.
Lemma step_grow s m k : (exists v, In (k, v) (so s)) -> exists v, In (k, v) (so (step s m)).
Proof.
  destruct s as [[d o] v]. cbn [so fst snd]. intros [w I]. unfold replay_step.
  assert (Q : exists v0, In (k, v0) (hb_insert (m_t m) true o)).
  { clear - I. induction o as [|[x y] r IH]; [contradiction|]. cbn. destruct (m_t m <? x); [exists w; right; exact I|].
    destruct (m_t m =? x) eqn:E.
    - destruct I as [[= -> ->]|I]; [exists true; left; f_equal; lia|exists w; now right].
    - destruct I as [[= -> ->]|I]; [exists w; now left|]. destruct (IH I) as [v0 J]. exists v0. now right. }
  destruct (_ || _); [destruct (h_delegate deleg d m) as [d' r]; cbn [so fst snd]; destruct (is_ooo _)|]; cbn [so fst snd]; eauto.
Qed.
Lemma fold_grow ms s k : (exists v, In (k, v) (so s)) -> exists v, In (k, v) (so (fold_left step ms s)).
Proof. revert s. induction ms as [|m r IH]; intros s H; [exact H|]. cbn. apply IH. now apply step_grow. Qed.
Lemma fold_so_sorted ms s : ssorted (so s) -> ssorted (so (fold_left step ms s)).
Proof. destruct s as [[d o] v]. intros S. destruct (fold_left step ms (d, o, v)) as [[d' o'] v'] eqn:E. exact (fold_flags_sorted deleg ms _ _ _ _ _ _ S E). Qed.
End RP.
