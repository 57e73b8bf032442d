(** What holds of all stored beliefs and is kept by the estimator is kept by the handler, whatever it is asked to do. *)
From Coq Require Import ZArith List Bool Arith Lia.
From Flocq Require Import IEEE754.BinarySingleNaN.
From Verif Require Import Outcome TimestampModel DoubleModel BufModel HorizonModel MeasModel HandlerModel Spec_Valid.
Import ListNotations.
Local Open Scope Z_scope.
Local Open Scope outcome_scope.

Section Vals.
Context {T : Type}.
Implicit Type l : buf T.
Lemma in_firstn {A} n (l : list A) x : In x (firstn n l) -> In x l.
Proof. revert n. induction l as [|a l IH]; intros [|n]; simpl; try tauto. intros [E|H]; [now left|right; eauto]. Qed.
Lemma in_skipn {A} n (l : list A) x : In x (skipn n l) -> In x l.
Proof. revert n. induction l as [|a l IH]; intros [|n]; simpl; try tauto. intros H. right. eauto. Qed.
Lemma in_hb_insert t v l e : In e (hb_insert t v l) -> e = (t, v) \/ In e l.
Proof.
  induction l as [|[k w] r IH]; cbn [hb_insert]; [intros [E|[]]; now left|].
  destruct (t <? k); [intros [E|H]; [now left|now right]|].
  destruct (t =? k); [intros [E|H]; [now left|right; now right]|].
  intros [E|H]; [right; now left|]. destruct (IH H); [now left|right; now right].
Qed.
Lemma in_mb_insert t v l e : In e (mb_insert t v l) -> e = (t, v) \/ In e l.
Proof.
  induction l as [|[k w] r IH]; cbn [mb_insert]; [intros [E|[]]; now left|].
  destruct (t <? k); [intros [E|H]; [now left|now right]|].
  intros [E|H]; [right; now left|]. destruct (IH H); [now left|right; now right].
Qed.
Lemma in_remove_at t l e : In e (remove_at_t t l) -> In e l.
Proof. unfold remove_at_t. intros H. now apply filter_In in H. Qed.
Lemma in_remove_after t l e : In e (remove_after_t t l) -> In e l.
Proof. unfold remove_after_t. destruct (negb _); [apply in_firstn|auto]. Qed.
Lemma in_remove_before t l e : In e (remove_before_t t l) -> In e l.
Proof. unfold remove_before_t. destruct (negb _); [apply in_skipn|auto]. Qed.
Lemma in_equal_range t l e : In e (equal_range t l) -> In e l.
Proof. unfold equal_range, segment. intros H. now apply in_firstn, in_skipn in H. Qed.
Lemma in_trim_from h t l l' e : trim_from h t l = Ok l' -> In e l' -> In e l.
Proof.
  unfold trim_from. destruct (from_sec _) as [o|x|x]; cbn [obind]; try discriminate.
  destruct (stamp_ns o) as [k|x|x]; cbn [obind]; try discriminate. intros [= <-]. apply in_remove_before.
Qed.
Lemma in_check_horizon h l l' e : check_horizon h l = Ok l' -> In e l' -> In e l.
Proof.
  unfold check_horizon. destruct (_ && _); [|intros [= <-]; auto].
  destruct (get_latest_t l); [apply in_trim_from|intros [= <-]; auto].
Qed.
Lemma in_check_restricted h n l l' e : check_horizon_restricted h n l = Ok l' -> In e l' -> In e l.
Proof.
  unfold check_horizon_restricted. destruct (_ && _); [|intros [= <-]; auto].
  destruct (get_latest_t l); [apply in_trim_from|intros [= <-]; auto].
Qed.
Lemma in_get_before t l k v : get_before_t t l = Some (k, v) -> In (k, v) l.
Proof.
  unfold get_before_t. intros H.
  repeat match type of H with context [match ?x with _ => _ end] => destruct x eqn:?; try discriminate end;
  repeat match goal with E : Some _ = Some _ |- _ => injection E as E; subst | E : nth_error _ _ = Some _ |- _ => apply nth_error_In in E end; subst; auto.
Qed.
Lemma fold_inv {A S} (I : S -> Prop) (f : S -> A -> S) (l : list A) s : (forall s x, In x l -> I s -> I (f s x)) -> I s -> I (fold_left f l s).
Proof. revert s. induction l as [|a l IH]; intros s H Is; cbn [fold_left]; auto. apply IH; [intros; apply H; [now right|assumption]|apply H; [now left|assumption]]. Qed.
Lemma in_get_between t1 t2 l e : In e (mb_get_between t1 t2 l) -> In e l.
Proof.
  unfold mb_get_between. destruct (_ && _); [|intros []].
  enough (H : forall e, In e (fold_left (fun h k => fold_left (fun h e => mb_insert (fst e) (snd e) h) (equal_range k l) h) (mb_stamps_between t1 t2 l) []) -> In e l) by apply H.
  apply (fold_inv (fun h => forall e, In e h -> In e l)); [|intros x []].
  intros h k _ Hh. apply (fold_inv (fun h => forall e, In e h -> In e l)); [|exact Hh].
  intros h' x Hx Hh' y Hy. apply in_mb_insert in Hy. destruct Hy as [->|Hy]; [|auto].
  destruct x. apply (in_equal_range k). exact Hx.
Qed.
Lemma between_inv {S} (I : S -> Prop) t1 t2 (op : S -> T -> S) s l : (forall s x, (exists k, In (k, x) l) -> I s -> I (op s x)) -> I s -> I (mb_foreach_between t1 t2 op s l).
Proof.
  intros H Is. unfold mb_foreach_between, mb_accumulate_between. destruct (_ && _); [|exact Is].
  apply fold_inv; [|exact Is]. intros s' k _ Is'. apply fold_inv; [|exact Is'].
  intros s2 [k2 x] Hx Is2. apply H; [|exact Is2]. exists k2. now apply (in_equal_range k).
Qed.
Lemma in_all_at t l x : In x (mb_get_all_at_t t l) -> exists k, In (k, x) l.
Proof.
  unfold mb_get_all_at_t. destruct (exist_at_t t l); [|intros []]. intros H. apply in_map_iff in H. destruct H as [[k y] [E H]].
  cbn in E. subst y. exists k. now apply (in_equal_range t).
Qed.
End Vals.

Section Keep.
Context {B M P : Type}.
Variable good : B -> Prop.
Variable okm : meas P -> Prop.
Variable deleg : dict B M -> meas P -> dict B M * status.
Notation good_dict := (good_dict (M := M) good).
Hypothesis kept : forall d m, okm m -> good_dict d -> good_dict (fst (deleg d m)).
Definition okmeas (l : buf (meas P)) : Prop := forall k m, In (k, m) l -> okm m.
Definition KInv (h : handler B M P) : Prop := good_dict (h_dict h) /\ okmeas (h_meas h).

Lemma kept_delegate d m : okm m -> good_dict d -> good_dict (fst (h_delegate deleg d m)).
Proof.
  intros O G. unfold h_delegate. destruct (d_find (m_id m) d) as [i|]; [|exact G].
  destruct (i_enabled i); [|exact G]. generalize (kept d m O G). now destruct (deleg d m).
Qed.
Lemma kept_step s m : okm m -> good_dict (fst (fst s)) -> good_dict (fst (fst (replay_step deleg s m))).
Proof.
  intros O. destruct s as [[d o] v]. cbn [fst]. intros G. unfold replay_step. destruct (empty o || _); [|exact G].
  generalize (kept_delegate d m O G). now destruct (h_delegate deleg d m).
Qed.
Lemma kept_remove_from t d : good_dict d -> good_dict (remove_beliefs_from t d).
Proof.
  intros G id i Hin. unfold remove_beliefs_from in Hin. apply in_map_iff in Hin. destruct Hin as [[k j] [[= <- <-] H]].
  cbn [snd fst]. destruct (hb_exist_before_t t (i_bel j)); [|exact (G _ _ H)].
  intros x b Hb. apply (G _ _ H x b). cbn [inst_remove_from i_bel] in Hb. now apply in_remove_at, in_remove_after in Hb.
Qed.
Lemma kept_remove_after t d : good_dict d -> good_dict (remove_beliefs_after t d).
Proof.
  intros G id i Hin. unfold remove_beliefs_after in Hin. apply in_map_iff in Hin. destruct Hin as [[k j] [[= <- <-] H]].
  cbn [snd fst]. destruct (exist_at_t t (i_bel j) || _); [|exact (G _ _ H)].
  intros x b Hb. apply (G _ _ H x b). cbn [inst_remove_after i_bel] in Hb. now apply in_remove_after in Hb.
Qed.
Lemma kept_redo_from t h : KInv h -> KInv (fst (redo_from deleg t h)).
Proof.
  intros [G O]. unfold redo_from. set (d0 := remove_beliefs_from t (h_dict h)).
  assert (G0 : good_dict d0) by now apply kept_remove_from.
  destruct (get_latest_t (h_meas h)) as [tl|]; [|split; [exact G0|exact O]].
  set (s := if t =? tl then _ else _).
  assert (Gs : good_dict (fst (fst s))).
  { subst s. destruct (t =? tl).
    - apply (fold_inv (fun s => good_dict (fst (fst s)))); [|exact G0]. intros s x Hx Gs. apply kept_step; [|exact Gs].
      apply in_all_at in Hx. destruct Hx as [k Hk]. exact (O _ _ Hk).
    - apply (between_inv (fun s => good_dict (fst (fst s)))); [|exact G0]. intros s x [k Hk] Gs. apply kept_step; [exact (O _ _ Hk)|exact Gs]. }
  destruct s as [[d' ooo] vec]. split; [exact Gs|exact O].
Qed.
Lemma kept_redo_after t h : KInv h -> KInv (fst (redo_after deleg t h)).
Proof.
  intros [G O]. unfold redo_after. set (d0 := remove_beliefs_after t (h_dict h)).
  assert (G0 : good_dict d0) by now apply kept_remove_after.
  destruct (get_after_t t (h_meas h)) as [[ta ma]|]; [|split; [exact G0|exact O]].
  destruct (get_latest_t (h_meas h)) as [tl|]; [|split; [exact G0|exact O]].
  set (s := if ta =? tl then _ else _).
  assert (Gs : good_dict (fst (fst s))).
  { subst s. destruct (ta =? tl).
    - apply (fold_inv (fun s => good_dict (fst (fst s)))); [|exact G0]. intros s x Hx Gs. apply kept_step; [|exact Gs].
      apply in_all_at in Hx. destruct Hx as [k Hk]. exact (O _ _ Hk).
    - apply (between_inv (fun s => good_dict (fst (fst s)))); [|exact G0]. intros s x [k Hk] Gs. apply kept_step; [exact (O _ _ Hk)|exact Gs]. }
  destruct s as [[d' ooo] vec]. split; [exact Gs|exact O].
Qed.
Lemma ok_insert m l : okm m -> okmeas l -> okmeas (mb_insert (m_t m) m l).
Proof. intros Om O k x Hx. apply in_mb_insert in Hx. destruct Hx as [[= _ ->]|Hx]; [exact Om|exact (O _ _ Hx)]. Qed.
Lemma ok_horizon h l l' : okmeas l -> check_horizon h l = Ok l' -> okmeas l'.
Proof. intros O E k x Hx. exact (O _ _ (in_check_horizon _ _ _ _ E Hx)). Qed.
Lemma ok_insert_type ty ms l : okmeas ms -> okmeas l -> okmeas (insert_type ty ms l).
Proof.
  intros Om O. unfold insert_type, foreach, accumulate.
  apply (fold_inv okmeas); [|exact O]. intros s [k x] Hx Os. cbn [snd]. destruct (obs_eqb _ _); [|exact Os]. apply ok_insert; [exact (Om _ _ Hx)|exact Os].
Qed.
Lemma ok_sort t l : okmeas l -> okmeas (sort_from t l).
Proof.
  intros O. unfold sort_from. destruct (get_latest_t l) as [tl|]; [|exact O]. destruct (negb _); [|exact O].
  assert (Om : okmeas (mb_get_between t tl l)) by (intros k x Hx; apply in_get_between in Hx; exact (O _ _ Hx)).
  repeat (apply ok_insert_type; [exact Om|]). intros k x Hx. apply in_remove_at, in_remove_after in Hx. exact (O _ _ Hx).
Qed.
Lemma kept_serve h h' : KInv h -> serve_requests deleg h = Ok h' -> KInv h'.
Proof.
  intros V. unfold serve_requests. destruct (check_horizon_from_t _ _ _) as [r|x|x]; cbn [obind]; try discriminate.
  destruct (get_oldest r) as [[to af]|]; [|intros [= <-]; exact V].
  assert (V1 : KInv (set_redo [] h)) by exact V.
  destruct (get_oldest_t (h_meas h)) as [tm|]; [|intros [= <-]; exact V1].
  destruct (tm <? to); [|intros [= <-]; exact V1]. intros [= <-]. destruct af; [now apply kept_redo_after|now apply kept_redo_from].
Qed.
Lemma kept_process viol disc m h h' rs : okm m -> KInv h -> process_gen deleg viol disc m h = Ok (h', rs) -> KInv h'.
Proof.
  intros Om V. unfold process_gen. destruct (negb (exists_id _ _)); [intros [= <- _]; exact V|].
  destruct (too_old m (h_meas h)); [intros [= <- _]; exact V|].
  destruct (serve_requests deleg h) as [h1|x|x] eqn:E1; cbn [obind]; try discriminate.
  assert (V1 := kept_serve _ _ V E1). destruct (disc m h1); [intros [= <- _]; exact V1|].
  destruct (check_horizon_from_t _ _ (h_ooo h1)) as [flags|x|x]; cbn [obind]; try discriminate.
  set (ex := _ || exist_at_t _ flags). destruct (viol m (h_meas h1) || ex).
  - destruct (check_horizon _ _) as [l|x|x] eqn:E2; cbn [obind]; try discriminate.
    set (ts := if ex then _ else _). set (h4 := set_meas (sort_from ts l) _). intros E.
    assert (V4 : KInv h4).
    { split; [exact (proj1 V1)|]. apply ok_sort. apply (ok_horizon _ _ _ (ok_insert _ _ Om (proj2 V1)) E2). }
    generalize (kept_redo_from ts h4 V4). destruct (redo_from deleg ts h4) as [h5 v5]. injection E as <- _. auto.
  - generalize (kept_delegate (h_dict (set_ooo flags h1)) m Om (proj1 V1)). destruct (h_delegate deleg _ m) as [d' r]. cbn [fst]. intros G'.
    destruct (negb (is_disc (r_status r))); [|intros [= <- _]; split; [exact G'|exact (proj2 V1)]].
    destruct (check_horizon _ _) as [l|x|x] eqn:E2; cbn [obind]; try discriminate. intros [= <- _]. split; [exact G'|].
    apply (ok_horizon _ _ _ (ok_insert _ _ Om (proj2 V1)) E2).
Qed.
Lemma kept_call o h h' : ok_call good okm o -> KInv h -> hstep deleg h o = Ok h' -> KInv h'.
Proof.
  intros Oo V. destruct o as [m|id i|id|x| | |m|t a|t]; cbn [hstep ok_call] in *.
  - unfold omap. destruct (process deleg m h) as [[h1 rs]|x|x] eqn:E; cbn; try discriminate. intros [= <-]. exact (kept_process _ _ _ _ _ _ Oo V E).
  - intros [= <-]. unfold add. destruct (exists_id id h); [exact V|]. split; [|exact (proj2 V)]. intros k j [[= <- <-]|H]; [exact Oo|exact (proj1 V _ _ H)].
  - intros [= <-]. unfold remove. destruct (get_inst id h); [|exact V]. split; [|exact (proj2 V)].
    intros k j H. apply filter_In in H. exact (proj1 V _ _ (proj1 H)).
  - intros [= <-]. exact V.
  - intros [= <-]. split; [exact (proj1 V)|intros k m []].
  - intros [= <-]. split; [|exact (proj2 V)]. intros k j H. apply in_map_iff in H. destruct H as [e [[= _ <-] _]]. intros x b [].
  - intros [= <-]. split; [exact (proj1 V)|]. apply ok_insert; [exact Oo|exact (proj2 V)].
  - unfold schedule_redo. destruct (check_horizon _ _) as [r|x|x]; cbn [obind]; try discriminate. intros [= <-]. exact V.
  - intros [= <-]. now apply kept_redo_after.
Qed.
Lemma kept_run ops h h' : (forall o, In o ops -> ok_call good okm o) -> KInv h -> hrun deleg h ops = Ok h' -> KInv h'.
Proof.
  revert h. induction ops as [|o r IH]; intros h Ho V; cbn [hrun]; [intros [= <-]; exact V|].
  destruct (hstep deleg h o) as [h1|x|x] eqn:E; cbn [obind]; try discriminate. intros E2.
  apply (IH h1); [intros; apply Ho; now right|exact (kept_call _ _ _ (Ho _ (or_introl eq_refl)) V E)|exact E2].
Qed.
End Keep.
