From Coq Require Import ZArith List Bool Arith Lia Sorted Permutation.
From Verif Require Import Outcome BufModel Spec_Buf.
Import ListNotations.
Local Open Scope Z_scope.

Section P.
Context {T : Type}.
Implicit Types (l : buf T) (t : Z).

Definition kle (a b : Z * T) : Prop := fst a <= fst b.
Definition klt (a b : Z * T) : Prop := fst a < fst b.
Definition wsorted l := StronglySorted kle l.
Definition ssorted l := StronglySorted klt l.

Lemma ssorted_w l : ssorted l -> wsorted l.
Proof.
  induction 1 as [|a r S IH F]; constructor; [exact IH|].
  eapply Forall_impl; [|exact F]. unfold klt, kle. intros b; lia.
Qed.

Lemma filter_all_true {A} (f : A -> bool) (l : list A) : Forall (fun x => f x = true) l -> filter f l = l.
Proof. induction 1 as [|x r H F IH]; simpl; [reflexivity|]. now rewrite H, IH. Qed.
Lemma filter_all_false {A} (f : A -> bool) (l : list A) : Forall (fun x => f x = false) l -> filter f l = [].
Proof. induction 1 as [|x r H F IH]; simpl; [reflexivity|]. now rewrite H, IH. Qed.

Lemma lower_bound_split t l : wsorted l ->
  firstn (lower_bound t l) l = filter (fun e => fst e <? t) l /\
  skipn (lower_bound t l) l = filter (fun e => t <=? fst e) l.
Proof.
  induction 1 as [|[k v] r S IH F]; [split; reflexivity|]. cbn [lower_bound filter fst].
  destruct (Z.ltb_spec k t) as [L|L]; destruct (Z.leb_spec t k) as [L'|L']; try lia.
  - cbn [firstn skipn]. destruct IH as [-> ->]. split; reflexivity.
  - cbn [firstn skipn]. rewrite filter_all_false, filter_all_true; [split; reflexivity| |];
      (eapply Forall_impl; [|exact F]); unfold kle; cbn [fst]; intros b Hb;
      [apply Z.leb_le | apply Z.ltb_ge]; lia.
Qed.

Lemma upper_bound_split t l : wsorted l ->
  firstn (upper_bound t l) l = filter (fun e => fst e <=? t) l /\
  skipn (upper_bound t l) l = filter (fun e => t <? fst e) l.
Proof.
  induction 1 as [|[k v] r S IH F]; [split; reflexivity|]. cbn [upper_bound filter fst].
  destruct (Z.ltb_spec t k) as [L|L]; destruct (Z.leb_spec k t) as [L'|L']; try lia.
  - cbn [firstn skipn]. rewrite filter_all_false, filter_all_true; [split; reflexivity| |];
      (eapply Forall_impl; [|exact F]); unfold kle; cbn [fst]; intros b Hb;
      [apply Z.ltb_lt | apply Z.leb_gt]; lia.
  - cbn [firstn skipn]. destruct IH as [-> ->]. split; reflexivity.
Qed.

Lemma lower_bound_le t l : (lower_bound t l <= length l)%nat.
Proof. induction l as [|[k v] r IH]; cbn; [lia|]. destruct (k <? t); lia. Qed.
Lemma upper_bound_le t l : (upper_bound t l <= length l)%nat.
Proof. induction l as [|[k v] r IH]; cbn; [lia|]. destruct (t <? k); lia. Qed.

Lemma lower_bound_length t l : wsorted l -> lower_bound t l = length (filter (fun e => fst e <? t) l).
Proof.
  intros S. destruct (lower_bound_split t l S) as [<- _]. rewrite firstn_length.
  pose proof (lower_bound_le t l). lia.
Qed.
Lemma upper_bound_length t l : wsorted l -> upper_bound t l = length (filter (fun e => fst e <=? t) l).
Proof.
  intros S. destruct (upper_bound_split t l S) as [<- _]. rewrite firstn_length.
  pose proof (upper_bound_le t l). lia.
Qed.

(** Searching from the first match, without sortedness. *)
Lemma lower_bound_end t l : lower_bound t l = length l <-> (forall e, In e l -> fst e < t) \/ False.
Proof.
  split.
  - intros H. left. revert H. induction l as [|[k v] r IH]; cbn; [tauto|].
    destruct (Z.ltb_spec k t) as [L|L]; [|discriminate].
    intros [= H] e [<-|I]; [exact L|now apply IH].
  - intros [H|[]]. induction l as [|[k v] r IH]; cbn; [reflexivity|].
    pose proof (H (k, v) (or_introl eq_refl)) as Hk. cbn in Hk.
    destruct (Z.ltb_spec k t); [|lia]. f_equal. apply IH. intros e I. apply H. now right.
Qed.
Lemma upper_bound_end t l : upper_bound t l = length l <-> (forall e, In e l -> fst e <= t).
Proof.
  split.
  - revert t. induction l as [|[k v] r IH]; cbn; [tauto|]. intros t.
    destruct (Z.ltb_spec t k) as [L|L]; [discriminate|].
    intros [= H] e [<-|I]; [exact L|now apply (IH t)].
  - intros H. induction l as [|[k v] r IH]; cbn; [reflexivity|].
    pose proof (H (k, v) (or_introl eq_refl)) as Hk. cbn in Hk.
    destruct (Z.ltb_spec t k); [lia|]. f_equal. apply IH. intros e I. apply H. now right.
Qed.

Lemma ws_inv a l : wsorted (a :: l) -> wsorted l /\ Forall (kle a) l.
Proof. intros H. apply StronglySorted_inv in H. exact H. Qed.
Lemma ss_inv a l : ssorted (a :: l) -> ssorted l /\ Forall (klt a) l.
Proof. intros H. apply StronglySorted_inv in H. exact H. Qed.

Lemma ws_app l1 l2 : wsorted (l1 ++ l2) <-> wsorted l1 /\ wsorted l2 /\ (forall a b, In a l1 -> In b l2 -> kle a b).
Proof.
  induction l1 as [|a r IH]; cbn.
  - split; [intros H; repeat split; [constructor|exact H|tauto]|tauto].
  - split.
    + intros H. apply ws_inv in H. destruct H as [H F]. apply IH in H. destruct H as [H1 [H2 H3]].
      rewrite Forall_app in F. destruct F as [F1 F2]. repeat split.
      * constructor; assumption.
      * exact H2.
      * intros x y [<-|I] J; [|now apply H3]. rewrite Forall_forall in F2. now apply F2.
    + intros [H1 [H2 H3]]. apply ws_inv in H1. destruct H1 as [H1 F]. constructor.
      * apply IH. repeat split; [exact H1|exact H2|]. intros x y I J. apply H3; [now right|exact J].
      * rewrite Forall_app. split; [exact F|]. rewrite Forall_forall. intros b J. apply H3; [now left|exact J].
Qed.

Lemma ssorted_filter f l : ssorted l -> ssorted (filter f l).
Proof.
  induction 1 as [|a r S IH F]; cbn; [constructor|]. destruct (f a); [|exact IH].
  constructor; [exact IH|]. rewrite Forall_forall in *. intros b I. apply filter_In in I. now apply F.
Qed.
Lemma wsorted_filter f l : wsorted l -> wsorted (filter f l).
Proof.
  induction 1 as [|a r S IH F]; cbn; [constructor|]. destruct (f a); [|exact IH].
  constructor; [exact IH|]. rewrite Forall_forall in *. intros b I. apply filter_In in I. now apply F.
Qed.

(** *** removal as filters *)
Lemma existsb_false_all (f : Z * T -> bool) l : existsb f l = false -> forall e, In e l -> f e = false.
Proof.
  intros H e I. destruct (f e) eqn:E; [|reflexivity].
  assert (existsb f l = true) by (apply existsb_exists; eauto). congruence.
Qed.

Lemma remove_before_filter t l : wsorted l ->
  remove_before_t t l = if existsb (fun e => t <=? fst e) l then filter (fun e => t <=? fst e) l else l.
Proof.
  intros S. unfold remove_before_t. destruct (lower_bound_split t l S) as [_ E].
  destruct (Nat.eqb_spec (lower_bound t l) (length l)) as [H|H]; cbn [negb].
  - apply lower_bound_end in H. destruct H as [H|[]].
    destruct (existsb _ l) eqn:X; [|reflexivity]. apply existsb_exists in X. destruct X as [e [I L]].
    apply H in I. apply Z.leb_le in L. lia.
  - destruct (existsb _ l) eqn:X; [exact E|]. exfalso. apply H. apply lower_bound_end. left.
    intros e I. pose proof (existsb_false_all _ _ X e I) as L. apply Z.leb_gt in L. exact L.
Qed.

Lemma remove_after_filter t l : wsorted l -> remove_after_t t l = filter (fun e => fst e <=? t) l.
Proof.
  intros S. unfold remove_after_t. destruct (upper_bound_split t l S) as [E _].
  destruct (Nat.eqb_spec (upper_bound t l) (length l)) as [H|H]; cbn [negb]; [|exact E].
  symmetry. apply filter_all_true. rewrite Forall_forall. intros e I. apply Z.leb_le.
  now apply (proj1 (upper_bound_end t l) H).
Qed.

Lemma segment_filter t1 t2 l : wsorted l -> segment t1 t2 l = elements_in t1 t2 l.
Proof.
  intros S. unfold segment, elements_in.
  destruct (lower_bound_split t1 l S) as [E1 E2]. rewrite E2.
  assert (S' : wsorted (filter (fun e => t1 <=? fst e) l)) by now apply wsorted_filter.
  destruct (upper_bound_split t2 _ S') as [F1 _].
  assert (L : upper_bound t2 (filter (fun e => t1 <=? fst e) l) =
              length (filter (fun e => (t1 <=? fst e) && (fst e <=? t2)) l)).
  { rewrite upper_bound_length by exact S'. f_equal.
    clear. induction l as [|[k v] r IH]; cbn; [reflexivity|]. destruct (t1 <=? k); cbn; [|exact IH].
    destruct (k <=? t2); cbn; [f_equal|]; exact IH. }
  assert (FF : filter (fun e => fst e <=? t2) (filter (fun e => t1 <=? fst e) l) =
               filter (fun e => (t1 <=? fst e) && (fst e <=? t2)) l).
  { clear. induction l as [|[k v] r IH]; cbn; [reflexivity|]. destruct (t1 <=? k); cbn; [|exact IH].
    destruct (k <=? t2); cbn; [f_equal|]; exact IH. }
  rewrite <- FF, <- F1.
  destruct (Z_le_gt_dec t1 t2) as [H|H].
  - f_equal. rewrite lower_bound_length, upper_bound_length by exact S. rewrite L.
    clear -H. induction l as [|[k v] r IH]; [reflexivity|].
    assert (G : (length (filter (fun e : Z * T => (fst e <? t1)%Z) r) <= length (filter (fun e : Z * T => (fst e <=? t2)%Z) r))%nat).
    { clear -H. induction r as [|[k v] r IH]; cbn [filter fst length]; [lia|].
      destruct (Z.leb_spec k t2), (Z.ltb_spec k t1); cbn [length]; lia. }
    cbn [filter fst].
    destruct (Z.leb_spec k t2), (Z.ltb_spec k t1), (Z.leb_spec t1 k); cbn [andb length]; lia.
  - (* empty interval *)
    assert (N : filter (fun e => (t1 <=? fst e) && (fst e <=? t2)) l = []).
    { apply filter_all_false. rewrite Forall_forall. intros e _. lia. }
    rewrite L, N. cbn [length firstn].
    replace (upper_bound t2 l - lower_bound t1 l)%nat with 0%nat; [reflexivity|].
    rewrite lower_bound_length, upper_bound_length by exact S.
    assert (G : (length (filter (fun e => (fst e <=? t2)%Z) l) <= length (filter (fun e => (fst e <? t1)%Z) l))%nat).
    { clear -H. induction l as [|[k v] r IH]; cbn; [lia|].
      destruct (Z.leb_spec k t2), (Z.ltb_spec k t1); cbn; lia. }
    lia.
Qed.

(** *** find *)
Lemma find_pos_end t l : find_pos t l = length l <-> (forall e, In e l -> fst e <> t).
Proof.
  split.
  - induction l as [|[k v] r IH]; cbn; [tauto|]. destruct (Z.eqb_spec k t) as [L|L]; [discriminate|].
    intros [= H] e [<-|I]; [exact L|now apply IH].
  - intros H. induction l as [|[k v] r IH]; cbn; [reflexivity|].
    pose proof (H (k, v) (or_introl eq_refl)) as Hk. cbn in Hk.
    destruct (Z.eqb_spec k t); [lia|]. f_equal. apply IH. intros e I. apply H. now right.
Qed.
Lemma find_pos_some t l : find_pos t l <> length l ->
  exists v, nth_error l (find_pos t l) = Some (t, v) /\ forall j, (j < find_pos t l)%nat ->
    forall e, nth_error l j = Some e -> fst e <> t.
Proof.
  induction l as [|[k v] r IH]; cbn; [congruence|]. destruct (Z.eqb_spec k t) as [->|L].
  - intros _. exists v. split; [reflexivity|]. lia.
  - intros H. destruct IH as [w [E N]]; [congruence|]. exists w. split; [exact E|].
    intros [|j] Hj e; cbn; [now intros [= <-]|]. intros Ee. apply (N j); [lia|exact Ee].
Qed.

Lemma get_at_first t l : get_at_t t l = option_map snd (List.find (fun e => fst e =? t) l).
Proof.
  unfold get_at_t.
  assert (G : forall l, (if negb (find_pos t l =? length l)%nat then option_map snd (nth_error l (find_pos t l)) else None)
              = option_map snd (List.find (fun e => fst e =? t) l)); [|apply G].
  clear l. induction l as [|[k v] r IH]; cbn [find_pos length List.find fst].
  - reflexivity.
  - destruct (Z.eqb_spec k t) as [->|L]; [reflexivity|].
    cbn [nth_error Nat.eqb]. exact IH.
Qed.

Lemma get_at_In t v l : get_at_t t l = Some v -> In (t, v) l.
Proof.
  rewrite get_at_first. destruct (List.find _ l) as [[k w]|] eqn:E; [|discriminate].
  cbn. intros [= ->]. apply find_some in E. destruct E as [I E]. cbn in E. apply Z.eqb_eq in E. now subst.
Qed.

Lemma get_at_none t l : get_at_t t l = None <-> (forall v, ~ In (t, v) l).
Proof.
  rewrite get_at_first. split.
  - destruct (List.find _ l) as [[k w]|] eqn:E; [discriminate|]. intros _ v I.
    apply (find_none _ _ E) in I. cbn in I. rewrite Z.eqb_refl in I. discriminate.
  - intros H. destruct (List.find _ l) as [[k w]|] eqn:E; [|reflexivity].
    apply find_some in E. destruct E as [I E]. cbn in E. apply Z.eqb_eq in E. subst. now apply H in I.
Qed.

Lemma get_at_iff t v l : ssorted l -> (get_at_t t l = Some v <-> In (t, v) l).
Proof.
  intros S. split; [apply get_at_In|]. intros I. rewrite get_at_first.
  induction S as [|[k w] r S IH F]; [destruct I|]. cbn [List.find fst].
  destruct (Z.eqb_spec k t) as [->|L].
  - destruct I as [[= ->]|I]; [reflexivity|]. rewrite Forall_forall in F. apply F in I. unfold klt in I. cbn in I. lia.
  - destruct I as [[= -> ->]|I]; [congruence|]. now apply IH.
Qed.

Lemma exist_at_iff t l : exist_at_t t l = true <-> exists v, In (t, v) l.
Proof.
  unfold exist_at_t. destruct l as [|a r]; [cbn; split; [discriminate|intros [v []]]|].
  cbn [negb empty]. set (l := a :: r). rewrite negb_true_iff, Nat.eqb_neq. split.
  - intros H. destruct (find_pos_some t l H) as [v [E _]]. exists v. eapply nth_error_In; exact E.
  - intros [v I] H. apply (proj1 (find_pos_end t l) H) in I. now cbn in I.
Qed.

Lemma exist_after_iff t l : exist_after_t t l = true <-> exists e, In e l /\ t < fst e.
Proof.
  unfold exist_after_t. destruct l as [|a r]; [cbn; split; [discriminate|intros [v [[] _]]]|].
  cbn [negb empty]. set (l := a :: r). rewrite negb_true_iff, Nat.eqb_neq. split.
  - intros H. destruct (existsb (fun e => t <? fst e) l) eqn:X.
    + apply existsb_exists in X. destruct X as [e [I L]]. apply Z.ltb_lt in L. eauto.
    + exfalso. apply H, upper_bound_end. intros e I. pose proof (existsb_false_all _ _ X e I) as L.
      apply Z.ltb_ge in L. exact L.
  - intros [e [I L]] H. apply (proj1 (upper_bound_end t l) H) in I. lia.
Qed.

(** *** neighbours *)
Lemma nth_error_skipn_hd {A} n (l : list A) : nth_error l n = hd_error (skipn n l).
Proof. revert l. induction n as [|n IH]; destruct l as [|a r]; cbn; try reflexivity. apply IH. Qed.

Lemma nth_error_firstn_last {A} n (l : list A) : (0 < n <= length l)%nat ->
  exists (l' : list A) a, firstn n l = l' ++ [a] /\ nth_error l (n - 1) = Some a.
Proof.
  intros H. destruct n as [|n]; [lia|]. replace (S n - 1)%nat with n by lia.
  destruct (nth_error l n) as [a|] eqn:E.
  - exists (firstn n l), a. split; [|reflexivity].
    clear H. revert l E. induction n as [|n IH]; destruct l as [|b r]; cbn; intros E; try discriminate.
    + now injection E as ->.
    + f_equal. apply IH. exact E.
  - apply nth_error_None in E. lia.
Qed.

Lemma get_after_hd t l : wsorted l -> get_after_t t l = hd_error (filter (fun e => t <? fst e) l).
Proof.
  intros S. unfold get_after_t. destruct (upper_bound_split t l S) as [_ <-].
  destruct (Nat.eqb_spec (upper_bound t l) (length l)) as [H|H]; cbn [negb].
  - rewrite H, skipn_all. reflexivity.
  - apply nth_error_skipn_hd.
Qed.

Lemma get_before_last t l : wsorted l ->
  match get_before_t t l with
  | Some e => exists p, filter (fun e => fst e <? t) l = p ++ [e]
  | None => filter (fun e => fst e <? t) l = []
  end.
Proof.
  intros S. unfold get_before_t. destruct (lower_bound_split t l S) as [E _].
  pose proof (lower_bound_le t l) as L. set (n := lower_bound t l) in *.
  assert (G : (0 < n)%nat -> match nth_error l (n - 1) with
     | Some e => exists p, filter (fun e => fst e <? t) l = p ++ [e] | None => filter (fun e => fst e <? t) l = [] end).
  { intros P. destruct (nth_error_firstn_last n l) as [l' [a [F N]]]; [lia|]. rewrite N. exists l'. congruence. }
  assert (Z0 : n = 0%nat -> filter (fun e => fst e <? t) l = []).
  { intros Z. rewrite Z in E. cbn in E. now symmetry. }
  destruct (Nat.eqb_spec n (length l)) as [H|H]; cbn [negb].
  - destruct (Nat.eqb_spec (length l) 0) as [H0|H0]; cbn [negb]; [apply Z0; lia|apply G; lia].
  - destruct (Nat.eqb_spec n 0) as [H0|H0]; cbn [negb]; [now apply Z0|apply G; lia].
Qed.

Lemma get_after_spec t l k v : wsorted l -> get_after_t t l = Some (k, v) ->
  In (k, v) l /\ t < k /\ (forall e, In e l -> t < fst e -> k <= fst e).
Proof.
  intros S. rewrite get_after_hd by exact S.
  destruct (filter _ l) as [|a r] eqn:E; cbn; [discriminate|]. intros [= ->].
  assert (I : In (k, v) (filter (fun e => t <? fst e) l)) by (rewrite E; now left).
  apply filter_In in I. destruct I as [I L]. apply Z.ltb_lt in L. cbn in L. split; [exact I|]. split; [exact L|].
  intros e J Le. assert (J' : In e (filter (fun e => t <? fst e) l)) by (apply filter_In; split; [exact J|apply Z.ltb_lt; lia]).
  rewrite E in J'. destruct J' as [<-|J']; [cbn; lia|].
  pose proof (wsorted_filter (fun e => t <? fst e) l S) as S'. rewrite E in S'. apply ws_inv in S'.
  destruct S' as [_ F]. rewrite Forall_forall in F. apply F in J'. exact J'.
Qed.

Lemma get_after_none t l : wsorted l -> (get_after_t t l = None <-> forall e, In e l -> fst e <= t).
Proof.
  intros S. rewrite get_after_hd by exact S. split.
  - destruct (filter _ l) as [|a r] eqn:E; cbn; [|discriminate]. intros _ e I.
    destruct (Z_le_gt_dec (fst e) t) as [H|H]; [exact H|].
    assert (J : In e (filter (fun e => t <? fst e) l)) by (apply filter_In; split; [exact I|apply Z.ltb_lt; lia]).
    rewrite E in J. destruct J.
  - intros H. rewrite filter_all_false; [reflexivity|]. rewrite Forall_forall. intros e I. apply Z.ltb_ge. now apply H.
Qed.

Lemma get_before_spec t l k v : wsorted l -> get_before_t t l = Some (k, v) ->
  In (k, v) l /\ k < t /\ (forall e, In e l -> fst e < t -> fst e <= k).
Proof.
  intros S H. pose proof (get_before_last t l S) as G. rewrite H in G. destruct G as [p E].
  assert (I : In (k, v) (filter (fun e => fst e <? t) l)) by (rewrite E; apply in_or_app; right; now left).
  apply filter_In in I. destruct I as [I L]. apply Z.ltb_lt in L. cbn in L. split; [exact I|]. split; [exact L|].
  intros e J Le. assert (J' : In e (filter (fun e => fst e <? t) l)) by (apply filter_In; split; [exact J|apply Z.ltb_lt; lia]).
  pose proof (wsorted_filter (fun e => fst e <? t) l S) as S'. rewrite E in S', J'. apply ws_app in S'.
  destruct S' as [_ [_ F]]. apply in_app_or in J'. destruct J' as [J'|[<-|[]]]; [|cbn; lia].
  exact (F e (k, v) J' (or_introl eq_refl)).
Qed.

Lemma get_before_none t l : wsorted l -> (get_before_t t l = None <-> forall e, In e l -> t <= fst e).
Proof.
  intros S. pose proof (get_before_last t l S) as G. split.
  - intros H. rewrite H in G. intros e I. destruct (Z_le_gt_dec t (fst e)) as [L|L]; [exact L|].
    assert (J : In e (filter (fun e => fst e <? t) l)) by (apply filter_In; split; [exact I|apply Z.ltb_lt; lia]).
    rewrite G in J. destruct J.
  - intros H. destruct (get_before_t t l) as [e|]; [|reflexivity]. destruct G as [p E].
    assert (J : In e (filter (fun e => fst e <? t) l)) by (rewrite E; apply in_or_app; right; now left).
    apply filter_In in J. destruct J as [J L]. apply H in J. apply Z.ltb_lt in L. lia.
Qed.

Lemma hb_exist_before_get t l : hb_exist_before_t t l = match get_before_t t l with Some _ => true | None => false end.
Proof.
  unfold hb_exist_before_t, get_before_t. destruct l as [|a r]; [reflexivity|]. cbn [empty negb].
  set (l := a :: r). pose proof (lower_bound_le t l) as L. set (n := lower_bound t l) in *.
  destruct (Nat.eqb_spec n (length l)) as [H|H]; cbn [negb].
  - destruct (Nat.eqb_spec (length l) 0) as [H0|H0]; cbn [negb]; [reflexivity|].
    destruct (nth_error l (n - 1)) eqn:E; [reflexivity|]. apply nth_error_None in E. lia.
  - destruct (Nat.eqb_spec n 0) as [H0|H0]; cbn [negb]; [reflexivity|].
    destruct (nth_error l (n - 1)) eqn:E; [reflexivity|]. apply nth_error_None in E. lia.
Qed.

Lemma get_oldest_hd l : get_oldest l = hd_error l.
Proof. destruct l; reflexivity. Qed.

Lemma get_latest_app l a : get_latest (l ++ [a]) = Some a.
Proof.
  unfold get_latest. replace (empty (l ++ [a])) with false by (destruct l; reflexivity). cbn [negb].
  rewrite app_length. cbn. replace (length l + 1 - 1)%nat with (length l + 0)%nat by lia.
  rewrite nth_error_app2 by lia. replace (length l + 0 - length l)%nat with 0%nat by lia. reflexivity.
Qed.

Lemma get_latest_nil : get_latest ([] : buf T) = None.
Proof. reflexivity. Qed.

Lemma get_oldest_spec l k v : wsorted l -> get_oldest l = Some (k, v) -> In (k, v) l /\ forall e, In e l -> k <= fst e.
Proof.
  intros S. rewrite get_oldest_hd. destruct l as [|a r]; cbn; [discriminate|]. intros [= ->].
  split; [now left|]. apply ws_inv in S. destruct S as [_ F]. rewrite Forall_forall in F.
  intros e [<-|I]; [cbn; lia|]. now apply F in I.
Qed.

Lemma get_latest_spec l k v : wsorted l -> get_latest l = Some (k, v) -> In (k, v) l /\ forall e, In e l -> fst e <= k.
Proof.
  intros S. destruct l as [|a r] using rev_ind; [discriminate|]. clear IHr. rewrite get_latest_app. intros [= ->].
  split; [apply in_or_app; right; now left|]. apply ws_app in S. destruct S as [_ [_ F]].
  intros e I. apply in_app_or in I. destruct I as [I|[<-|[]]]; [|cbn; lia].
  exact (F e (k, v) I (or_introl eq_refl)).
Qed.

Lemma get_oldest_none l : get_oldest l = None <-> l = [].
Proof. rewrite get_oldest_hd. destruct l; cbn; split; congruence. Qed.
Lemma get_latest_none l : get_latest l = None <-> l = [].
Proof.
  destruct l as [|a r] using rev_ind; [split; reflexivity|]. rewrite get_latest_app.
  split; [discriminate|]. intros H. apply app_eq_nil in H. destruct H; discriminate.
Qed.

(** *** hb_insert *)
Lemma hb_insert_In t v l e : ssorted l -> (In e (hb_insert t v l) <-> e = (t, v) \/ (In e l /\ fst e <> t)).
Proof.
  induction 1 as [|[k w] r S IH F]; cbn [hb_insert].
  - cbn. intuition.
  - rewrite Forall_forall in F. unfold klt in F. cbn [fst] in F.
    destruct (Z.ltb_spec t k) as [L|L].
    + cbn [In]. split.
      * intros [<-|[<-|I]]; [now left|right|right].
        -- split; [now left|cbn; lia].
        -- split; [now right|]. apply F in I. lia.
      * intros [->|[[<-|I] N]]; auto.
    + destruct (Z.eqb_spec t k) as [->|N].
      * cbn [In]. split.
        -- intros [<-|I]; [now left|]. right. split; [now right|]. apply F in I. lia.
        -- intros [->|[[<-|I] N]]; [now left|cbn in N; lia|now right].
      * cbn [In]. rewrite IH. split.
        -- intros [<-|[->|[I M]]]; [right; split; [now left|cbn; lia]|now left|right; auto].
        -- intros [->|[[<-|I] M]]; auto.
Qed.

Lemma hb_insert_ssorted t v l : ssorted l -> ssorted (hb_insert t v l).
Proof.
  induction 1 as [|[k w] r S IH F]; cbn [hb_insert]; [constructor; constructor|].
  destruct (Z.ltb_spec t k) as [L|L].
  - constructor; [constructor; assumption|]. constructor; [exact L|].
    rewrite Forall_forall in *. intros b I. apply F in I. unfold klt in *. cbn in *. lia.
  - destruct (Z.eqb_spec t k) as [->|N].
    + constructor; [exact S|]. exact F.
    + constructor; [exact IH|]. rewrite Forall_forall in *. intros b I.
      apply (hb_insert_In t v r b S) in I. unfold klt in *. cbn in *. destruct I as [->|[I _]]; [cbn; lia|now apply F in I].
Qed.

Lemma hb_step_ssorted l o : ssorted l -> ssorted (hb_step l o).
Proof.
  intros S. pose proof (ssorted_w l S) as W. destruct o; cbn [hb_step].
  - now apply hb_insert_ssorted.
  - unfold remove_at_t. now apply ssorted_filter.
  - rewrite remove_before_filter by exact W. destruct (existsb _ _); [now apply ssorted_filter|exact S].
  - rewrite remove_after_filter by exact W. now apply ssorted_filter.
  - constructor.
Qed.

Lemma hb_run_snoc (ops : list (hb_op T)) o : hb_run (ops ++ [o]) = hb_step (hb_run ops) o.
Proof. unfold hb_run. now rewrite fold_left_app. Qed.

Lemma hb_run_ssorted (ops : list (hb_op T)) : ssorted (hb_run ops).
Proof.
  induction ops as [|o ops IH] using rev_ind; [constructor|]. rewrite hb_run_snoc. now apply hb_step_ssorted.
Qed.

Lemma opt_ext {A} (x y : option A) : (forall v, x = Some v <-> y = Some v) -> x = y.
Proof.
  intros H. destruct x as [a|], y as [b|]; auto.
  - symmetry. now apply H.
  - symmetry. now apply H.
  - now apply H.
Qed.

Lemma hb_step_refines l o : ssorted l -> amap_step (fun x => get_at_t x l) o (fun x => get_at_t x (hb_step l o)).
Proof.
  intros S. pose proof (hb_step_ssorted l o S) as S'. pose proof (ssorted_w l S) as W. destruct o as [t v|t|t|t|].
  - apply AInsert. intros x. apply opt_ext. intros w. rewrite get_at_iff by exact S'. cbn [hb_step].
    rewrite hb_insert_In by exact S. destruct (Z.eq_dec x t) as [->|N].
    + split; [intros [[= ->]|[_ N]]; [reflexivity|cbn in N; lia]|intros [= ->]; now left].
    + rewrite get_at_iff by exact S. split; [intros [[= -> ->]|[I _]]; [lia|exact I]|intros I; right; auto].
  - apply ARemoveAt. intros x. apply opt_ext. intros w. rewrite get_at_iff by exact S'. cbn [hb_step]. unfold remove_at_t.
    rewrite filter_In. cbn [fst]. destruct (Z.eq_dec x t) as [->|N].
    + rewrite Z.eqb_refl. cbn. split; [intros [_ H]; discriminate|discriminate].
    + rewrite get_at_iff by exact S. destruct (Z.eqb_spec x t); [lia|]. cbn. tauto.
  - cbn [hb_step] in *. rewrite remove_before_filter in * by exact W.
    destruct (existsb (fun e => t <=? fst e) l) eqn:X.
    + apply ARemoveBefore.
      * apply existsb_exists in X. destruct X as [[y w] [I L]]. exists y, w. split; [now apply Z.leb_le in L|].
        now apply get_at_iff.
      * intros x. apply opt_ext. intros w. rewrite get_at_iff by exact S'. rewrite filter_In. cbn [fst].
        destruct (Z_lt_dec x t) as [L|L].
        -- split; [intros [_ H]; apply Z.leb_le in H; lia|discriminate].
        -- rewrite get_at_iff by exact S. split; [tauto|]. intros I. split; [exact I|apply Z.leb_le; lia].
    + apply ARemoveBeforeNone.
      * intros y L. apply get_at_none. intros v I. pose proof (existsb_false_all _ _ X _ I) as H. cbn in H.
        apply Z.leb_gt in H. lia.
      * intros x. reflexivity.
  - apply ARemoveAfter. intros x. apply opt_ext. intros w. rewrite get_at_iff by exact S'. cbn [hb_step].
    rewrite remove_after_filter by exact W. rewrite filter_In. cbn [fst].
    destruct (Z_lt_dec t x) as [L|L].
    + split; [intros [_ H]; apply Z.leb_le in H; lia|discriminate].
    + rewrite get_at_iff by exact S. split; [tauto|]. intros I. split; [exact I|apply Z.leb_le; lia].
  - apply AClear. intros x. reflexivity.
Qed.

Lemma hb_run_refines ops : amap_run ops (fun x => get_at_t x (@hb_run T ops)).
Proof.
  induction ops as [|o ops IH] using rev_ind.
  - apply ARunNil. reflexivity.
  - rewrite hb_run_snoc. eapply ARunStep; [exact IH|]. apply hb_step_refines. apply hb_run_ssorted.
Qed.

Lemma amap_step_det (m1 m2 : amap T) o m1' m2' : (forall x, m1 x = m2 x) ->
  amap_step m1 o m1' -> amap_step m2 o m2' -> forall x, m1' x = m2' x.
Proof.
  intros E H1 H2 x.
  destruct H1 as [t v m1' A|t m1' A|t m1' A|t m1' X A|t m1' X A|m1' A]; inversion H2; subst;
    try (match goal with B : forall x, m2' x = _ |- _ => rewrite A, B, ?E; reflexivity end).
  - destruct X as [y [v [L M]]]. rewrite E in M.
    match goal with B : forall y, t <= y -> m2 y = None |- _ => rewrite B in M by exact L; discriminate end.
  - match goal with B : exists y v, t <= y /\ m2 y = Some v |- _ => destruct B as [y [v [L M]]] end.
    rewrite <- E in M. rewrite X in M by exact L. discriminate.
Qed.

Lemma amap_run_inv (ops : list (hb_op T)) m : amap_run ops m ->
  (ops = [] /\ forall x, m x = None) \/
  exists ops' o m0, ops = ops' ++ [o] /\ amap_run ops' m0 /\ amap_step m0 o m.
Proof.
  intros H. inversion H; subst; [left; auto|right]. eauto 7.
Qed.

Lemma amap_run_unique (ops : list (hb_op T)) m1 m2 : amap_run ops m1 -> amap_run ops m2 -> forall x, m1 x = m2 x.
Proof.
  revert m1 m2. induction ops as [|o ops IH] using rev_ind; intros m1 m2 H1 H2 x.
  - apply amap_run_inv in H1, H2. destruct H1 as [[_ H1]|[? [? [? [E _]]]]]; [|destruct x0; discriminate].
    destruct H2 as [[_ H2]|[? [? [? [E _]]]]]; [|destruct x0; discriminate]. now rewrite H1, H2.
  - apply amap_run_inv in H1, H2.
    destruct H1 as [[E _]|[o1 [p1 [n1 [E1 [R1 S1]]]]]]; [destruct ops; discriminate|].
    destruct H2 as [[E _]|[o2 [p2 [n2 [E2 [R2 S2]]]]]]; [destruct ops; discriminate|].
    apply app_inj_tail in E1, E2. destruct E1 as [<- <-], E2 as [<- <-].
    exact (amap_step_det n1 n2 o m1 m2 (IH n1 n2 R1 R2) S1 S2 x).
Qed.

(** *** chronological enumeration *)
Lemma ssorted_chrono l : ssorted l -> strictly_chronological l.
Proof.
  induction 1 as [|a r S IH F]; intros i j x y H Hi Hj.
  - destruct i; discriminate.
  - destruct j as [|j]; [lia|]. cbn in Hj. destruct i as [|i]; cbn in Hi.
    + injection Hi as <-. apply nth_error_In in Hj. rewrite Forall_forall in F. now apply F.
    + apply (IH i j); [lia|exact Hi|exact Hj].
Qed.
Lemma wsorted_chrono l : wsorted l -> chronological l.
Proof.
  induction 1 as [|a r S IH F]; intros i j x y H Hi Hj.
  - destruct i; discriminate.
  - destruct j as [|j]; [lia|]. cbn in Hj. destruct i as [|i]; cbn in Hi.
    + injection Hi as <-. apply nth_error_In in Hj. rewrite Forall_forall in F. now apply F.
    + apply (IH i j); [lia|exact Hi|exact Hj].
Qed.
Lemma chrono_wsorted l : chronological l -> wsorted l.
Proof.
  induction l as [|a r IH]; intros H; constructor.
  - apply IH. intros i j x y L Hi Hj. apply (H (S i) (S j)); [lia|exact Hi|exact Hj].
  - rewrite Forall_forall. intros b I. apply In_nth_error in I. destruct I as [j Hj].
    apply (H 0%nat (S j) a b); [lia|reflexivity|exact Hj].
Qed.

Lemma at_idx_nth i l : at_idx i l = nth_error l i.
Proof.
  unfold at_idx, size. destruct (Nat.ltb_spec i (length l)); [reflexivity|]. symmetry. now apply nth_error_None.
Qed.

Lemma hb_index_spec t l i : ssorted l -> (hb_index_at_t t l = Some i <-> exists v, nth_error l i = Some (t, v)).
Proof.
  intros S. unfold hb_index_at_t. destruct l as [|a r]; [cbn; split; [discriminate|intros [v H]; destruct i; discriminate]|].
  cbn [empty negb]. set (l := a :: r) in *.
  assert (G : forall n, n = find_pos t l -> n <> length l -> (Some n = Some i <-> exists v, nth_error l i = Some (t, v))).
  { intros n -> N. destruct (find_pos_some t l N) as [v [E M]]. split.
    - intros [= <-]. eauto.
    - intros [w E']. f_equal. pose proof (ssorted_chrono l S) as C.
      destruct (Nat.lt_trichotomy (find_pos t l) i) as [H|[H|H]]; [|exact H|].
      + specialize (C _ _ _ _ H E E'). cbn in C. lia.
      + specialize (C _ _ _ _ H E' E). cbn in C. lia. }
  destruct (Nat.eqb_spec (find_pos t l) 0) as [H|H].
  - apply G; [now symmetry|]. cbn. lia.
  - destruct (Nat.eqb_spec (find_pos t l) (length l)) as [H1|H1]; cbn [negb].
    + split; [discriminate|]. intros [v E]. apply nth_error_In in E. apply (proj1 (find_pos_end t l) H1) in E. cbn in E. lia.
    + now apply G.
Qed.

(** *** subsampling *)
Lemma every_loop_spec km n l cnt : n <> 0%nat ->
  every_loop km n cnt l =
  map snd (filter (fun p : nat * (Z * T) => Bool.eqb (fst p mod n =? 0)%nat km) (combine (seq cnt (length l)) l)).
Proof.
  intros Hn. revert cnt. induction l as [|e r IH]; intros cnt; [reflexivity|].
  cbn [every_loop length seq combine filter fst]. rewrite IH.
  destruct (Bool.eqb _ _); reflexivity.
Qed.

(** *** multi buffer *)
Lemma mb_insert_split t v l : wsorted l ->
  mb_insert t v l = filter (fun e => fst e <=? t) l ++ (t, v) :: filter (fun e => t <? fst e) l.
Proof.
  induction 1 as [|[k w] r S IH F]; [reflexivity|]. cbn [mb_insert filter fst].
  destruct (Z.ltb_spec t k) as [L|L], (Z.leb_spec k t) as [L'|L']; try lia.
  - rewrite filter_all_false, filter_all_true; [reflexivity| |];
      (eapply Forall_impl; [|exact F]); unfold kle; cbn [fst]; intros b Hb; [apply Z.ltb_lt|apply Z.leb_gt]; lia.
  - cbn. now rewrite IH.
Qed.

Lemma mb_insert_wsorted t v l : wsorted l -> wsorted (mb_insert t v l).
Proof.
  intros S. rewrite mb_insert_split by exact S. apply ws_app. split; [now apply wsorted_filter|]. split.
  - constructor; [now apply wsorted_filter|]. rewrite Forall_forall. intros b I. apply filter_In in I.
    destruct I as [_ L]. apply Z.ltb_lt in L. unfold kle. cbn. lia.
  - intros a b I J. apply filter_In in I. destruct I as [_ L]. apply Z.leb_le in L. unfold kle.
    destruct J as [<-|J]; [cbn; lia|]. apply filter_In in J. destruct J as [_ M]. apply Z.ltb_lt in M. lia.
Qed.

Lemma mb_step_wsorted l o : wsorted l -> wsorted (mb_step l o).
Proof.
  intros W. destruct o; cbn [mb_step].
  - now apply mb_insert_wsorted.
  - unfold remove_at_t. now apply wsorted_filter.
  - rewrite remove_before_filter by exact W. destruct (existsb _ _); [now apply wsorted_filter|exact W].
  - rewrite remove_after_filter by exact W. now apply wsorted_filter.
  - constructor.
Qed.

Lemma mb_run_snoc (ops : list (mb_op T)) o : mb_run (ops ++ [o]) = mb_step (mb_run ops) o.
Proof. unfold mb_run. now rewrite fold_left_app. Qed.

Lemma mb_run_wsorted (ops : list (mb_op T)) : wsorted (mb_run ops).
Proof.
  induction ops as [|o ops IH] using rev_ind; [constructor|]. rewrite mb_run_snoc. now apply mb_step_wsorted.
Qed.

Lemma filter_app_at t v l1 l2 s : filter (fun e => fst e =? s) (l1 ++ (t, v) :: l2) =
  filter (fun e => fst e =? s) l1 ++ (if t =? s then [(t, v)] else []) ++ filter (fun e => fst e =? s) l2.
Proof. rewrite filter_app. cbn. destruct (t =? s); reflexivity. Qed.

Lemma filter_filter {A} (f g : A -> bool) (l : list A) : filter f (filter g l) = filter (fun x => g x && f x) l.
Proof. induction l as [|a r IH]; cbn; [reflexivity|]. destruct (g a); cbn; [|exact IH]. destruct (f a); [f_equal|]; exact IH. Qed.

Lemma filter_ext_in' {A} (f g : A -> bool) (l : list A) : (forall a, In a l -> f a = g a) -> filter f l = filter g l.
Proof. apply filter_ext_in. Qed.

(** what is stored at each instant after an insertion *)
Lemma mb_insert_at t v l s : wsorted l ->
  elements_at s (mb_insert t v l) = elements_at s l ++ (if t =? s then [(t, v)] else []).
Proof.
  intros S. rewrite mb_insert_split by exact S. unfold elements_at. rewrite filter_app_at, !filter_filter.
  destruct (Z.eqb_spec t s) as [->|N].
  - replace (filter (fun x => (s <? fst x) && (fst x =? s)) l) with (@nil (Z * T)).
    + rewrite app_nil_r. f_equal. apply filter_ext. intros e. destruct (Z.leb_spec (fst e) s), (Z.eqb_spec (fst e) s); lia.
    + symmetry. apply filter_all_false. rewrite Forall_forall. intros e _. lia.
  - cbn. rewrite app_nil_r.
    destruct (Z_lt_dec s t) as [L|L].
    + replace (filter (fun x => (t <? fst x) && (fst x =? s)) l) with (@nil (Z * T)).
      * rewrite app_nil_r. apply filter_ext. intros e. destruct (Z.leb_spec (fst e) t), (Z.eqb_spec (fst e) s); lia.
      * symmetry. apply filter_all_false. rewrite Forall_forall. intros e _. lia.
    + replace (filter (fun x => (fst x <=? t) && (fst x =? s)) l) with (@nil (Z * T)).
      * cbn. apply filter_ext. intros e. destruct (Z.ltb_spec t (fst e)), (Z.eqb_spec (fst e) s); lia.
      * symmetry. apply filter_all_false. rewrite Forall_forall. intros e _. lia.
Qed.

Lemma filter_split_perm (f g : Z * T -> bool) l : (forall e, g e = negb (f e)) ->
  Permutation l (filter f l ++ filter g l).
Proof.
  intros H. induction l as [|a r IH]; cbn; [constructor|]. rewrite H. destruct (f a); cbn.
  - constructor. exact IH.
  - apply Permutation_cons_app. exact IH.
Qed.

Lemma mb_insert_perm t v l : wsorted l -> Permutation ((t, v) :: l) (mb_insert t v l).
Proof.
  intros S. rewrite mb_insert_split by exact S. apply Permutation_cons_app. apply filter_split_perm.
  intros e. destruct (Z.leb_spec (fst e) t), (Z.ltb_spec t (fst e)); cbn; lia.
Qed.

Lemma mb_insert_remove_sub t v l : wsorted l -> exists l1 l2, l = l1 ++ l2 /\ mb_insert t v l = l1 ++ (t, v) :: l2.
Proof.
  intros S. exists (firstn (upper_bound t l) l), (skipn (upper_bound t l) l). split; [now rewrite firstn_skipn|].
  destruct (upper_bound_split t l S) as [-> ->]. now apply mb_insert_split.
Qed.

(** two chronological lists with the same elements at every instant are equal *)
Lemma wsorted_ext l1 l2 : wsorted l1 -> wsorted l2 -> (forall s, elements_at s l1 = elements_at s l2) -> l1 = l2.
Proof.
  intros S1 S2 E.
  assert (G : forall n l1 l2, (length l1 <= n)%nat -> wsorted l1 -> wsorted l2 ->
     (forall s, elements_at s l1 = elements_at s l2) -> l1 = l2).
  2:{ apply (G (length l1)); auto. }
  clear. induction n as [|n IH]; intros l1 l2 L S1 S2 E.
  - destruct l1; [|cbn in L; lia]. destruct l2 as [|[k v] r]; [reflexivity|].
    specialize (E k). cbn in E. rewrite Z.eqb_refl in E. discriminate.
  - destruct l1 as [|[k v] r].
    + destruct l2 as [|[k v] r]; [reflexivity|]. specialize (E k). cbn in E. rewrite Z.eqb_refl in E. discriminate.
    + destruct l2 as [|[k' v'] r'].
      { specialize (E k). cbn in E. rewrite Z.eqb_refl in E. discriminate. }
      apply ws_inv in S1, S2. destruct S1 as [S1 F1], S2 as [S2 F2].
      rewrite Forall_forall in F1, F2.
      assert (k = k').
      { pose proof (E k) as Ek. pose proof (E k') as Ek'. cbn in Ek, Ek'. rewrite Z.eqb_refl in Ek, Ek'.
        destruct (Z.eqb_spec k' k) as [H|H]; [congruence|]. destruct (Z.eqb_spec k k') as [H'|H']; [congruence|].
        assert (A : In (k, v) (filter (fun e => fst e =? k) r')) by (rewrite <- Ek; now left).
        assert (B : In (k', v') (filter (fun e => fst e =? k') r)) by (rewrite Ek'; now left).
        apply filter_In in A, B. destruct A as [A _], B as [B _]. apply F2 in A. apply F1 in B. unfold kle in *. cbn in *. lia. }
      subst k'. pose proof (E k) as Ek. cbn in Ek. rewrite Z.eqb_refl in Ek. injection Ek as -> Ek.
      f_equal. apply IH; [cbn in L; lia|exact S1|exact S2|].
      intros s. specialize (E s). cbn in E. destruct (k =? s); [now injection E|exact E].
Qed.

Lemma elements_at_in t1 t2 s l : elements_at s (elements_in t1 t2 l) =
  if (t1 <=? s) && (s <=? t2) then elements_at s l else [].
Proof.
  unfold elements_at, elements_in. rewrite filter_filter.
  destruct ((t1 <=? s) && (s <=? t2)) eqn:E.
  - apply filter_ext. intros e. destruct (Z.eqb_spec (fst e) s) as [->|N]; [now rewrite E|now rewrite andb_false_r].
  - apply filter_all_false. rewrite Forall_forall. intros e _. destruct (Z.eqb_spec (fst e) s) as [->|N]; [now rewrite E|now rewrite andb_false_r].
Qed.

Lemma set_insert_In k x s : In x (set_insert k s) <-> x = k \/ In x s.
Proof.
  induction s as [|y r IH]; cbn; [intuition|]. destruct (Z.ltb_spec k y); cbn; [intuition|].
  destruct (Z.eqb_spec k y) as [->|N]; cbn; [intuition|]. rewrite IH. intuition.
Qed.
Lemma set_insert_sorted k s : StronglySorted Z.lt s -> StronglySorted Z.lt (set_insert k s).
Proof.
  induction 1 as [|y r S IH F]; cbn; [constructor; constructor|]. rewrite Forall_forall in F.
  destruct (Z.ltb_spec k y) as [L|L].
  - constructor; [constructor; [exact S|now rewrite Forall_forall]|]. rewrite Forall_forall. intros x [<-|I]; [exact L|].
    apply F in I. lia.
  - destruct (Z.eqb_spec k y) as [->|N].
    + constructor; [exact S|now rewrite Forall_forall].
    + constructor; [exact IH|]. rewrite Forall_forall. intros x I. apply set_insert_In in I. destruct I as [->|I]; [lia|now apply F].
Qed.
Lemma stamps_fold (seg : buf T) s0 : StronglySorted Z.lt s0 ->
  let s := fold_left (fun s e => set_insert (fst e) s) seg s0 in
  StronglySorted Z.lt s /\ forall x, In x s <-> In x s0 \/ exists v, In (x, v) seg.
Proof.
  revert s0. induction seg as [|[k v] r IH]; intros s0 S; cbn.
  - split; [exact S|]. intros x. split; [tauto|intros [H|[v []]]; exact H].
  - destruct (IH (set_insert k s0)) as [A B]; [now apply set_insert_sorted|]. split; [exact A|].
    intros x. rewrite B, set_insert_In. split.
    + intros [[->|H]|[w H]]; [right; exists v; now left|now left|right; exists w; now right].
    + intros [H|[w [[= <- <-]|H]]]; [left; now right|left; now left|right; eauto].
Qed.

Lemma concat_stamps (seg : buf T) ss : wsorted seg -> StronglySorted Z.lt ss -> (forall x, In x ss <-> exists v, In (x, v) seg) ->
  concat (map (fun k => elements_at k seg) ss) = seg.
Proof.
  intros W S H.
  assert (E : forall s, elements_at s (concat (map (fun k => elements_at k seg) ss)) =
                        if existsb (Z.eqb s) ss then elements_at s seg else []).
  { intros s. clear H. induction S as [|x r S IH F]; [reflexivity|]. cbn [map concat existsb].
    unfold elements_at in *. rewrite filter_app, filter_filter, IH. rewrite Forall_forall in F.
    destruct (Z.eqb_spec s x) as [->|N]; cbn [orb].
    - replace (existsb (Z.eqb x) r) with false.
      + rewrite app_nil_r. apply filter_ext. intros e. now rewrite andb_diag.
      + symmetry. apply not_true_iff_false. rewrite existsb_exists. intros [y [I L]]. apply F in I. apply Z.eqb_eq in L. lia.
    - rewrite filter_all_false; [reflexivity|]. rewrite Forall_forall. intros e _. lia. }
  apply wsorted_ext; [|exact W|].
  - clear E H. induction S as [|x r S IH F]; cbn; [constructor|]. apply ws_app. split; [now apply wsorted_filter|].
    split; [exact IH|]. intros a b I J. unfold elements_at in I. apply filter_In in I. destruct I as [_ I]. apply Z.eqb_eq in I.
    apply in_concat in J. destruct J as [q [J1 J2]]. apply in_map_iff in J1. destruct J1 as [y [<- J1]].
    unfold elements_at in J2. apply filter_In in J2. destruct J2 as [_ J2]. apply Z.eqb_eq in J2.
    rewrite Forall_forall in F. apply F in J1. unfold kle. lia.
  - intros s. rewrite E. destruct (existsb (Z.eqb s) ss) eqn:X; [reflexivity|].
    symmetry. unfold elements_at. apply filter_all_false. rewrite Forall_forall. intros [k v] I.
    cbn. apply Z.eqb_neq. intros ->. assert (J : In s ss) by (apply H; eauto).
    assert (existsb (Z.eqb s) ss = true) by (apply existsb_exists; exists s; split; [exact J|apply Z.eqb_refl]). congruence.
Qed.

Lemma elements_at_sub t1 t2 k l : t1 <= k <= t2 -> elements_at k (elements_in t1 t2 l) = elements_at k l.
Proof. intros H. rewrite elements_at_in. replace ((t1 <=? k) && (k <=? t2)) with true by (symmetry; lia). reflexivity. Qed.

Lemma equal_range_eq k l : wsorted l -> equal_range k l = elements_at k l.
Proof.
  intros S. unfold equal_range. rewrite segment_filter by exact S. unfold elements_in, elements_at.
  apply filter_ext. intros e. destruct (Z.leb_spec k (fst e)), (Z.leb_spec (fst e) k), (Z.eqb_spec (fst e) k); cbn; lia.
Qed.

Lemma stamps_between_spec t1 t2 l : wsorted l -> t1 <= t2 -> l <> [] ->
  StronglySorted Z.lt (mb_stamps_between t1 t2 l) /\
  (forall x, In x (mb_stamps_between t1 t2 l) <-> exists v, In (x, v) (elements_in t1 t2 l)).
Proof.
  intros S H N. unfold mb_stamps_between.
  replace (t1 <=? t2) with true by (symmetry; lia). replace (length l =? 0)%nat with false by (symmetry; apply Nat.eqb_neq; destruct l; [congruence|discriminate]).
  cbn [andb negb]. rewrite segment_filter by exact S.
  destruct (stamps_fold (elements_in t1 t2 l) []) as [A B]; [constructor|]. split; [exact A|].
  intros x. rewrite B. cbn. tauto.
Qed.

Lemma fold_left_concat {A B C} (f : A -> B -> A) (g : C -> list B) (cs : list C) a :
  fold_left (fun a c => fold_left f (g c) a) cs a = fold_left f (concat (map g cs)) a.
Proof. revert a. induction cs as [|c r IH]; intros a; cbn; [reflexivity|]. now rewrite fold_left_app, IH. Qed.

Lemma stamps_concat t1 t2 l : wsorted l -> t1 <= t2 -> l <> [] ->
  concat (map (fun k => equal_range k l) (mb_stamps_between t1 t2 l)) = elements_in t1 t2 l.
Proof.
  intros S H N. destruct (stamps_between_spec t1 t2 l S H N) as [A B].
  rewrite <- (concat_stamps (elements_in t1 t2 l) (mb_stamps_between t1 t2 l)).
  - f_equal. apply map_ext_in. intros k I. apply B in I. destruct I as [v I]. unfold elements_in in I. apply filter_In in I.
    rewrite equal_range_eq by exact S. symmetry. apply elements_at_sub. cbn in I. lia.
  - now apply wsorted_filter.
  - exact A.
  - exact B.
Qed.

Lemma mb_accumulate_between_spec {A} t1 t2 (op : A -> T -> A) init l : wsorted l ->
  mb_accumulate_between t1 t2 op init l = fold_left op (map snd (elements_in t1 t2 l)) init.
Proof.
  intros S. unfold mb_accumulate_between.
  assert (FM : forall (q : list (Z * T)) a, fold_left (fun a e => op a (snd e)) q a = fold_left op (map snd q) a).
  { induction q as [|e q IH]; intros a; cbn; [reflexivity|apply IH]. }
  destruct (Z.leb_spec t1 t2) as [H|H]; cbn [andb].
  - destruct l as [|e r]; [reflexivity|]. cbn [length Nat.eqb negb].
    rewrite (fold_left_concat (fun a e => op a (snd e)) (fun k => equal_range k (e :: r))).
    rewrite stamps_concat; [apply FM|exact S|exact H|discriminate].
  - unfold elements_in. rewrite filter_all_false; [reflexivity|]. rewrite Forall_forall. intros e _. lia.
Qed.

Lemma mb_insert_app_last h t v : wsorted h -> (forall e, In e h -> fst e <= t) -> mb_insert t v h = h ++ [(t, v)].
Proof.
  intros S H. rewrite mb_insert_split by exact S. rewrite filter_all_true, filter_all_false; [reflexivity| |];
    rewrite Forall_forall; intros e I; apply H in I; [apply Z.ltb_ge|apply Z.leb_le]; lia.
Qed.

Lemma fold_insert_sorted (q h : buf T) : wsorted (h ++ q) ->
  fold_left (fun h e => mb_insert (fst e) (snd e) h) q h = h ++ q.
Proof.
  revert h. induction q as [|[k v] q IH]; intros h S; [now rewrite app_nil_r|]. cbn [fold_left fst snd].
  apply ws_app in S as S0. destruct S0 as [Sh [Sq F]].
  rewrite mb_insert_app_last; [|exact Sh|].
  - rewrite IH; rewrite <- app_assoc; [reflexivity|exact S].
  - intros e I. exact (F e (k, v) I (or_introl eq_refl)).
Qed.

Lemma mb_get_between_spec t1 t2 l : wsorted l -> mb_get_between t1 t2 l = elements_in t1 t2 l.
Proof.
  intros S. unfold mb_get_between. destruct (Z.leb_spec t1 t2) as [H|H]; cbn [andb].
  - destruct l as [|e r]; [reflexivity|]. cbn [length Nat.eqb negb].
    rewrite (fold_left_concat (fun h e => mb_insert (fst e) (snd e) h) (fun k => equal_range k (e :: r))).
    rewrite stamps_concat; [|exact S|exact H|discriminate]. rewrite fold_insert_sorted; [reflexivity|].
    cbn [app]. now apply wsorted_filter.
  - unfold elements_in. rewrite filter_all_false; [reflexivity|]. rewrite Forall_forall. intros e _. lia.
Qed.

Lemma mb_get_all_spec t l : wsorted l -> mb_get_all_at_t t l = map snd (elements_at t l).
Proof.
  intros S. unfold mb_get_all_at_t. destruct (exist_at_t t l) eqn:E.
  - now rewrite equal_range_eq.
  - unfold elements_at. rewrite filter_all_false; [reflexivity|]. rewrite Forall_forall. intros [k v] I. cbn.
    apply Z.eqb_neq. intros ->. assert (exist_at_t t l = true) by (apply exist_at_iff; eauto). congruence.
Qed.

Lemma hb_between_specs t1 t2 l : wsorted l ->
  (t1 < t2 -> hb_get_between t1 t2 l = elements_in t1 t2 l) /\
  (t2 <= t1 -> hb_get_between t1 t2 l = []) /\
  (forall A (op : A -> T -> A) init, hb_accumulate_between t1 t2 op init l = fold_left op (map snd (elements_in t1 t2 l)) init).
Proof.
  intros S. unfold hb_get_between, hb_accumulate_between. rewrite segment_filter by exact S. repeat split.
  - intros H. replace (t1 <? t2) with true by (symmetry; lia). destruct l; reflexivity.
  - intros H. replace (t1 <? t2) with false by (symmetry; lia). reflexivity.
  - intros A op init.
    assert (FM : forall (q : list (Z * T)) a, fold_left (fun a e => op a (snd e)) q a = fold_left op (map snd q) a).
    { induction q as [|e q IH]; intros a; cbn; [reflexivity|apply IH]. }
    destruct (Z.leb_spec t1 t2) as [H|H]; cbn [andb].
    + destruct l as [|e r]; [reflexivity|]. cbn [length Nat.eqb negb]. apply FM.
    + unfold elements_in. rewrite filter_all_false; [reflexivity|]. rewrite Forall_forall. intros e _. lia.
Qed.

(** exist_before_t of the multi buffer *)
Lemma mb_exist_before_exact t l : wsorted l ->
  mb_exist_before_t t l = true <->
  (exists e, In e l /\ t <= fst e) /\ ((exists e, In e l /\ fst e < t) \/ (forall v, ~ In (t, v) l)).
Proof.
  intros S. unfold mb_exist_before_t. destruct l as [|a r].
  { cbn. split; [discriminate|intros [[e [[] _]] _]]. }
  cbn [empty negb]. set (l := a :: r) in *.
  destruct (lower_bound_split t l S) as [E1 E2].
  rewrite nth_error_skipn_hd, E2.
  destruct (filter (fun e => t <=? fst e) l) as [|[k v] q] eqn:E; cbn [hd_error].
  - split; [discriminate|]. intros [[e [I L]] _]. assert (J : In e (filter (fun e => t <=? fst e) l)) by (apply filter_In; split; [exact I|now apply Z.leb_le]).
    rewrite E in J. destruct J.
  - assert (I : In (k, v) (filter (fun e => t <=? fst e) l)) by (rewrite E; now left).
    apply filter_In in I. destruct I as [I L]. apply Z.leb_le in L. cbn in L.
    assert (M : forall e, In e l -> t <= fst e -> k <= fst e).
    { intros e J Le. assert (J' : In e (filter (fun e => t <=? fst e) l)) by (apply filter_In; split; [exact J|now apply Z.leb_le]).
      rewrite E in J'. destruct J' as [<-|J']; [cbn; lia|].
      pose proof (wsorted_filter (fun e => t <=? fst e) l S) as S'. rewrite E in S'. apply ws_inv in S'.
      destruct S' as [_ F]. rewrite Forall_forall in F. now apply F in J'. }
    assert (B : lower_bound t l = 0%nat <-> ~ exists e, In e l /\ fst e < t).
    { rewrite lower_bound_length by exact S. split.
      - intros H [e [J Le]]. assert (J' : In e (filter (fun e => fst e <? t) l)) by (apply filter_In; split; [exact J|now apply Z.ltb_lt]).
        destruct (filter _ l); [destruct J'|discriminate].
      - intros H. rewrite filter_all_false; [reflexivity|]. rewrite Forall_forall. intros e J. apply Z.ltb_ge.
        destruct (Z_le_gt_dec t (fst e)); [assumption|]. exfalso. apply H. exists e. split; [exact J|lia]. }
    destruct (Z.eqb_spec k t) as [->|N].
    + rewrite negb_true_iff, Nat.eqb_neq. split.
      * intros H. split; [exists (t, v); split; [exact I|cbn; lia]|]. left.
        destruct (existsb (fun e => fst e <? t) l) eqn:X.
        -- apply existsb_exists in X. destruct X as [e [J Le]]. apply Z.ltb_lt in Le. eauto.
        -- exfalso. apply H, B. intros [e [J Le]]. pose proof (existsb_false_all _ _ X e J) as Q. apply Z.ltb_ge in Q. lia.
      * intros [_ [H|H]]; [|now apply H in I]. intros Q. apply B in Q. contradiction.
    + split; [|reflexivity]. intros _. split; [exists (k, v); split; [exact I|cbn; lia]|]. right.
      intros w J. apply M in J; cbn in *; lia.
Qed.
End P.
