(** C45, factors: what a replay keeps of the cross-covariance factors. *)
From Coq Require Import ZArith List Bool Arith Lia Sorted.
From Verif Require Import BufModel Spec_Buf BufProofs MeasModel HandlerModel Spec_Handler HandlerProofs Props_Handler.
Import ListNotations.
Local Open Scope Z_scope.

(** buffer [b'] has of [b] exactly the entries whose time satisfies [keep] *)
Definition keeps {T} (keep : Z -> Prop) (b b' : buf T) : Prop := forall k v, In (k, v) b' <-> In (k, v) b /\ keep k.
(** what replaying from t leaves of every instance: if it has a belief before t, beliefs and factors before t, else everything *)
Theorem C45_factors_from :
  forall (B M : Type) (t : Z) (d : dict B M) id i, In (id, i) d -> strictly_chronological (i_bel i) -> (forall j b, In (j, b) (i_ccf i) -> strictly_chronological b) ->
  exists i', In (id, i') (remove_beliefs_from t d) /\ i_enabled i' = i_enabled i /\
    let keep k := (exists k0 v0, In (k0, v0) (i_bel i) /\ k0 < t) -> k < t in
    keeps keep (i_bel i) (i_bel i') /\ Forall2 (fun e e' => fst e' = fst e /\ keeps keep (snd e) (snd e')) (i_ccf i) (i_ccf i').
Proof.
  intros B M t d id i I Ch Cf. pose proof (sc_w _ Ch) as W.
  exists (if hb_exist_before_t t (i_bel i) then inst_remove_from t i else i). split.
  { unfold remove_beliefs_from. apply in_map_iff. exists (id, i). split; [reflexivity|exact I]. }
  pose proof (before_iff t (i_bel i) W) as X. destruct (hb_exist_before_t t (i_bel i)).
  - assert (Q : exists k v, In (k, v) (i_bel i) /\ k < t) by now apply X.
    assert (R : forall T (b : buf T), wsorted b -> keeps (fun k => (exists k0 v0, In (k0, v0) (i_bel i) /\ k0 < t) -> k < t) b (remove_at_t t (remove_after_t t b))).
    { intros T b Wb k v. rewrite remove_from_filter by exact Wb. rewrite filter_In. cbn. rewrite Z.ltb_lt. tauto. }
    split; [reflexivity|]. split; [now apply R|]. cbn [inst_remove_from i_ccf]. clear - R Cf. induction (i_ccf i) as [|[j b] l IH]; constructor.
    + split; [reflexivity|]. apply R, sc_w. apply (Cf j). now left.
    + apply IH. intros j' b' H. apply (Cf j'). now right.
  - split; [reflexivity|]. assert (R : forall T (b : buf T), keeps (fun k => (exists k0 v0, In (k0, v0) (i_bel i) /\ k0 < t) -> k < t) b b).
    { intros T b k v. split; [|tauto]. intros H. split; [exact H|]. intros E. apply X in E. discriminate. }
    split; [apply R|]. clear Cf. induction (i_ccf i) as [|e l IH]; constructor; [split; [reflexivity|apply R]|exact IH].
Qed.
(** replaying after t: at or before t, if there is a belief at or before t *)
Theorem C45_factors_after :
  forall (B M : Type) (t : Z) (d : dict B M) id i, In (id, i) d -> strictly_chronological (i_bel i) -> (forall j b, In (j, b) (i_ccf i) -> strictly_chronological b) ->
  exists i', In (id, i') (remove_beliefs_after t d) /\ i_enabled i' = i_enabled i /\
    let keep k := (exists k0 v0, In (k0, v0) (i_bel i) /\ k0 <= t) -> k <= t in
    keeps keep (i_bel i) (i_bel i') /\ Forall2 (fun e e' => fst e' = fst e /\ keeps keep (snd e) (snd e')) (i_ccf i) (i_ccf i').
Proof.
  intros B M t d id i I Ch Cf. pose proof (sc_w _ Ch) as W.
  exists (if exist_at_t t (i_bel i) || hb_exist_before_t t (i_bel i) then inst_remove_after t i else i). split.
  { unfold remove_beliefs_after. apply in_map_iff. exists (id, i). split; [reflexivity|exact I]. }
  pose proof (before_iff t (i_bel i) W) as X0.
  assert (X : exist_at_t t (i_bel i) || hb_exist_before_t t (i_bel i) = true <-> exists k v, In (k, v) (i_bel i) /\ k <= t).
  { rewrite orb_true_iff, exist_at_iff, X0. split.
    - intros [[v J]|[k [v [J L]]]]; [exists t, v; split; [exact J|lia]|exists k, v; split; [exact J|lia]].
    - intros [k [v [J L]]]. destruct (Z.eq_dec k t) as [->|N]; [left; exists v; exact J|right; exists k, v; split; [exact J|lia]]. }
  destruct (exist_at_t t (i_bel i) || hb_exist_before_t t (i_bel i)).
  - assert (Q : exists k v, In (k, v) (i_bel i) /\ k <= t) by now apply X.
    assert (R : forall T (b : buf T), wsorted b -> keeps (fun k => (exists k0 v0, In (k0, v0) (i_bel i) /\ k0 <= t) -> k <= t) b (remove_after_t t b)).
    { intros T b Wb k v. rewrite remove_after_filter by exact Wb. rewrite filter_In. cbn. rewrite Z.leb_le. tauto. }
    split; [reflexivity|]. split; [now apply R|]. cbn [inst_remove_after i_ccf]. clear - R Cf. induction (i_ccf i) as [|[j b] l IH]; constructor.
    + split; [reflexivity|]. apply R, sc_w. apply (Cf j). now left.
    + apply IH. intros j' b' H. apply (Cf j'). now right.
  - split; [reflexivity|]. assert (R : forall T (b : buf T), keeps (fun k => (exists k0 v0, In (k0, v0) (i_bel i) /\ k0 <= t) -> k <= t) b b).
    { intros T b k v. split; [|tauto]. intros H. split; [exact H|]. intros E. apply X in E. discriminate. }
    split; [apply R|]. clear Cf. induction (i_ccf i) as [|e l IH]; constructor; [split; [reflexivity|apply R]|exact IH].
Qed.
(** no instance appears that was not there *)
Theorem C45_ids : forall (B M : Type) (t : Z) (d : dict B M),
  map fst (remove_beliefs_from t d) = map fst d /\ map fst (remove_beliefs_after t d) = map fst d.
Proof. intros. unfold remove_beliefs_from, remove_beliefs_after. rewrite !map_map. split; reflexivity. Qed.
(** factors at and after 3, and only older beliefs; and an instance whose oldest belief is at 3: everything stays *)
Example C45_factors_example :
  let i : inst Z Z := Inst true [(1, 10); (3, 30)] [(7%nat, [(1, 1); (3, 3); (4, 4)])] in
  let j : inst Z Z := Inst true [(3, 10)] [(7%nat, [(2, 1); (3, 3); (4, 4)])] in
  strictly_chronological (i_bel i) /\ (forall a b, In (a, b) (i_ccf i) -> strictly_chronological b) /\
  remove_beliefs_from 3 [(0%nat, i); (1%nat, j)] = [(0%nat, Inst true [(1, 10)] [(7%nat, [(1, 1)])]); (1%nat, j)] /\
  remove_beliefs_after 3 [(0%nat, i); (1%nat, j)] = [(0%nat, Inst true [(1, 10); (3, 30)] [(7%nat, [(1, 1); (3, 3)])]); (1%nat, Inst true [(3, 10)] [(7%nat, [(2, 1); (3, 3)])])].
Proof.
  assert (S2 : strictly_chronological [(1, 10); (3, 30)]).
  { intros a b x y L A C. destruct a as [|[|a]], b as [|[|b]]; cbn in *; try lia; try discriminate; try (injection A as <-); try (injection C as <-); cbn; try lia; destruct b; discriminate. }
  assert (S3 : strictly_chronological [(1, 1); (3, 3); (4, 4)]).
  { intros a b x y L A C. destruct a as [|[|[|a]]], b as [|[|[|b]]]; cbn in *; try lia; try discriminate; try (injection A as <-); try (injection C as <-); cbn; try lia; destruct b; discriminate. }
  cbn. split; [exact S2|]. split; [|split; reflexivity]. intros a b [[= <- <-]|[]]. exact S3.
Qed.
Print Assumptions C45_factors_from.
Print Assumptions C45_factors_after.
Print Assumptions C45_ids.
