(** C110: what the delay example delivers to the handler, and when. *)
From Coq Require Import ZArith List Bool Arith Lia Sorted.
From Verif Require Import MeasModel SimModel.
Import ListNotations.

(** ** lists *)
Lemma flat_map_split {A B} (f : A -> list B) l a m b : flat_map f l = a ++ m :: b ->
  exists l1 t l2 a' b', l = l1 ++ t :: l2 /\ a = flat_map f l1 ++ a' /\ f t = a' ++ m :: b'.
Proof.
revert a. induction l as [|x l IH]; intros a E; cbn in E; [now destruct a|].
assert (H : (exists b', f x = a ++ m :: b') \/ exists a', a = f x ++ a' /\ flat_map f l = a' ++ m :: b).
{ clear IH. revert a E. induction (f x) as [|y r IHr]; intros a E; [right; exists a; auto|].
  destruct a as [|z a]; cbn in E; inversion E as [[E1 E2]]; subst; [left; eexists; reflexivity|].
  destruct (IHr a E2) as [[b' ->]|[a' [-> E']]]; [left; exists b'; reflexivity | right; exists a'; split; [reflexivity | exact E']]. }
destruct H as [[b' E']|[a' [-> E']]].
- exists [], x, l, a, b'. auto.
- destruct (IH a' E') as [l1 [t [l2 [a2 [b2 [-> [-> E2]]]]]]]. exists (x :: l1), t, l2, a2, b2.
  split; [reflexivity|]. split; [cbn; apply app_assoc | exact E2].
Qed.
Lemma app_split {A} (p q a : list A) m b : p ++ q = a ++ m :: b -> ~ In m p -> exists c, a = p ++ c.
Proof.
revert a. induction p as [|x p IH]; intros a E N; [now exists a|].
destruct a as [|y a]; cbn in E; injection E as -> E; [exfalso; apply N; now left|].
destruct (IH a E) as [c ->]; [intros H; apply N; now right | now exists c].
Qed.
Lemma seq_split s n l1 t l2 : seq s n = l1 ++ t :: l2 -> l1 = seq s (t - s) /\ s <= t < s + n.
Proof.
revert s n. induction l1 as [|x l1 IH]; intros s [|n] E; cbn in E; try discriminate; injection E as -> E.
- rewrite Nat.sub_diag. split; [reflexivity | lia].
- destruct (IH _ _ E) as [-> H]. split; [|lia]. replace (t - x) with (S (t - S x)) by lia. reflexivity.
Qed.
Lemma NoDup_flat_map {A B} (f : A -> list B) l : NoDup l -> (forall x, In x l -> NoDup (f x)) ->
  (forall x y z, In x l -> In y l -> In z (f x) -> In z (f y) -> x = y) -> NoDup (flat_map f l).
Proof.
induction l as [|x l IH]; intros N F D; [constructor|]. cbn. inversion_clear N as [|? ? Nx Nl].
assert (App : forall p q : list B, NoDup p -> NoDup q -> (forall z, In z p -> ~ In z q) -> NoDup (p ++ q)).
{ induction p as [|z p IHp]; cbn; intros q Np Nq H; [exact Nq|]. inversion_clear Np. constructor.
  - rewrite in_app_iff. intros [H2|H2]; [contradiction | apply (H z); auto].
  - apply IHp; auto. }
apply App.
- apply F. now left.
- apply IH; [exact Nl | intros y Hy; apply F; now right | intros y z w Hy Hz; apply D; now right].
- intros z Hz Hf. apply in_flat_map in Hf. destruct Hf as [y [Hy Hz']].
  assert (x = y) by (apply (D x y z); [now left | now right | exact Hz | exact Hz']). subst. contradiction.
Qed.

(** ** delays *)
Lemma size_nat d : (Z.of_nat d < 2 ^ 64)%Z -> size_of_int (Z.of_nat d) = Z.of_nat d.
Proof. intros H. apply Z.mod_small. lia. Qed.
Lemma size_neg d : (- 2 ^ 31 <= d < 0)%Z -> (2 ^ 63 <= size_of_int d)%Z.
Proof. intros H. unfold size_of_int. rewrite <- (Z.mod_add d 1) by lia. rewrite Z.mod_small by lia. lia. Qed.
Lemma late_nat d idx : (Z.of_nat d < 2 ^ 31)%Z -> late (Z.of_nat d) idx = Nat.ltb d idx.
Proof. intros H. unfold late. rewrite size_nat by lia. destruct (Nat.ltb_spec d idx); [apply Z.ltb_lt | apply Z.ltb_ge]; lia. Qed.
Lemma sample_nat d idx : (Z.of_nat d < 2 ^ 31)%Z -> sample_of (Z.of_nat d) idx = idx - d.
Proof. intros H. unfold sample_of. rewrite size_nat by lia. lia. Qed.
Lemma late_neg d idx : (- 2 ^ 31 <= d < 0)%Z -> (Z.of_nat idx < 2 ^ 31)%Z -> late d idx = false.
Proof. intros H Hi. unfold late. pose proof (size_neg d H). apply Z.ltb_ge. lia. Qed.
Lemma private_ofE first_only i : private_of first_only i = true <-> (first_only = true -> i = 0).
Proof.
unfold private_of. destruct first_only; cbn; [|split; [discriminate|reflexivity]].
destruct i; cbn; split; auto; try discriminate. intros H. now specialize (H eq_refl).
Qed.

Section Sim.
Variables (dp dj : nat) (first_only joint : bool) (N K : nat).
Hypothesis Hp : (Z.of_nat dp < 2 ^ 31)%Z.
Hypothesis Hj : (Z.of_nat dj < 2 ^ 31)%Z.
Let sim := simulation (Z.of_nat dp) (Z.of_nat dj) first_only joint N K.

(** what is delivered at arrival index [t] *)
Lemma in_step t m : In m (sim_step (Z.of_nat dp) (Z.of_nat dj) first_only joint N t) <->
  (exists i, i < N /\ m = Sim PROPAGATION i None t t)
  \/ (exists i, i < N /\ (first_only = true -> i = 0) /\ dp < t /\ m = Sim PRIVATE i None (t - dp) t)
  \/ (joint = true /\ 1 < N /\ exists i, i < N /\ dj < t /\ m = Sim JOINT i (Some ((i + 1) mod N)) (t - dj) t).
Proof.
unfold sim_step. rewrite in_app_iff, in_map_iff, in_flat_map. unfold update_idx, propagate_idx.
rewrite !late_nat, !sample_nat by assumption. split.
- intros [[i [<- Hi]]|[i [Hi H]]]; apply in_seq in Hi; [left; exists i; split; [lia|reflexivity]|right].
  apply in_app_iff in H. destruct H as [H|H].
  + left. destruct (private_of first_only i) eqn:Pv; cbn [andb] in H; [|contradiction].
    destruct (Nat.ltb_spec dp t); [|contradiction]. destruct H as [<-|[]]. exists i. pose proof (proj1 (private_ofE _ _) Pv) as Pv2. repeat split; (assumption || lia).
  + right. destruct (Nat.ltb_spec dj t); [|contradiction]. unfold peers_of in H. destruct joint; cbn [andb] in H; [|contradiction].
    destruct (Nat.ltb_spec 1 N); [|contradiction]. destruct H as [<-|[]]. split; [reflexivity|]. split; [assumption|]. exists i. repeat split; lia.
- intros [[i [Hi ->]]|[[i [Hi [Hf [Ht ->]]]]|[-> [HN [i [Hi [Ht ->]]]]]]].
  + left. exists i. split; [reflexivity|]. apply in_seq. lia.
  + right. exists i. split; [apply in_seq; lia|]. apply in_app_iff. left.
    rewrite (proj2 (private_ofE _ _) Hf). destruct (Nat.ltb_spec dp t); [|lia]. cbn. now left.
  + right. exists i. split; [apply in_seq; lia|]. apply in_app_iff. right. unfold peers_of. cbn [andb].
    destruct (Nat.ltb_spec dj t); [|lia]. destruct (Nat.ltb_spec 1 N); [|lia]. cbn. now left.
Qed.

(** every instance gets every sample's propagation at once, the private (of the first or of all instances) and the joint measurement of
    every sample from the second on, exactly the delay later, as far as the simulation goes; nothing else is delivered *)
Theorem C110_delivered m : In m sim <->
  (exists i k, i < N /\ 1 <= k < K /\ m = Sim PROPAGATION i None k k)
  \/ (exists i k, i < N /\ (first_only = true -> i = 0) /\ 1 <= k /\ k + dp < K /\ m = Sim PRIVATE i None k (k + dp))
  \/ (joint = true /\ 1 < N /\ exists i k, i < N /\ 1 <= k /\ k + dj < K /\ m = Sim JOINT i (Some ((i + 1) mod N)) k (k + dj)).
Proof.
unfold sim, simulation. rewrite in_flat_map. split.
- intros [t [Ht H]]. apply in_seq in Ht. apply in_step in H.
  destruct H as [[i [Hi ->]]|[[i [Hi [Hf [Hd ->]]]]|[Ej [HN [i [Hi [Hd ->]]]]]]].
  + left. exists i, t. repeat split; lia.
  + right. left. exists i, (t - dp). repeat split; try lia; [assumption|]. f_equal. lia.
  + right. right. split; [assumption|]. split; [assumption|]. exists i, (t - dj). repeat split; try lia. f_equal. lia.
- intros [[i [k [Hi [Hk ->]]]]|[[i [k [Hi [Hf [H1 [H2 ->]]]]]]|[Ej [HN [i [k [Hi [H1 [H2 ->]]]]]]]]].
  + exists k. split; [apply in_seq; lia|]. apply in_step. left. eauto.
  + exists (k + dp). split; [apply in_seq; lia|]. apply in_step. right. left. exists i. repeat split; try assumption; try lia. f_equal. lia.
  + exists (k + dj). split; [apply in_seq; lia|]. apply in_step. right. right. split; [assumption|]. split; [assumption|].
    exists i. repeat split; try lia. f_equal. lia.
Qed.
(** so no array is read out of bounds, sample 0 is never measured, and a joint measurement is between two different instances *)
Theorem C110_in_bounds m : In m sim ->
  1 <= s_sample m <= s_now m /\ s_now m < K /\ s_id m < N
  /\ (s_ty m = JOINT -> exists j, s_peer m = Some j /\ j < N /\ j <> s_id m).
Proof.
intros H. apply C110_delivered in H.
destruct H as [[i [k [Hi [Hk ->]]]]|[[i [k [Hi [Hf [H1 [H2 ->]]]]]]|[Ej [HN [i [k [Hi [H1 [H2 ->]]]]]]]]]; cbn;
  repeat split; try lia; try discriminate.
intros _. exists ((i + 1) mod N). split; [reflexivity|]. split; [apply Nat.mod_upper_bound; lia|].
destruct (Nat.eq_dec (i + 1) N) as [E|E]; [rewrite E, Nat.mod_same by lia; lia | rewrite Nat.mod_small by lia; lia].
Qed.
(** each is delivered once *)
Theorem C110_once : NoDup sim.
Proof.
apply NoDup_flat_map; [apply seq_NoDup| |].
- intros t _. unfold sim_step.
  assert (App : forall p q : list sim_meas, NoDup p -> NoDup q -> (forall z, In z p -> ~ In z q) -> NoDup (p ++ q)).
  { induction p as [|z p IHp]; cbn; intros q Np Nq H; [exact Nq|]. inversion_clear Np. constructor.
    - rewrite in_app_iff. intros [H2|H2]; [contradiction | apply (H z); auto].
    - apply IHp; auto. }
  assert (U : forall i z, In z (update_idx (Z.of_nat dp) (Z.of_nat dj) (private_of first_only i) (peers_of joint N i) i t) ->
     s_id z = i /\ s_ty z <> PROPAGATION).
  { intros i z H. unfold update_idx in H. apply in_app_iff in H. destruct H as [H|H].
    - destruct (_ && _); [destruct H as [<-|[]] | contradiction]. split; [reflexivity | discriminate].
    - destruct (late _ _); [|contradiction]. apply in_map_iff in H. destruct H as [j [<- _]]. split; [reflexivity | discriminate]. }
  apply App.
  + assert (G : forall n s, NoDup (map (fun i => propagate_idx i t) (seq s n))).
    { induction n as [|n IHn]; intros s; cbn; constructor; auto. intros H. apply in_map_iff in H. destruct H as [i [E Hi]].
      injection E as ->. apply in_seq in Hi. lia. }
    apply G.
  + apply NoDup_flat_map; [apply seq_NoDup| |].
    * intros i _. unfold update_idx. apply App.
      -- destruct (_ && _); repeat constructor; auto.
      -- destruct (late _ _); [|constructor]. unfold peers_of. destruct (_ && _); repeat constructor; auto.
      -- intros z Hz Hq. destruct (_ && _); [destruct Hz as [<-|[]] | contradiction]. destruct (late _ _); [|contradiction].
         apply in_map_iff in Hq. destruct Hq as [j [E _]]. discriminate.
    * intros i j z _ _ Hi H. apply U in Hi. apply U in H. destruct Hi as [<- _], H as [<- _]. reflexivity.
  + intros z Hz Hq. apply in_map_iff in Hz. destruct Hz as [i [<- _]]. apply in_flat_map in Hq. destruct Hq as [j [_ Hq]].
    apply U in Hq. now destruct Hq as [_ H].
- intros t t' z _ _ H H'. apply in_step in H. apply in_step in H'.
  assert (E : forall s, In z (sim_step (Z.of_nat dp) (Z.of_nat dj) first_only joint N s) -> s_now z = s).
  { intros s Hs. apply in_step in Hs.
    destruct Hs as [[i [_ ->]]|[[i [_ [_ [_ ->]]]]|[_ [_ [i [_ [_ ->]]]]]]]; reflexivity. }
  apply in_step, E in H. apply in_step, E in H'. congruence.
Qed.
(** when: arrivals are in order of time; a private or joint measurement arrives after the propagations of its participants to the time of
    its sample; nothing is older than the first arrival *)
Theorem C110_in_time a m b : sim = a ++ m :: b ->
  (forall x, In x a -> s_now x <= s_now m)
  /\ (s_ty m <> PROPAGATION -> forall i, i = s_id m \/ Some i = s_peer m -> In (Sim PROPAGATION i None (s_sample m) (s_sample m)) a)
  /\ (forall x, In x sim -> s_sample (hd m a) <= s_sample x).
Proof.
intros E. assert (Hm : In m sim) by (rewrite E; apply in_or_app; right; now left).
pose proof (C110_in_bounds m Hm) as [Hs [HK [Hi HJ]]].
assert (Now : forall z s, In z (sim_step (Z.of_nat dp) (Z.of_nat dj) first_only joint N s) -> s_now z = s).
{ intros z s Hz. apply in_step in Hz.
  destruct Hz as [[i [_ ->]]|[[i [_ [_ [_ ->]]]]|[_ [_ [i [_ [_ ->]]]]]]]; reflexivity. }
pose proof E as E0. unfold sim, simulation in E0. apply flat_map_split in E0.
destruct E0 as [l1 [t [l2 [a' [b' [El [Ea Ef]]]]]]]. apply seq_split in El. destruct El as [-> Ht].
assert (Em : s_now m = t) by (apply Now; rewrite Ef; apply in_or_app; right; now left).
split; [|split].
- intros x Hx. rewrite Ea in Hx. apply in_app_iff in Hx. destruct Hx as [Hx|Hx].
  + apply in_flat_map in Hx. destruct Hx as [s [Hs' Hx]]. apply Now in Hx. apply in_seq in Hs'. lia.
  + assert (s_now x = t) by (apply Now; rewrite Ef; apply in_or_app; now left). lia.
- intros Ty i Hid.
  assert (HiN : i < N).
  { destruct Hid as [->|Hid]; [assumption|]. apply C110_delivered in Hm.
    destruct Hm as [[i' [k [_ [_ ->]]]]|[[i' [k [_ [_ [_ [_ ->]]]]]]|[_ [_ [i' [k [_ [_ [_ ->]]]]]]]]]; cbn in Hid; try discriminate.
    injection Hid as ->. apply Nat.mod_upper_bound. lia. }
  rewrite Ea. apply in_app_iff. destruct (Nat.eq_dec (s_sample m) t) as [Et|Et].
  + right. unfold sim_step in Ef. apply app_split in Ef.
    * destruct Ef as [c ->]. apply in_or_app. left. apply in_map_iff. exists i. rewrite Et. split; [reflexivity|]. apply in_seq. lia.
    * intros H. apply in_map_iff in H. destruct H as [j [<- _]]. now apply Ty.
  + left. apply in_flat_map. exists (s_sample m). split; [apply in_seq; lia|]. apply in_step. left. eauto.
- assert (Hh : In (hd m a) sim /\ s_sample (hd m a) = 1).
  { assert (HN : 0 < N) by lia. assert (HK1 : 1 < K) by lia.
    assert (Eh : exists r, sim = Sim PROPAGATION 0 None 1 1 :: r).
    { unfold sim, simulation. destruct K as [|[|K']]; try lia. destruct N as [|N']; [lia|]. cbn. eauto. }
    destruct Eh as [r Er]. rewrite Er in E. destruct a as [|x a2]; cbn in E |- *; injection E as <- _; (split; [rewrite Er; now left | reflexivity]). }
  intros x Hx. apply C110_in_bounds in Hx. lia.
Qed.
(** samples are delivered in chronological order without delays, and not otherwise when the run is longer than the delay *)
Theorem C110_chronological :
  (dp = 0 -> dj = 0 -> forall a x b y c, sim = a ++ x :: b ++ y :: c -> s_sample x <= s_sample y)
  /\ (0 < dp -> dp + 1 < K -> 0 < N -> exists a x b y c, sim = a ++ x :: b ++ y :: c /\ s_sample y < s_sample x).
Proof.
split.
- intros E1 E2 a x b y c E.
  assert (S : forall z, In z sim -> s_sample z = s_now z).
  { intros z Hz. apply C110_delivered in Hz.
    destruct Hz as [[i [k [_ [_ ->]]]]|[[i [k [_ [_ [_ [_ ->]]]]]]|[_ [_ [i [k [_ [_ [_ ->]]]]]]]]]; cbn; lia. }
  rewrite !S.
  + destruct (C110_in_time (a ++ x :: b) y c) as [H _]; [rewrite E, <- app_assoc; reflexivity|]. apply H.
    apply in_or_app. right. now left.
  + rewrite E. apply in_or_app. right. right. apply in_or_app. right. now left.
  + rewrite E. apply in_or_app. right. now left.
- intros H0 HK HN.
  assert (Hy : In (Sim PRIVATE 0 None 1 (1 + dp)) sim) by (apply C110_delivered; right; left; exists 0, 1; repeat split; lia).
  apply in_split in Hy. destruct Hy as [a [c E]].
  assert (Hx : In (Sim PROPAGATION 0 None (1 + dp) (1 + dp)) a).
  { pose proof E as E0. unfold sim, simulation in E0. apply flat_map_split in E0.
    destruct E0 as [l1 [t [l2 [a' [b' [El [Ea Ef]]]]]]].
    assert (Et : 1 + dp = t).
    { assert (Hin : In (Sim PRIVATE 0 None 1 (1 + dp)) (sim_step (Z.of_nat dp) (Z.of_nat dj) first_only joint N t))
        by (rewrite Ef; apply in_or_app; right; now left).
      apply in_step in Hin. destruct Hin as [[i [_ Q]]|[[i [_ [_ [_ Q]]]]|[_ [_ [i [_ [_ Q]]]]]]]; injection Q; intros; try discriminate; lia. }
    unfold sim_step in Ef. apply app_split in Ef.
    - destruct Ef as [c' ->]. rewrite Ea. apply in_or_app. right. apply in_or_app. left. apply in_map_iff. exists 0.
      rewrite Et. split; [reflexivity | apply in_seq; lia].
    - intros H. apply in_map_iff in H. destruct H as [j [Q _]]. discriminate. }
  apply in_split in Hx. destruct Hx as [a1 [a2 ->]].
  exists a1, (Sim PROPAGATION 0 None (1 + dp) (1 + dp)), a2, (Sim PRIVATE 0 None 1 (1 + dp)), c.
  split; [rewrite E, <- app_assoc; reflexivity | cbn; lia].
Qed.
End Sim.

(** negative delays become huge: nothing but propagations is ever delivered *)
Theorem C110_negative dp dj first_only joint N K : (- 2 ^ 31 <= dp < 0)%Z -> (- 2 ^ 31 <= dj < 0)%Z -> (Z.of_nat K < 2 ^ 31)%Z ->
  forall m, In m (simulation dp dj first_only joint N K) -> s_ty m = PROPAGATION.
Proof.
intros Hp Hj HK m H. unfold simulation in H. apply in_flat_map in H. destruct H as [t [Ht H]]. apply in_seq in Ht.
unfold sim_step in H. apply in_app_iff in H. destruct H as [H|H].
- apply in_map_iff in H. now destruct H as [i [<- _]].
- apply in_flat_map in H. destruct H as [i [_ H]]. unfold update_idx in H.
  rewrite !late_neg in H by (assumption || lia). rewrite andb_false_r in H. contradiction.
Qed.

(** two instances, three samples, private measurements one step late *)
Example C110_run : simulation 1 0 true true 2 3 =
  [Sim PROPAGATION 0 None 1 1; Sim PROPAGATION 1 None 1 1; Sim JOINT 0 (Some 1) 1 1; Sim JOINT 1 (Some 0) 1 1;
   Sim PROPAGATION 0 None 2 2; Sim PROPAGATION 1 None 2 2; Sim PRIVATE 0 None 1 2; Sim JOINT 0 (Some 1) 2 2; Sim JOINT 1 (Some 0) 2 2].
Proof. reflexivity. Qed.
Example C110_negative_ex : simulation (-1) (-1) false true 2 2 = [Sim PROPAGATION 0 None 1 1; Sim PROPAGATION 1 None 1 1].
Proof. reflexivity. Qed.
Print Assumptions C110_delivered.
Print Assumptions C110_in_bounds.
Print Assumptions C110_once.
Print Assumptions C110_in_time.
Print Assumptions C110_chronological.
Print Assumptions C110_negative.
