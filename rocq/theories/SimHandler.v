(** The delay example's measurements as a handler sees them: helpers for C111. *)
From Coq Require Import ZArith List Bool Arith Lia Permutation.
From Verif Require Import MeasModel HandlerModel SimModel Props_Sim.
Import ListNotations.
Local Open Scope Z_scope.

Lemma filter_map_split {A B} (g : A -> B) (f : B -> bool) l a m b : filter f (map g l) = a ++ m :: b ->
  exists r1 s r2, l = r1 ++ s :: r2 /\ g s = m /\ filter f (map g r1) = a.
Proof.
  revert a. induction l as [|x l IH]; intros a E; cbn in E; [now destruct a|].
  destruct (f (g x)) eqn:Fx.
  - destruct a as [|y a]; cbn in E; injection E as E1 E2.
    + exists [], x, l. auto.
    + destruct (IH a E2) as [r1 [s [r2 [-> [E3 E4]]]]]. exists (x :: r1), s, r2. cbn. rewrite Fx, E4, E1. auto.
  - destruct (IH a E) as [r1 [s [r2 [-> [E3 E4]]]]]. exists (x :: r1), s, r2. cbn. rewrite Fx, E4. auto.
Qed.
(** the measurement the handler gets: stamped with the time of its sample *)
Definition stamped {P} (t : nat -> Z) (val : sim_meas -> P) (s : sim_meas) : meas P := Meas (s_id s) (t (s_sample s)) (s_ty s) (val s).

Section S.
Variables (dp dj : nat) (first_only joint : bool) (N K : nat).
Hypothesis Hp : Z.of_nat dp < 2 ^ 31.
Hypothesis Hj : Z.of_nat dj < 2 ^ 31.
Hypothesis HN : (1 <= N)%nat.
Hypothesis HK : (2 <= K)%nat.
Let sim := simulation (Z.of_nat dp) (Z.of_nat dj) first_only joint N K.
Definition first_sim := Sim PROPAGATION 0 None 1 1.
Lemma sim_first : sim = first_sim :: tl sim.
Proof. unfold sim, simulation. destruct K as [|[|K']]; try lia. destruct N as [|N']; [lia|]. reflexivity. Qed.
Variable P : Type.
Variables (t : nat -> Z) (val : sim_meas -> P) (peer : P -> nat).
Hypothesis Ht : forall i j, (i < j < K)%nat -> t i < t j.
Hypothesis Hv : forall s j, s_ty s = JOINT -> s_peer s = Some j -> peer (val s) = j.
Notation g := (stamped t val).
Definition first_meas := g first_sim.
Definition others := map g (tl sim).
Definition kept := filter (fun m => m_t first_meas <? m_t m) others.
Lemma t_mono i j : (i <= j < K)%nat -> t i <= t j.
Proof. intros H. destruct (Nat.eq_dec i j) as [->|Q]; [lia|]. assert (t i < t j) by (apply Ht; lia). lia. Qed.
Lemma sim_meas_in m : In m (first_meas :: others) -> exists s, In s sim /\ m = g s.
Proof. intros H. change (In m (map g (first_sim :: tl sim))) in H. rewrite <- sim_first in H. apply in_map_iff in H. destruct H as [s [<- I]]. eauto. Qed.
Lemma times m : In m (first_meas :: others) -> t 1%nat <= m_t m <= t (K - 1)%nat.
Proof.
  intros H. apply sim_meas_in in H. destruct H as [s [I ->]]. apply C110_in_bounds in I; auto. destruct I as [I1 [I2 _]]. cbn.
  split; apply t_mono; lia.
Qed.
Lemma kept_prepared a m b : first_meas :: kept = a ++ m :: b -> m_ty m = JOINT ->
  forall x, x = m_id m \/ x = peer (m_dat m) -> exists p, In p a /\ m_ty p = PROPAGATION /\ m_id p = x /\ m_t p = m_t m.
Proof.
  intros E Ty x Hx. destruct a as [|m1 a]; injection E as E1 E2; [rewrite <- E1 in Ty; discriminate|].
  assert (Im : In m kept) by (rewrite E2; apply in_or_app; right; now left). apply filter_In in Im. destruct Im as [_ Lm]. apply Z.ltb_lt in Lm.
  apply filter_map_split in E2. destruct E2 as [r1 [s [r2 [Er [<- Ea]]]]].
  assert (Es : sim = (first_sim :: r1) ++ s :: r2) by (rewrite sim_first, Er; reflexivity).
  destruct (C110_in_time dp dj first_only joint N K Hp Hj _ _ _ Es) as [_ [T _]].
  assert (Is : In s sim) by (rewrite Es; apply in_or_app; right; now left).
  destruct (C110_in_bounds dp dj first_only joint N K Hp Hj s Is) as [_ [_ [_ J]]]. destruct (J Ty) as [j [Ej _]].
  assert (Hi : x = s_id s \/ Some x = s_peer s).
  { destruct Hx as [-> | ->]; [now left|right]. cbn [stamped m_dat]. rewrite Ej. f_equal. now apply Hv. }
  assert (Np : s_ty s <> PROPAGATION) by (intros Q; cbn in Ty; congruence).
  specialize (T Np x Hi). exists (g (Sim PROPAGATION x None (s_sample s) (s_sample s))). split; [|split; [reflexivity|split; reflexivity]].
  destruct T as [T|T]; [injection T as _ Q; cbn in Lm; rewrite <- Q in Lm; lia|].
  right. rewrite <- Ea. apply filter_In. split; [apply in_map_iff; eauto|]. apply Z.ltb_lt. exact Lm.
Qed.
Lemma kept_in m : In m (first_meas :: kept) -> exists s, In s sim /\ m = g s /\ (m = first_meas \/ (2 <= s_sample s)%nat).
Proof.
  intros [<-|H]; [exists first_sim; split; [rewrite sim_first; now left|split; [reflexivity|now left]]|].
  apply filter_In in H. destruct H as [H L]. apply in_map_iff in H. destruct H as [s [<- I]]. exists s. split; [rewrite sim_first; now right|].
  split; [reflexivity|]. right. apply Z.ltb_lt in L. cbn in L.
  assert (Is : In s sim) by (rewrite sim_first; now right). destruct (C110_in_bounds dp dj first_only joint N K Hp Hj s Is) as [[I1 I2] _].
  destruct (Nat.eq_dec (s_sample s) 1) as [Q|Q]; [rewrite Q in L; lia|lia].
Qed.
End S.
