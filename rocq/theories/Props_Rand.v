(** C96: the random number singletons: seeding and reproducibility, random subsets. *)
From Coq Require Import ZArith List Bool Arith Lia.
From Verif Require Import Outcome RandModel.
Import ListNotations.

Section Spec.
Variables G V : Type.
Variable pair : G -> V * V * G.
(** the numbers an engine in state e gives, two per step *)
Fixpoint step (e : G) (i : nat) : G := match i with O => e | S i => snd (pair (step e i)) end.
Definition number (e : G) (k : nat) : V :=
  let p := fst (pair (step e (k / 2))) in if Nat.even k then fst p else snd p.
(** how many numbers have been drawn *)
Definition drawn (us : list use) : nat := fold_right (fun u n => match u with Draw N => N + n | Seed _ => n end) 0 us.
End Spec.

Section Gauss.
Variables G V : Type.
Variable mt : Z -> G.
Variable pair : G -> V * V * G.
Notation randns := (randns G V pair).
Notation randn := (randn G V pair).
Notation uses := (uses G V mt pair).
Notation seeded := (gauss_seed G V mt).
Notation start := (gauss_new G V).
Notation number := (number G V pair).

Lemma step_tl e i : step G V pair (snd (pair e)) i = step G V pair e (S i).
Proof. induction i as [|i IH]; [reflexivity|]. cbn [step]. rewrite IH. reflexivity. Qed.
Lemma number_tl e k : number (snd (pair e)) k = number e (S (S k)).
Proof.
  unfold number. rewrite step_tl. change (S (S k)) with (2 + k).
  replace ((2 + k) / 2) with (S (k / 2)) by (replace (2 + k) with (k + 1 * 2) by lia; rewrite Nat.div_add by lia; lia).
  reflexivity.
Qed.
(** two numbers at a time *)
Lemma randns_ind (P : nat -> Prop) : P 0 -> P 1 -> (forall n, P n -> P (S (S n))) -> forall n, P n.
Proof. intros A B C. fix IH 1. intros [|[|n]]; [exact A|exact B|]. apply C, IH. Qed.
Lemma randns2 e n : randns (S (S n)) (Gauss e None) =
  (let '(xs, g) := randns n (Gauss (snd (pair e)) None) in (fst (fst (pair e)) :: snd (fst (pair e)) :: xs, g)).
Proof. cbn [RandModel.randns]. unfold RandModel.randn at 1. cbn [g_saved g_eng]. destruct (pair e) as [[y x] e'] eqn:E. cbn. destruct (randns n _). reflexivity. Qed.
Lemma randns_fresh N : forall e, fst (randns N (Gauss e None)) = map (number e) (seq 0 N) /\
  (g_saved _ _ (snd (randns N (Gauss e None))) = None <-> Nat.Even N).
Proof.
  induction N as [| |n IH] using randns_ind; intro e.
  - cbn. split; [reflexivity|]. split; [intros _; now exists 0|reflexivity].
  - cbn. unfold RandModel.randn, number. cbn. destruct (pair e) as [[y x] e']. cbn. split; [reflexivity|].
    split; [discriminate|intros [k K]; lia].
  - rewrite randns2. destruct (IH (snd (pair e))) as [A B]. destruct (randns n _) as [xs g]. cbn [fst snd] in *. split.
    + rewrite A. cbn [seq map]. rewrite <- !seq_shift, !map_map.
      change (number e 0) with (fst (fst (pair e))). change (number e 1) with (snd (fst (pair e))).
      do 2 f_equal. apply map_ext. intro k. apply number_tl.
    + rewrite B. split; intros [k K]; [exists (S k)|exists (k - 1)]; lia.
Qed.
Lemma saved_randns N : forall g, (g_saved _ _ (snd (randns N g)) = None <-> (g_saved _ _ g = None <-> Nat.Even N)).
Proof.
  intros [e [v|]].
  - destruct N as [|N].
    + cbn. split; [intro H; discriminate|]. intro H. apply H. now exists 0.
    + cbn [RandModel.randns]. unfold RandModel.randn at 1. cbn [g_saved g_eng].
      destruct (randns_fresh N e) as [_ B]. destruct (randns N _) as [xs g]. cbn [snd g_saved] in *. rewrite B. split.
      * intros [k K]. split; [discriminate|intros [j J]; lia].
      * intro H. destruct (Nat.Even_or_Odd N) as [E|[k K]]; [exact E|]. exfalso.
        assert (D : Some v = None) by (apply H; exists (S k); lia). discriminate.
  - destruct (randns_fresh N e) as [_ B]. cbn [g_saved]. rewrite B. tauto.
Qed.
Lemma even_add a b : Nat.Even (a + b) <-> (Nat.Even a <-> Nat.Even b).
Proof.
  rewrite <- !Nat.even_spec, Nat.even_add. destruct (Nat.even a), (Nat.even b); cbn;
    (split; [intro H; split; congruence|intros [P Q]; first [reflexivity|exact (P eq_refl)|exact (Q eq_refl)]]).
Qed.
Lemma saved_uses us : forall g, (g_saved _ _ (uses us g) = None <-> (g_saved _ _ g = None <-> Nat.Even (drawn us))).
Proof.
  induction us as [|u us IH]; intro g; cbn [drawn fold_right].
  - cbn. split; [intro H; split; [intros _; now exists 0|intros _; exact H]|]. intro H. apply H. now exists 0.
  - change (uses (u :: us) g) with (uses us (use1 G V mt pair g u)). rewrite IH. destruct u as [N|s]; cbn [use1].
    + rewrite saved_randns. fold (drawn us). rewrite even_add.
      assert (D : forall n, Nat.Even n \/ ~ Nat.Even n).
      { intro n. destruct (Nat.Even_or_Odd n) as [E|O]; [now left|right; intro E; exact (Nat.Even_Odd_False n E O)]. }
      assert (Q : g_saved G V g = None \/ g_saved G V g <> None) by (destruct (g_saved G V g); [right; discriminate|now left]).
      destruct (D N), (D (drawn us)), Q; tauto.
    + reflexivity.
Qed.

(** Whatever happened before: the numbers after seed(s) depend on s modulo 2^32 only if an even number was drawn before; otherwise
    the first one is the number that was left over. *)
Theorem C96_seed : forall us g0 s N, let g := uses us (start g0) in
  let fresh := number (mt (s mod 2 ^ 32)%Z) in
  (Nat.Even (drawn us) -> fst (randns N (seeded s g)) = map fresh (seq 0 N)) /\
  (Nat.Odd (drawn us) -> fst (randns (S N) (seeded s g)) = fst (randn g) :: map fresh (seq 0 N)).
Proof.
  intros us g0 s N g fresh. pose proof (saved_uses us (start g0)) as H. fold g in H. cbn [g_saved gauss_new] in H. split; intro P.
  - assert (E : g_saved _ _ g = None) by (apply H; split; [intros _; exact P|reflexivity]).
    unfold gauss_seed. rewrite E. apply randns_fresh.
  - destruct (g_saved _ _ g) as [v|] eqn:E.
    + cbn [RandModel.randns]. unfold gauss_seed, RandModel.randn. rewrite E. cbn [g_saved g_eng].
      pose proof (proj1 (randns_fresh N (mt (s mod 2 ^ 32)%Z))) as A. destruct (randns N _) as [xs h]. cbn [fst] in *. now rewrite A.
    + exfalso. apply (Nat.Even_Odd_False (drawn us)); [|exact P]. apply H; reflexivity.
Qed.
(** Two runs of a program that set the same seed after an even number of draws go on alike. *)
Theorem C96_reproducible : forall us us' g0 g0' s s' N, (s mod 2 ^ 32 = s' mod 2 ^ 32)%Z ->
  Nat.Even (drawn us) -> Nat.Even (drawn us') ->
  fst (randns N (seeded s (uses us (start g0)))) = fst (randns N (seeded s' (uses us' (start g0')))).
Proof.
  intros us us' g0 g0' s s' N E A B. rewrite (proj1 (C96_seed us g0 s N) A), (proj1 (C96_seed us' g0' s' N) B), E. reflexivity.
Qed.
(** randn(N) is N times randn(), in order *)
Theorem C96_randn_n : forall M N g, fst (randns (M + N) g) = fst (randns M g) ++ fst (randns N (snd (randns M g))) /\
  snd (randns (M + N) g) = snd (randns N (snd (randns M g))) /\ length (fst (randns N g)) = N /\ fst (randns 1 g) = [fst (randn g)].
Proof.
  intros M N g. assert (L : forall N g, length (fst (randns N g)) = N).
  { induction N0 as [|n IH]; intro h; [reflexivity|]. cbn. destruct (randn h) as [x h']. specialize (IH h'). destruct (randns n h'). cbn in *. now f_equal. }
  split; [|split; [|split; [apply L|cbn; now destruct (randn g)]]].
  - revert g. induction M as [|M IH]; intro g; [reflexivity|]. cbn. destruct (randn g) as [x h]. specialize (IH h).
    destruct (randns (M + N) h), (randns M h). cbn in *. now rewrite IH.
  - revert g. induction M as [|M IH]; intro g; [reflexivity|]. cbn. destruct (randn g) as [x h]. specialize (IH h).
    destruct (randns (M + N) h), (randns M h). cbn in *. exact IH.
Qed.
End Gauss.
Print Assumptions C96_seed.
Print Assumptions C96_reproducible.
Print Assumptions C96_randn_n.

(** With one number drawn before, the same seed gives other numbers. *)
Theorem C96_odd : exists (mt : Z -> Z) (pair : Z -> Z * Z * Z) s,
  fst (randns Z Z pair 2 (gauss_seed Z Z mt s (uses Z Z mt pair [Seed s; Draw 1] (gauss_new Z Z 0%Z)))) <>
  fst (randns Z Z pair 2 (gauss_seed Z Z mt s (uses Z Z mt pair [Seed s; Draw 2] (gauss_new Z Z 0%Z)))).
Proof. exists (fun s => s), (fun e => (10 * e, 10 * e + 1, e + 1)%Z), 7%Z. vm_compute. discriminate. Qed.
Print Assumptions C96_odd.
Example C96_example : let pair := fun e => (10 * e, 10 * e + 1, e + 1)%Z in
  fst (randns Z Z pair 3 (gauss_seed Z Z (fun s => s) 7 (uses Z Z (fun s => s) pair [Draw 5; Seed 3; Draw 1] (gauss_new Z Z 0%Z)))) = [70; 71; 80]%Z /\
  fst (randns Z Z pair 3 (gauss_seed Z Z (fun s => s) 7 (uses Z Z (fun s => s) pair [Draw 5; Seed 3] (gauss_new Z Z 0%Z)))) = [21; 70; 71]%Z.
Proof. split; vm_compute; reflexivity. Qed.

(** ** random subsets *)
(** l without some of its elements, the others in order *)
Inductive subset {T} : list T -> list T -> Prop :=
| sub_nil : subset [] []
| sub_take x l m : subset l m -> subset (x :: l) (x :: m)
| sub_skip x l m : subset l m -> subset l (x :: m).
Lemma sub_empty {T} (l : list T) : subset [] l.
Proof. induction l; constructor; assumption. Qed.
Lemma select_ok {T} (u : nat -> nat -> nat) : (forall k m, u k m <= m) -> forall (l : list T) k n, n <= length l ->
  exists out, select T u k l n (length l) = Ok out /\ length out = n /\ subset out l.
Proof.
  intros U. induction l as [|x l IH]; intros k n L; cbn [length] in L.
  - replace n with 0 by lia. exists []. now repeat constructor.
  - destruct n as [|n]; [exists []; repeat split; apply sub_empty|]. cbn [select length].
    replace (S (length l) - 1) with (length l) by lia. destruct (u k (length l) <? S n) eqn:E.
    + destruct (IH (S k) n ltac:(lia)) as [out [A [B C]]]. exists (x :: out). rewrite A. cbn. repeat split; [congruence|now constructor].
    + apply Nat.ltb_ge in E. specialize (U k (length l)).
      destruct (IH (S k) (S n) ltac:(lia)) as [out [A [B C]]]. exists out. rewrite A. repeat split; [exact B|now constructor].
Qed.
(** Whatever the engine gives: min(N, size) elements at different positions, in their order, never past the end. *)
Theorem C96_sample : forall T (u : nat -> nat -> nat) (vec : list T) N, (forall k m, u k m <= m) ->
  exists out, sample T u vec N = Ok out /\ length out = Nat.min N (length vec) /\ subset out vec.
Proof. intros T u vec N U. apply select_ok; [exact U|apply Nat.le_min_r]. Qed.
Print Assumptions C96_sample.
Theorem C96_sample_all : forall T (u : nat -> nat -> nat) (vec : list T) N, (forall k m, u k m <= m) -> length vec <= N ->
  sample T u vec N = Ok vec.
Proof.
  intros T u vec N U L. destruct (C96_sample T u vec N U) as [out [A [B C]]]. rewrite A. f_equal.
  rewrite Nat.min_r in B by exact L. clear A U L N. induction C as [|x l m C IH|x l m C IH]; [reflexivity| |].
  - f_equal. apply IH. cbn in B. lia.
  - exfalso. assert (length l <= length m) by (clear - C; induction C; cbn; lia). cbn in B. lia.
Qed.
Print Assumptions C96_sample_all.
Example C96_sample_ex : sample nat (fun k m => m / 2) [4; 5; 6; 7] 2 = Ok [4; 6].
Proof. vm_compute. reflexivity. Qed.
