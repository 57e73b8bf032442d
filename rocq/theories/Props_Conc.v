(** C50, C64, C65: the timed lock guard and the cyclic thread, for every number of threads and every interleaving. *)
From Coq Require Import List Bool Arith Lia.
From Verif Require Import Outcome ConcModel.
Import ListNotations.

(** * Specification vocabulary *)
(** thread [i] is inside a section whose guard acquired the mutex *)
Definition inside (s : lstate) (i : nat) : Prop := In true (l_guards s i).
(** number of acquired guards thread [i] has open (recursion depth) *)
Definition depth (s : lstate) (i : nat) : nat := length (filter (fun b => b) (l_guards s i)).
(** [s] is reached from the initial state by some interleaving without undefined behaviour *)
Definition lreach (s : lstate) : Prop := exists l, lrun l_init l = Ok s.

(** * Invariant *)
Definition cnt (l : list bool) := length (filter (fun b => b) l).
Lemma cnt_true r : cnt (true :: r) = S (cnt r). Proof. reflexivity. Qed.
Lemma cnt_false r : cnt (false :: r) = cnt r. Proof. reflexivity. Qed.
Arguments cnt : simpl never.
(** failed guards are never on top of acquired ones: the mutex is recursive *)
Fixpoint shape (l : list bool) : Prop :=
  match l with [] => True | true :: r => shape r | false :: r => cnt r = 0 /\ shape r end.
Definition linv (s : lstate) : Prop :=
  (forall i, shape (l_guards s i)) /\
  match l_mtx s with
  | None => forall i, cnt (l_guards s i) = 0
  | Some (o, c) => 0 < c /\ cnt (l_guards s o) = c /\ forall i, i <> o -> cnt (l_guards s i) = 0
  end.
Lemma linv_init : linv l_init. Proof. split; intros; cbn; auto. Qed.
Lemma upd_same {T} (f : nat -> T) i v : upd f i v i = v. Proof. unfold upd. now rewrite Nat.eqb_refl. Qed.
Lemma upd_other {T} (f : nat -> T) i j v : j <> i -> upd f i v j = f j.
Proof. intros. unfold upd. destruct (Nat.eqb_spec j i); congruence. Qed.
Lemma linv_step s a s' : linv s -> lstep s a = Ok s' -> linv s'.
Proof.
  intros [Hs Hm] H. destruct a as [i | i]; cbn in H.
  - destruct (l_mtx s) as [[o c] |] eqn:Em; cbn in H.
    + destruct (Nat.eqb_spec o i) as [-> | Hne]; injection H as <-; split; cbn.
      * intros j. unfold upd. destruct (j =? i); cbn; auto.
      * rewrite upd_same, cnt_true. destruct Hm as (H1 & H2 & H3). repeat split; [lia | lia |].
        intros j Hj. rewrite upd_other by auto. auto.
      * intros j. unfold upd. destruct (Nat.eqb_spec j i) as [-> | ]; cbn; [| apply Hs]. split; [| apply Hs]. apply (proj2 (proj2 Hm)). auto.
      * destruct Hm as (H1 & H2 & H3). rewrite upd_other by auto. repeat split; auto.
        intros j Hj. unfold upd. destruct (Nat.eqb_spec j i) as [-> | ]; rewrite ?cnt_false; auto.
    + injection H as <-. split; cbn.
      * intros j. unfold upd. destruct (j =? i); cbn; auto.
      * rewrite upd_same, cnt_true, Hm. repeat split; auto.
        intros j Hj. rewrite upd_other by auto. auto.
  - destruct (l_guards s i) as [| b r] eqn:Eg; [injection H as <-; now split |].
    pose proof (Hs i) as Hsi. rewrite Eg in Hsi.
    destruct (l_mtx s) as [[o c] |] eqn:Em; cbn in H; [| discriminate].
    destruct (Nat.eqb_spec o i) as [-> | Hne]; [| discriminate]. injection H as <-.
    destruct Hm as (H1 & H2 & H3). rewrite Eg in H2.
    assert (b = true) as -> by (destruct b; auto; destruct Hsi as [Hc _]; rewrite cnt_false in H2; lia).
    split; cbn.
    + intros j. unfold upd. destruct (j =? i); cbn; auto.
    + rewrite cnt_true in H2. destruct c as [| [| c]]; [lia | |].
      * intros j. unfold upd. destruct (Nat.eqb_spec j i) as [-> |]; [lia | auto].
      * rewrite upd_same. repeat split; [lia | lia |]. intros j Hj. rewrite upd_other by auto. auto.
Qed.
Lemma linv_run s l s' : linv s -> lrun s l = Ok s' -> linv s'.
Proof.
  revert s; induction l as [| a l IH]; intros s Hi H; cbn in H; [now injection H as <- |].
  destruct (lstep s a) eqn:E; try discriminate. eauto using linv_step.
Qed.
Lemma lreach_inv s : lreach s -> linv s.
Proof. intros [l H]. eapply linv_run; eauto using linv_init. Qed.
Lemma lreach_step s a s' : lreach s -> lstep s a = Ok s' -> lreach s'.
Proof.
  intros [l H] Hs. exists (l ++ [a]). revert H. generalize l_init. induction l as [| b l IH]; intros s0 H; cbn in *.
  - injection H as ->. now rewrite Hs.
  - destruct (lstep s0 b); try discriminate. auto.
Qed.
Lemma inside_cnt s i : inside s i <-> 0 < cnt (l_guards s i).
Proof.
  unfold inside. induction (l_guards s i) as [| b r IH]; [cbn; split; [tauto | unfold cnt; cbn; lia] |].
  destruct b; rewrite ?cnt_true, ?cnt_false; cbn [In]; [split; intros; [lia | now left] |]. rewrite <- IH. split; [intros [H | H]; [discriminate | auto] | now right].
Qed.

(** * C50: mutual exclusion, for any number of threads and any interleaving (as long as no timed-out guard was left, cf. C65) *)
Theorem C50_mutual_exclusion : forall s, lreach s -> forall i j, inside s i -> inside s j -> i = j.
Proof.
  intros s Hr i j Hi Hj. destruct (lreach_inv _ Hr) as [_ Hm]. rewrite inside_cnt in Hi, Hj.
  destruct (l_mtx s) as [[o c] |]; [| specialize (Hm i); lia]. destruct Hm as (_ & _ & H3).
  destruct (Nat.eq_dec i o) as [-> |], (Nat.eq_dec j o) as [-> |]; auto;
    (rewrite H3 in Hi by auto; lia) || (rewrite H3 in Hj by auto; lia).
Qed.
(** entering succeeds exactly if no other thread is inside *)
Theorem C50_enter : forall s i s', lreach s -> lstep s (Enter i) = Ok s' ->
  (exists b, l_guards s' i = b :: l_guards s i /\ (b = true <-> forall j, j <> i -> ~ inside s j)) /\
  (forall j, j <> i -> l_guards s' j = l_guards s j).
Proof.
  intros s i s' Hr H. destruct (lreach_inv _ Hr) as [_ Hm]. cbn in H.
  destruct (l_mtx s) as [[o c] |] eqn:Em; cbn in H; [destruct (Nat.eqb_spec o i) as [-> | Hne] |]; injection H as <-; cbn;
    (split; [rewrite upd_same; eexists; split; [reflexivity |] | intros; now apply upd_other]).
  - split; auto. intros _ j Hj. rewrite inside_cnt. destruct Hm as (_ & _ & H3). rewrite H3 by auto. lia.
  - split; [discriminate |]. intros Hn. exfalso. apply (Hn o Hne). rewrite inside_cnt. destruct Hm as (H1 & H2 & _). lia.
  - split; auto. intros _ j Hj. rewrite inside_cnt, Hm. lia.
Qed.
(** leaving an acquired guard is always defined, opens the section for others exactly when it was the outermost one, and
    leaves the guards of other threads alone *)
Theorem C50_leave_acquired : forall s i r, lreach s -> l_guards s i = true :: r ->
  exists s', lstep s (Leave i) = Ok s' /\ l_guards s' i = r /\ (forall j, j <> i -> l_guards s' j = l_guards s j) /\
             (l_mtx s' = None <-> ~ inside s' i).
Proof.
  intros s i r Hr Eg. destruct (lreach_inv _ Hr) as [_ Hm].
  assert (Hi : cnt (l_guards s i) <> 0) by (rewrite Eg, cnt_true; lia).
  destruct (l_mtx s) as [[o c] |] eqn:Em; [| now rewrite Hm in Hi]. destruct Hm as (H1 & H2 & H3).
  destruct (Nat.eq_dec o i) as [-> | Hne]; [| rewrite H3 in Hi; auto; lia].
  cbn. rewrite Eg, Em. cbn. rewrite Nat.eqb_refl. eexists. split; [reflexivity |]. cbn.
  rewrite upd_same. split; [reflexivity |]. split; [intros; now apply upd_other |].
  assert (Hin : In true r <-> 0 < cnt r) by (pose proof (inside_cnt (LS None (fun _ => r)) 0) as X; exact X).
  rewrite Hin. rewrite Eg, cnt_true in H2.
  destruct c as [| [| c]]; [lia | |]; split; intros; try lia; try discriminate; auto.
Qed.
(** three threads: 0 is inside twice, 1 waits in vain, 2 enters after 0 has left *)
Example C50_example : exists s, lrun l_init [Enter 0; Enter 0; Leave 0; Leave 0; Enter 2; Enter 1] = Ok s /\
  inside s 2 /\ ~ inside s 0 /\ ~ inside s 1 /\ l_guards s 1 = [false].
Proof. eexists. split; [reflexivity |]. cbn. unfold inside. cbn. intuition discriminate. Qed.

(** * C65: leaving the scope of a guard whose try_lock timed out unlocks a mutex that is not owned: undefined behaviour in
    EVERY reachable state, i.e. whenever some try_lock times out the program becomes undefined at the end of that scope *)
Theorem C65_timed_out_guard_undefined : forall s i r, lreach s -> l_guards s i = false :: r -> lstep s (Leave i) = UB UnlockNotOwned.
Proof.
  intros s i r Hr Eg. destruct (lreach_inv _ Hr) as [Hs Hm]. specialize (Hs i). rewrite Eg in Hs. cbn in Hs. destruct Hs as [Hc _].
  assert (Hz : cnt (l_guards s i) = 0) by (rewrite Eg; exact Hc).
  cbn. rewrite Eg. destruct (l_mtx s) as [[o c] |]; cbn; auto. destruct (Nat.eqb_spec o i) as [-> |]; auto. lia.
Qed.
Example C65_two_threads : lrun l_init [Enter 0; Enter 1; Leave 1] = UB UnlockNotOwned. Proof. reflexivity. Qed.
(** what does hold: if no try_lock ever times out, no schedule reaches undefined behaviour *)
Theorem C65_no_timeout_safe : forall s a, lreach s -> (forall i, ~ In false (l_guards s i)) -> exists s', lstep s a = Ok s'.
Proof.
  intros s [i | i] Hr Hf; cbn [lstep].
  - destruct (mtx_try_lock i (l_mtx s)); eauto.
  - destruct (l_guards s i) as [| b r] eqn:Eg; [eauto |]. destruct b.
    + destruct (C50_leave_acquired s i r Hr Eg) as (s' & H & _). cbn [lstep] in H. rewrite Eg in H. eauto.
    + exfalso. apply (Hf i). rewrite Eg. now left.
Qed.
(** ... exactly: leaving a scope is defined if and only if its guard had acquired the mutex *)
Theorem C65_leave_iff : forall s i b r, lreach s -> l_guards s i = b :: r -> ((exists s', lstep s (Leave i) = Ok s') <-> b = true).
Proof.
  intros s i b r Hr Eg. destruct b.
  - split; [reflexivity|]. intros _. destruct (C50_leave_acquired s i r Hr Eg) as (s' & H & _). eauto.
  - rewrite (C65_timed_out_guard_undefined s i r Hr Eg). split; [intros [s' H]; discriminate | discriminate].
Qed.

(** * C64: the cyclic thread *)
Definition no_dtor (l : list caction) := ~ In ADerivedDtor l.
Definition no_resume (l : list caction) := ~ In AResume l.
Definition works (l : list caction) : nat := length (filter (fun a => match a with AWork => true | _ => false end) l).
Definition creach (s : cstate) : Prop := exists l, crun c_init l = Ok s.

Lemma crun_app s l1 l2 : crun s (l1 ++ l2) = match crun s l1 with Ok s' => crun s' l2 | UB e => UB e | Abort e => Abort e end.
Proof. revert s; induction l1 as [| a l1 IH]; intros s; cbn; auto. destruct (cstep s a); auto. Qed.

(** no run_ before the first resume *)
Theorem C64_not_before_resume : forall l s, no_resume l -> crun c_init l = Ok s -> c_starts s = 0.
Proof.
  assert (G : forall l s s', no_resume l -> c_run s = false -> c_pc s <> WCall -> crun s l = Ok s' -> c_starts s' = c_starts s).
  { induction l as [| a l IH]; intros s s' Hn Hr Hp H; cbn in H; [now injection H as <- |].
    assert (Hn' : no_resume l) by (intros X; apply Hn; now right).
    destruct a; try (apply IH in H; auto; fail).
    - cbn in H. destruct (c_pc s) eqn:E; [destruct (c_shutdown s) | rewrite Hr in H | congruence | | |];
        apply IH in H; cbn in *; auto; congruence.
    - exfalso. apply Hn. now left. }
  intros l s Hn H. apply (G l c_init s); auto. discriminate.
Qed.
(** after stop() and until the next resume() at most one further run_ starts *)
Theorem C64_stop : forall s0 s1 l s2, cstep s0 AStop = Ok s1 -> no_resume l -> crun s1 l = Ok s2 ->
  c_starts s2 <= c_starts s0 + 1.
Proof.
  assert (G : forall l s s', no_resume l -> c_run s = false -> crun s l = Ok s' ->
             c_starts s' <= c_starts s + (match c_pc s with WCall => 1 | _ => 0 end)).
  { induction l as [| a l IH]; intros s s' Hn Hr H; cbn in H; [injection H as <-; lia |].
    assert (Hn' : no_resume l) by (intros X; apply Hn; now right).
    destruct a; try (apply IH in H; auto; fail).
    - cbn in H. destruct (c_pc s) eqn:E; [destruct (c_shutdown s) | rewrite Hr in H | destruct (c_derived s); try discriminate | | |];
        apply IH in H; cbn in *; auto; try lia. now rewrite E in H.
    - exfalso. apply Hn. now left. }
  intros s0 s1 l s2 H Hn H2. cbn in H. injection H as <-. apply G in H2; auto. cbn in H2. destruct (c_pc s0); lia.
Qed.
(** after terminate() at most one further run_ starts, whatever is called afterwards, and the worker function returns within
    five of its own steps *)
Definition left_steps (p : wpc) : nat := match p with WWhile => 1 | WIf => 5 | WCall => 4 | WRun => 3 | WSleep => 2 | WDone => 0 end.
Theorem C64_terminate : forall s l s', c_shutdown s = true -> crun s l = Ok s' ->
  c_starts s' <= c_starts s + 1 /\ (5 <= works l -> c_pc s' = WDone).
Proof.
  assert (G : forall l s s', c_shutdown s = true -> crun s l = Ok s' ->
     c_starts s' <= c_starts s + (match c_pc s with WIf | WCall => 1 | _ => 0 end) /\ (left_steps (c_pc s) <= works l -> c_pc s' = WDone)).
  { induction l as [| a l IH]; intros s s' Hs H; cbn in H.
    - injection H as <-. split; [lia |]. cbn. destruct (c_pc s); cbn; auto; lia.
    - destruct a; try (apply IH in H; auto; fail). cbn in H. 
      destruct (c_pc s) eqn:E; [rewrite Hs in H | destruct (c_run s) | destruct (c_derived s); try discriminate | | |];
        apply IH in H; cbn in *; auto; unfold works in *; cbn in *; rewrite ?E in H; cbn in *; destruct H as [H1 H2]; (split; [lia |]); intros; apply H2; lia. }
  intros s l s' Hs H. destruct (G l s s' Hs H) as [G1 G2]. split; [destruct (c_pc s); lia |].
  intros Hw. apply G2. destruct (c_pc s); cbn; lia.
Qed.
(** as long as the derived object is alive no schedule reaches undefined behaviour *)
Theorem C64_alive_is_safe : forall l, no_dtor l -> exists s, crun c_init l = Ok s.
Proof.
  assert (G : forall l s, no_dtor l -> c_derived s = true -> exists s', crun s l = Ok s').
  { induction l as [| a l IH]; intros s Hn Hd; cbn; [eauto |].
    assert (Hn' : no_dtor l) by (intros X; apply Hn; now right).
    destruct a; try (apply IH; auto; fail).
    - cbn. destruct (c_pc s); try (apply IH; auto; fail). rewrite Hd. apply IH; auto.
    - exfalso. apply Hn. now left. }
  intros l Hn. now apply G.
Qed.
(** ending the derived object's lifetime is safe exactly if the worker cannot start another run_: it has returned, or shutdown is
    set and the worker is past the start of its run_ *)
Definition quiescent (s : cstate) : Prop :=
  c_pc s = WDone \/ (c_shutdown s = true /\ (c_pc s = WWhile \/ c_pc s = WRun \/ c_pc s = WSleep)).
Theorem C64_destruction : forall s, c_derived s = true ->
  ((forall l, exists s', crun s (ADerivedDtor :: l) = Ok s') <-> quiescent s).
Proof.
  intros s Hd. split.
  - intros H. unfold quiescent. destruct (c_pc s) eqn:E; auto; destruct (c_shutdown s) eqn:Es; auto; exfalso.
    + destruct (H [AResume; AWork; AWork; AWork]) as [s' X]; cbn in X; rewrite E in X; cbn in X; rewrite Es in X; discriminate.
    + destruct (H [AResume; AWork; AWork]) as [s' X]; cbn in X; rewrite E in X; discriminate.
    + destruct (H [AResume; AWork; AWork]) as [s' X]; cbn in X; rewrite E in X; discriminate.
    + destruct (H [AWork]) as [s' X]; cbn in X; rewrite E in X; discriminate.
    + destruct (H [AWork]) as [s' X]; cbn in X; rewrite E in X; discriminate.
    + destruct (H [AResume; AWork; AWork; AWork; AWork; AWork]) as [s' X]; cbn in X; rewrite E in X; cbn in X; rewrite Es in X; discriminate.
    + destruct (H [AResume; AWork; AWork; AWork; AWork]) as [s' X]; cbn in X; rewrite E in X; cbn in X; rewrite Es in X; discriminate.
  - intros Hq l.
    assert (G : forall l s, quiescent s -> exists s', crun s l = Ok s').
    { clear. induction l as [| a l IH]; intros s Hq; cbn; [eauto |].
      destruct a; try (apply IH; unfold quiescent in *; cbn in *; tauto).
      cbn. destruct (c_pc s) eqn:E; unfold quiescent in *; rewrite E in *.
      - destruct Hq as [Hq | [Hs _]]; [discriminate |]. rewrite Hs. apply IH. now left.
      - destruct Hq as [Hq | [_ [Hq | [Hq | Hq]]]]; discriminate.
      - destruct Hq as [Hq | [_ [Hq | [Hq | Hq]]]]; discriminate.
      - destruct Hq as [Hq | [Hs _]]; [discriminate |]. apply IH. right. cbn. auto.
      - destruct Hq as [Hq | [Hs _]]; [discriminate |]. apply IH. right. cbn. auto.
      - apply IH. now left. }
    cbn. apply G. exact Hq.
Qed.
(** the destructor sequence of the code on a running thread: the derived part is gone while the worker is about to call run_ *)
Example C64_destruction_race : crun c_init [AResume; AWork; AWork; ADerivedDtor; AStop; AShutdown; AWork] = UB NullDeref.
Proof. reflexivity. Qed.
(** a normal life: resume, two runs, stop, one iteration without run_, terminate *)
Example C64_example : exists s, crun c_init
    [AResume; AWork; AWork; AWork; AWork; AWork; AWork; AWork; AStop; AWork; AWork; AWork; AWork; AWork; AWork; AStop; AShutdown; AWork; AWork] = Ok s /\
  c_starts s = 2 /\ c_pc s = WDone.
Proof. exists (CS true false WDone true 2). vm_compute. auto. Qed.

Print Assumptions C50_mutual_exclusion. Print Assumptions C50_enter. Print Assumptions C50_leave_acquired.
Print Assumptions C65_timed_out_guard_undefined. Print Assumptions C65_no_timeout_safe. Print Assumptions C65_leave_iff.
Print Assumptions C64_not_before_resume. Print Assumptions C64_stop. Print Assumptions C64_terminate.
Print Assumptions C64_alive_is_safe. Print Assumptions C64_destruction.
