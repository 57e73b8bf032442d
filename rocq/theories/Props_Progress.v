(** C98: progress reports. *)
From Coq Require Import ZArith Bool Lia List.
From Verif Require Import Outcome TimestampModel RateModel.
Import ListNotations.
Local Open Scope Z_scope.

(** the constructor: perc is the number of reports (at most 100), not the percentage between two of them; 0 is undefined *)
Theorem C98_new : forall steps perc, 0 <= steps ->
  (1 <= perc -> bar_new steps perc = Ok (Bar steps (steps / Z.min 100 perc) (steps / Z.min 100 perc) 0)) /\
  (perc = 0 -> bar_new steps perc = UB DivByZero).
Proof.
  intros steps perc S. unfold bar_new. split; intro P.
  - replace (Z.max perc 0) with perc by lia. set (u := Z.min 100 perc). assert (U : 1 <= u <= 100) by lia.
    replace (u =? 0) with false by (symmetry; apply Z.eqb_neq; lia).
    rewrite Z.div_div, Z.div_mul_cancel_r by lia. reflexivity.
  - subst perc. reflexivity.
Qed.
Print Assumptions C98_new.

(** hours, minutes and seconds *)
Theorem C98_time : forall s h m x, 0 <= s -> hhmmss s = Ok (h, m, x) -> 3600 * h + 60 * m + x = s /\ 0 <= m < 60 /\ 0 <= x < 60 /\ 0 <= h.
Proof.
  intros s h m x P. unfold hhmmss. destruct (in_int32 s); [|discriminate]. injection 1 as <- <- <-.
  rewrite !Z.quot_div_nonneg, !Z.rem_mod_nonneg by (rewrite ?Z.rem_mod_nonneg by lia; try apply Z.mod_pos_bound; lia).
  pose proof (Z.div_mod s 3600 ltac:(lia)). pose proof (Z.mod_pos_bound s 3600 ltac:(lia)).
  pose proof (Z.div_mod (s mod 3600) 60 ltac:(lia)). pose proof (Z.mod_pos_bound (s mod 3600) 60 ltac:(lia)).
  assert (E : (s mod 3600) mod 60 = s mod 60).
  { rewrite (Z.mod_eq s 3600) by lia. replace (s - 3600 * (s / 3600)) with (s + (- 60 * (s / 3600)) * 60) by lia. now rewrite Z.mod_add by lia. }
  rewrite <- E. pose proof (Z.div_pos s 3600 P ltac:(lia)). repeat split; lia.
Qed.
Print Assumptions C98_time.
Lemma hhmmss_ok s : 0 <= s < 2 ^ 31 -> exists t, hhmmss s = Ok t.
Proof.
  intro H. unfold hhmmss, in_int32, int32_min, int32_max.
  replace (_ && _) with true by (symmetry; apply andb_true_intro; split; apply Z.leb_le; lia). now eexists.
Qed.

(** the times shown fit 32 bit seconds *)
Definition fits (steps i ns : Z) : Prop := 0 <= ns /\ ns / 1000000000 < 2 ^ 31 /\ ns * (steps - i) / (i * 1000000000) < 2 ^ 31.
(** the reports of calls of progress() at the given times *)
Fixpoint calls (len : Z) (sr sf : bool) (ts : list Z) (b : bar) : outcome (list (option line)) :=
  match ts with
  | [] => Ok []
  | ns :: ts => obind (bar_progress len sr sf ns b) (fun p => obind (calls len sr sf ts (fst p)) (fun l => Ok (snd p :: l)))
  end.
Definition is_bar (len steps i : Z) (o : option line) : Prop :=
  exists f t, o = Some (Going f (len - f) i steps t) /\ 0 <= f <= len /\ f * steps <= i * len < (f + 1) * steps.
Definition is_done (o : option line) : Prop := exists t, o = Some (Done t).
(** what the i-th call of progress() has to print *)
Definition report (len steps inc i : Z) (o : option line) : Prop :=
  if steps <=? i then is_done o
  else if (inc =? 0) || (i mod inc =? 0) then is_bar len steps i o
  else o = None.

Lemma update_ok len sr sf ns i b : 0 <= len -> 0 <= i -> (i < b_steps b -> 1 <= i) -> (i < b_steps b -> fits (b_steps b) i ns) -> 0 <= ns -> ns / 1000000000 < 2 ^ 31 ->
  exists o, bar_update len sr sf ns i b = Ok (if i <? b_next b then b else Bar (b_steps b) (b_inc b) (Z.min (b_next b + b_inc b) (b_steps b)) (b_tick b), o) /\
    (if i <? b_next b then o = None else if b_steps b <=? i then is_done o else is_bar len (b_steps b) i o).
Proof.
  intros L I I1 Fi N0 N1. unfold bar_update. destruct (i <? b_next b); [now eexists|].
  destruct (hhmmss_ok (ns / 1000000000)) as [t T]; [split; [apply Z.div_pos; lia|exact N1]|].
  destruct (b_steps b <=? i) eqn:E.
  - destruct sf; [rewrite T|]; cbn [obind]; eexists; (split; [reflexivity|now eexists]).
  - apply Z.leb_gt in E. destruct (Fi E) as [_ [_ R]]. specialize (I1 E).
    assert (B : is_bar len (b_steps b) i (Some (Going (i * len / b_steps b) (len - i * len / b_steps b) i (b_steps b) None)) /\
      forall t', is_bar len (b_steps b) i (Some (Going (i * len / b_steps b) (len - i * len / b_steps b) i (b_steps b) t'))).
    { assert (A : forall t', is_bar len (b_steps b) i (Some (Going (i * len / b_steps b) (len - i * len / b_steps b) i (b_steps b) t'))); [|split; apply A].
      intro t'. exists (i * len / b_steps b), t'. split; [reflexivity|].
      pose proof (Z.div_mod (i * len) (b_steps b) ltac:(lia)). pose proof (Z.mod_pos_bound (i * len) (b_steps b) ltac:(lia)).
      set (f := i * len / b_steps b) in *. assert (0 <= f) by (apply Z.div_pos; nia).
      split; [|nia]. split; [assumption|]. nia. }
    destruct sr.
    + rewrite T. cbn [obind]. replace (i =? 0) with false by (symmetry; apply Z.eqb_neq; lia).
      destruct (hhmmss_ok (ns * (b_steps b - i) / (i * 1000000000))) as [r Hr]; [split; [apply Z.div_pos; nia|exact R]|].
      rewrite Hr. cbn [obind]. eexists; split; [reflexivity|]. apply B.
    + eexists; split; [reflexivity|]. apply B.
Qed.

(** the state after k calls *)
Definition state_after (steps inc k : Z) (b : bar) : Prop :=
  b_steps b = steps /\ b_inc b = inc /\ b_tick b = Z.min k steps /\
  b_next b = if inc =? 0 then 0 else Z.min ((k / inc + 1) * inc) steps.

Lemma progress_ok len sr sf ns steps inc k b : 0 <= len -> 0 < steps -> 0 <= inc <= steps -> 0 <= k -> state_after steps inc k b ->
  fits steps (Z.min (k + 1) steps) ns ->
  exists b' o, bar_progress len sr sf ns b = Ok (b', o) /\ state_after steps inc (k + 1) b' /\ report len steps inc (k + 1) o.
Proof.
  intros L S I K [A [B [C D]]] Hf. unfold bar_progress. rewrite A, B, C.
  replace (Z.min (Z.min k steps + 1) steps) with (Z.min (k + 1) steps) by lia. set (i := Z.min (k + 1) steps) in *.
  destruct (update_ok len sr sf ns i (Bar steps inc (b_next b) i) L ltac:(lia)) as [o [E R]]; cbn [b_steps b_inc b_next b_tick] in *;
    [lia|intros _; exact Hf|apply Hf|apply Hf|].
  rewrite E. eexists _, o. split; [reflexivity|]. unfold report.
  destruct (Z.eqb_spec inc 0) as [Z0|N0].
  - (* every tick *)
    rewrite D in *. replace (i <? 0) with false in * by (symmetry; apply Z.ltb_ge; lia). split.
    + unfold state_after; cbn [b_steps b_inc b_next b_tick]. rewrite Z0. change (0 =? 0) with true. cbn iota. repeat split; lia.
    + cbn [orb]. destruct (Z.leb_spec steps i) as [J|J]; destruct (Z.leb_spec steps (k + 1)) as [J'|J']; try lia; [exact R|].
      replace (k + 1) with i by lia. exact R.
  - cbn [orb]. rewrite D in *. pose proof (Z.div_mod k inc N0). pose proof (Z.mod_pos_bound k inc ltac:(lia)).
    pose proof (Z.div_mod (k + 1) inc N0). pose proof (Z.mod_pos_bound (k + 1) inc ltac:(lia)).
    assert (Q : ((k + 1) mod inc = 0 /\ (k + 1) / inc = k / inc + 1) \/ ((k + 1) mod inc <> 0 /\ (k + 1) / inc = k / inc)).
    { destruct (Z.eq_dec ((k + 1) mod inc) 0) as [Y|Y]; [left|right]; split; try assumption; nia. }
    assert (Kq : 0 <= k / inc) by (apply Z.div_pos; lia).
    assert (NI : (k / inc + 1) * inc >= k + 1) by nia.
    destruct (Z.leb_spec steps (k + 1)) as [J|J].
    + replace i with steps in * by lia.
      replace (steps <? Z.min ((k / inc + 1) * inc) steps) with false in * by (symmetry; apply Z.ltb_ge; lia).
      rewrite Z.leb_refl in R. split; [|exact R]. repeat split; cbn [b_steps b_inc b_next b_tick]; try lia.
      replace (inc =? 0) with false by (symmetry; now apply Z.eqb_neq).
      assert ((k + 1) / inc >= k / inc) by lia. nia.
    + replace i with (k + 1) in * by lia. replace (steps <=? k + 1) with false in R by (symmetry; apply Z.leb_gt; lia).
      destruct Q as [[Y Y']|[Y Y']].
      * assert (EQ : (k / inc + 1) * inc = k + 1) by nia. rewrite EQ in *.
        replace (k + 1 <? Z.min (k + 1) steps) with false in * by (symmetry; apply Z.ltb_ge; lia).
        rewrite Y, Z.eqb_refl. split; [|exact R]. repeat split; cbn [b_steps b_inc b_next b_tick]; try lia.
        replace (inc =? 0) with false by (symmetry; now apply Z.eqb_neq). nia.
      * assert (LT : k + 1 < (k / inc + 1) * inc) by nia.
        replace (k + 1 <? Z.min ((k / inc + 1) * inc) steps) with true in * by (symmetry; apply Z.ltb_lt; lia).
        replace ((k + 1) mod inc =? 0) with false by (symmetry; now apply Z.eqb_neq). split; [|exact R].
        repeat split; cbn [b_steps b_inc b_next b_tick]; try lia.
        replace (inc =? 0) with false by (symmetry; now apply Z.eqb_neq). now rewrite Y'.
Qed.

(** Calls of progress(): the i-th prints a bar if i is a multiple of steps/reports (each if there are fewer steps than reports),
    nothing in between, and the end message from the last step on, every time. *)
Theorem C98_reports : forall len sr sf steps perc b ts, 0 <= len -> 0 < steps -> 1 <= perc -> bar_new steps perc = Ok b ->
  (forall k ns, nth_error ts k = Some ns -> fits steps (Z.min (Z.of_nat k + 1) steps) ns) ->
  exists l, calls len sr sf ts b = Ok l /\ length l = length ts /\
    forall k o, nth_error l k = Some o -> report len steps (steps / Z.min 100 perc) (Z.of_nat k + 1) o.
Proof.
  intros len sr sf steps perc b ts L Sp P E. rewrite (proj1 (C98_new steps perc ltac:(lia)) P) in E. injection E as <-.
  set (inc := steps / Z.min 100 perc).
  assert (I : 0 <= inc <= steps) by (unfold inc; split; [apply Z.div_pos; lia|apply Z.div_le_upper_bound; nia]).
  assert (H0 : state_after steps inc (Z.of_nat 0) (Bar steps inc inc 0)).
  { repeat split; cbn [b_steps b_inc b_next b_tick]; try lia. destruct (Z.eqb_spec inc 0); [assumption|].
    cbn [Z.of_nat]. rewrite Z.div_0_l by lia. lia. }
  assert (G : forall ts j b, state_after steps inc (Z.of_nat j) b ->
    (forall k ns, nth_error ts k = Some ns -> fits steps (Z.min (Z.of_nat (j + k) + 1) steps) ns) ->
    exists l, calls len sr sf ts b = Ok l /\ length l = length ts /\
    forall k o, nth_error l k = Some o -> report len steps inc (Z.of_nat (j + k) + 1) o).
  { clear ts. induction ts as [|ns ts IH]; intros j b H F.
    - exists []. repeat split. now intros [|k].
    - destruct (progress_ok len sr sf ns steps inc (Z.of_nat j) b) as [b' [o [E [H' R]]]]; try assumption; [lia| |].
      { specialize (F 0%nat ns eq_refl). now rewrite Nat.add_0_r in F. }
      replace (Z.of_nat j + 1) with (Z.of_nat (S j)) in H' by lia.
      destruct (IH (S j) b' H') as [l [A [B C]]].
      { intros k x Hk. specialize (F (S k) x Hk). now replace (j + S k)%nat with (S j + k)%nat in F by lia. }
      exists (o :: l). cbn [calls]. rewrite E. cbn [obind fst snd]. rewrite A. cbn [obind]. split; [reflexivity|].
      split; [cbn; now rewrite B|]. intros [|k] x Hx.
      + injection Hx as <-. now rewrite Nat.add_0_r.
      + specialize (C k x Hx). now replace (j + S k)%nat with (S j + k)%nat by lia. }
  intro F. exact (G ts 0%nat _ H0 F).
Qed.
Print Assumptions C98_reports.

(** with fewer steps than reports, update(0) divides by zero percent when the remaining time is shown *)
Theorem C98_update_zero : forall len sf steps perc b ns, 0 < steps < Z.min 100 perc -> bar_new steps perc = Ok b ->
  0 <= ns -> ns / 1000000000 < 2 ^ 31 -> bar_update len true sf ns 0 b = UB FloatToIntRange.
Proof.
  intros len sf steps perc b ns S E N B. rewrite (proj1 (C98_new steps perc ltac:(lia)) ltac:(lia)) in E. injection E as <-.
  rewrite Z.div_small by lia. unfold bar_update. cbn [b_steps b_inc b_next b_tick]. change (0 <? 0) with false.
  replace (steps <=? 0) with false by (symmetry; apply Z.leb_gt; lia).
  destruct (hhmmss_ok (ns / 1000000000)) as [t T]; [split; [apply Z.div_pos; lia|exact B]|]. rewrite T. reflexivity.
Qed.
Print Assumptions C98_update_zero.

(** "5 percent" of 1000 steps: the first report after 200 *)
Example C98_percent : bar_new 1000 5 = Ok (Bar 1000 200 200 0) /\ bar_new 1000 10 = Ok (Bar 1000 100 100 0).
Proof. split; reflexivity. Qed.
Example C98_example : calls 10 true true [1; 2; 3; 4; 5; 6; 7; 8] (Bar 7 2 2 0) = Ok ([None; Some (Going 2 8 2 7 (Some ((0, 0, 0), (0, 0, 0)))); None; Some (Going 5 5 4 7 (Some ((0, 0, 0), (0, 0, 0))));
      None; Some (Going 8 2 6 7 (Some ((0, 0, 0), (0, 0, 0)))); Some (Done (Some (0, 0, 0))); Some (Done (Some (0, 0, 0)))]) /\
  bar_new 7 3 = Ok (Bar 7 2 2 0) /\ fits 7 3 5000000000.
Proof. split; [vm_compute; reflexivity|]. split; [reflexivity|]. repeat split; vm_compute; congruence. Qed.
