(** C71: the handler's horizons and resets. *)
From Coq Require Import ZArith List Bool Reals Lra Lia.
From Flocq Require Import Core IEEE754.BinarySingleNaN.
From Flocq Require Mult_error.
From Verif Require Import Outcome TimestampModel DoubleModel Spec_Time TimestampProofs DoubleProofs BufModel Spec_Buf BufProofs HorizonModel HorizonProofs MeasModel HandlerModel Spec_Handler HandlerProofs Props_Handler CorrTime.
Import ListNotations.
Local Open Scope Z_scope.

(** ** which horizons are in force *)
(** the last horizon given, and whether it was given by the setter *)
Definition configured {B M P} (hor : double) (ops : list (hop (B:=B) (M:=M) (P:=P))) : double * bool :=
  fold_left (fun c o => match o with OSetHorizon x => (x, true) | _ => c end) ops (hor, false).
Definition limits {B M P} (h : handler B M P) : double * double * double * double := (h_sec h, h_max h, h_ooo_max h, h_redo_max h).

Section Config.
Context {B M P : Type}.
Variable deleg : dict B M -> meas P -> dict B M * status.
Notation handler := (handler B M P).
Lemma redo_from_limits t (h : handler) : limits (fst (redo_from deleg t h)) = limits h.
Proof. unfold redo_from. destruct (get_latest_t _); [|reflexivity]. now destruct (if _ =? _ then _ else _) as [[? ?] ?]. Qed.
Lemma redo_after_limits t (h : handler) : limits (fst (redo_after deleg t h)) = limits h.
Proof.
  unfold redo_after. destruct (get_after_t _ _) as [[ta ?]|]; [|reflexivity]. destruct (get_latest_t _); [|reflexivity].
  now destruct (if _ =? _ then _ else _) as [[? ?] ?].
Qed.
Lemma serve_limits (h h' : handler) : serve_requests deleg h = Ok h' -> limits h' = limits h.
Proof.
  unfold serve_requests. destruct (check_horizon_from_t _ _ _) as [r| |]; cbn [obind]; try discriminate.
  destruct (get_oldest r) as [[t0 a]|]; [|now intros [= <-]]. destruct (get_oldest_t _) as [tm|]; [|now intros [= <-]].
  destruct (tm <? t0); [|now intros [= <-]]. intros [= <-]. destruct a; [now rewrite redo_after_limits|now rewrite redo_from_limits].
Qed.
Lemma process_limits viol disc m (h h' : handler) vec : process_gen deleg viol disc m h = Ok (h', vec) -> limits h' = limits h.
Proof.
  unfold process_gen. destruct (negb _); [now intros [= <- <-]|]. destruct (too_old _ _); [now intros [= <- <-]|].
  destruct (serve_requests deleg h) as [h1| |] eqn:Es; cbn [obind]; try discriminate. apply serve_limits in Es. rewrite <- Es.
  destruct (disc m h1); [now intros [= <- <-]|]. destruct (check_horizon_from_t _ _ _) as [flags| |]; cbn [obind]; try discriminate.
  destruct (_ || _).
  - destruct (check_horizon _ _) as [l| |]; cbn [obind]; try discriminate. intros [= E].
    match goal with E : redo_from _ ?t0 ?h3 = _ |- _ => pose proof (redo_from_limits t0 h3) as L; rewrite E in L; exact L end.
  - destruct (h_delegate _ _ _) as [d' r]. destruct (negb _); [|now intros [= <- <-]].
    destruct (check_horizon _ _) as [l| |]; cbn [obind]; try discriminate. now intros [= <- <-].
Qed.
End Config.
Theorem C71_horizons_in_force :
  forall (B M P : Type) (deleg : dict B M -> meas P -> dict B M * status) (hor : double) ops (h : handler B M P),
  hrun deleg (new_handler hor) ops = Ok h ->
  let (x, by_setter) := configured hor ops in
  h_sec h = x /\ h_max h = Babs x /\ h_ooo_max h = Babs (d_mul x (if by_setter then d_half else d_quarter)) /\ h_redo_max h = Babs (d_mul x d_half).
Proof.
  intros B M P deleg hor ops h. unfold configured.
  assert (G : forall ops (h0 : handler B M P) (c : double * bool),
    (let (x, s) := c in limits h0 = (x, Babs x, Babs (d_mul x (if s then d_half else d_quarter)), Babs (d_mul x d_half))) ->
    hrun deleg h0 ops = Ok h ->
    let (x, s) := fold_left (fun c (o : hop (B:=B) (M:=M) (P:=P)) => match o with OSetHorizon x => (x, true) | _ => c end) ops c in
    limits h = (x, Babs x, Babs (d_mul x (if s then d_half else d_quarter)), Babs (d_mul x d_half))).
  { clear. induction ops as [|o r IH]; intros h0 c L E; [injection E as <-; exact L|]. cbn [hrun] in E.
    destruct (hstep deleg h0 o) as [h1| |] eqn:Es; cbn [obind] in E; try discriminate. cbn [fold_left]. apply (IH h1); [|exact E].
    destruct o; cbn [hstep] in Es; try (destruct c as [x0 s0]; rewrite <- L).
    - destruct (process deleg m h0) as [[h2 v]| |] eqn:Ep; cbn [omap obind] in Es; try discriminate. injection Es as <-. exact (process_limits deleg _ _ m h0 h2 v Ep).
    - injection Es as <-. unfold add. now destruct (exists_id _ _).
    - injection Es as <-. unfold remove. now destruct (get_inst _ _).
    - injection Es as <-. reflexivity.
    - injection Es as <-. reflexivity.
    - injection Es as <-. reflexivity.
    - injection Es as <-. reflexivity.
    - unfold schedule_redo in Es. destruct (check_horizon _ _) as [q| |]; cbn [obind] in Es; try discriminate. now injection Es as <-.
    - injection Es as <-. apply redo_after_limits. }
  intros E. specialize (G ops (new_handler hor) (hor, false) eq_refl E).
  destruct (fold_left _ ops (hor, false)) as [x s]. unfold limits in G. now injection G.
Qed.
(** in seconds: the measurement history keeps the horizon, requests half of it, out-of-order flags a quarter of it, or half of it
    once the horizon has been set again *)
Lemma d_quarter_spec : (B2R d_quarter = / 4 /\ is_finite d_quarter = true)%R.
Proof.
  destruct (d_of_Z_exact 1) as [E1 F1]; [lia|]. destruct (d_of_Z_exact 4) as [E2 F2]; [lia|].
  pose proof (Bdiv_correct prec64 emax64 _ _ mode_NE (d_of_Z 1) (d_of_Z 4)) as C.
  rewrite E2, E1 in C. specialize (C ltac:(lra)). simpl round_mode in C.
  assert (X : (rnd (1 / 4) = / 4)%R).
  { replace (1 / 4)%R with (bpow radix2 (-2)) by (simpl; lra). replace (/ 4)%R with (bpow radix2 (-2)) by (simpl; lra).
    apply round_generic; [typeclasses eauto|]. apply generic_format_bpow. vm_compute. discriminate. }
  rewrite Rlt_bool_true in C.
  - destruct C as [A [D _]]. split; [unfold d_quarter; rewrite A; exact X|]. unfold d_quarter. now rewrite D.
  - apply rnd_abs_bound. rewrite Rabs_pos_eq by lra. apply Rle_trans with 1%R; [lra|]. apply IZR_le. lia.
Qed.
Lemma scale_exact x y e : is_finite x = true -> is_finite y = true -> B2R y = bpow radix2 e -> -2 <= e <= 0 ->
  (bpow radix2 (-500) <= Rabs (B2R x) <= bpow radix2 100)%R -> (B2R (Babs (d_mul x y)) = Rabs (B2R x) * bpow radix2 e)%R.
Proof.
  intros Fx Fy Ey He [L U]. rewrite B2R_Babs. destruct (d_mul_spec x y Fx Fy) as [E _].
  - rewrite Ey, Rabs_mult, (Rabs_pos_eq (bpow _ _)) by apply bpow_ge_0. change (IZR (2 ^ 100)) with (bpow radix2 100).
    rewrite <- (Rmult_1_r (bpow radix2 100)). apply Rmult_le_compat; [apply Rabs_pos|apply bpow_ge_0|exact U|]. change 1%R with (bpow radix2 0). apply bpow_le. lia.
  - rewrite E, Ey. rewrite round_generic; [|typeclasses eauto|].
    + rewrite Rabs_mult, (Rabs_pos_eq (bpow _ _)) by apply bpow_ge_0. reflexivity.
    + apply Mult_error.mult_bpow_exact_FLT; [apply generic_format_B2R|]. assert (M : -499 <= mag radix2 (B2R x)).
      { apply mag_ge_bpow. exact L. }
      unfold prec64, emax64, SpecFloat.emin in *; lia.
Qed.
Theorem C71_horizons_in_seconds :
  forall (B M P : Type) (deleg : dict B M -> meas P -> dict B M * status) (hor : double) ops (h : handler B M P),
  hrun deleg (new_handler hor) ops = Ok h ->
  let (x, by_setter) := configured hor ops in
  is_finite x = true -> (bpow radix2 (-500) <= Rabs (B2R x) <= bpow radix2 100)%R ->
  (B2R (h_max h) = Rabs (B2R x) /\ B2R (h_redo_max h) = Rabs (B2R x) / 2 /\
   B2R (h_ooo_max h) = if by_setter then Rabs (B2R x) / 2 else Rabs (B2R x) / 4)%R.
Proof.
  intros B M P deleg hor ops h E. pose proof (C71_horizons_in_force _ _ _ deleg hor ops h E) as C. destruct (configured hor ops) as [x s].
  destruct C as [_ [-> [-> ->]]]. intros Fx Bx. destruct d_half_spec as [V FV], d_quarter_spec as [W FW].
  assert (V' : B2R d_half = bpow radix2 (-1)) by (rewrite V; simpl; lra).
  assert (W' : B2R d_quarter = bpow radix2 (-2)) by (rewrite W; simpl; lra).
  split; [apply B2R_Babs|]. split; [rewrite (scale_exact x d_half (-1)) by (auto; lia); simpl; lra|].
  destruct s; [rewrite (scale_exact x d_half (-1)) by (auto; lia)|rewrite (scale_exact x d_quarter (-2)) by (auto; lia)]; simpl; lra.
Qed.

(** ** the measurement history never spans more than the horizon *)
Definition spans_at_most {P} (hz : Z) (l : buf (meas P)) : Prop := forall a b, In a l -> In b l -> fst a - fst b <= hz.
Lemma sort_sub {P} t (l : buf (meas P)) e : wsorted l -> keyed_ok l -> In e (sort_from t l) -> In e l.
Proof.
  intros W K I. destruct (sort_from_spec t l W K) as [_ E]. apply elements_at_all in I. rewrite E in I. apply elements_at_all.
  destruct (fst e <? t); [exact I|]. destruct (existsb _ l); [|exact I]. now apply by_type_In in I.
Qed.
Lemma check_spans {P} h hz (l l' : buf (meas P)) : wsorted l -> h_near h hz -> 0 <= hz < 2097151 * 1000000000 ->
  (forall e, In e l -> 0 <= fst e < 2097151 * 1000000000) -> check_horizon h l = Ok l' ->
  spans_at_most hz l' /\ wsorted l' /\ forall e, In e l' -> In e l.
Proof.
  intros W N Hh Hl E. assert (D : l = [] \/ l <> []) by (destruct l; [now left|right; discriminate]). destruct D as [->|D].
  - cbn in E. injection E as <-. split; [intros ? ? []|]. split; [constructor|intros ? []].
  - destruct (nonempty_latest l D) as [a La]. rewrite (check_horizon_exact _ hz a) in E by auto.
    destruct (latest_t_spec _ _ W La) as [_ Mx]. unfold trimmed in E. assert (E' : l' = filter (fun e => a - hz <=? fst e) l) by congruence. subst l'. split; [|split].
    + intros p q Ip Iq. apply filter_In in Ip, Iq. destruct Ip as [Ip _], Iq as [_ Lq]. specialize (Mx _ Ip). lia.
    + now apply wsorted_filter.
    + intros e I. now apply filter_In in I.
Qed.
(** one measurement: the history is left alone or ends up within the horizon in force *)
Lemma process_spans {B M P} deleg disc m (h h' : handler B M P) vec hz : hinv h -> h_near (h_max h) hz -> 0 <= hz < 2097151 * 1000000000 ->
  (forall e, In e (h_meas h) -> 0 <= fst e < 2097151 * 1000000000) -> 0 <= m_t m < 2097151 * 1000000000 ->
  process_gen deleg order_violated disc m h = Ok (h', vec) ->
  h_meas h' = h_meas h \/ (spans_at_most hz (h_meas h') /\ forall e, In e (h_meas h') -> e = (m_t m, m) \/ In e (h_meas h)).
Proof.
  intros [So Sf Sr] N Hh Hl Hm. assert (W : wsorted (h_meas h)) by apply So. unfold process_gen.
  destruct (negb _); [intros [= <- <-]; now left|].
  destruct (too_old m (h_meas h)); [intros [= <- <-]; now left|].
  destruct (serve_requests deleg h) as [h1| |] eqn:Es; cbn [obind]; try discriminate.
  destruct (serve_fields deleg h h1 W Sf Sr Es) as [A1 [A2 [A3 [A4 [A5 [A6 A7]]]]]].
  destruct (disc m h1); [intros [= <- <-]; now left|].
  destruct (check_horizon_from_t _ _ _) as [flags| |] eqn:Cf; cbn [obind]; try discriminate.
  assert (Wi : wsorted (mb_insert (m_t m) m (h_meas h))) by (now apply mb_insert_wsorted).
  assert (Hi : forall e, In e (mb_insert (m_t m) m (h_meas h)) -> e = (m_t m, m) \/ In e (h_meas h)).
  { intros e I. now apply mb_insert_In in I. }
  assert (Ti : forall e, In e (mb_insert (m_t m) m (h_meas h)) -> 0 <= fst e < 2097151 * 1000000000).
  { intros e I. destruct (Hi e I) as [->|J]; [exact Hm|now apply Hl]. }
  assert (Ki : keyed_ok (mb_insert (m_t m) m (h_meas h))).
  { intros e I. destruct (Hi e I) as [->|J]; [reflexivity|now apply So]. }
  rewrite A1. set (b := hb_exist_before_t (m_t m) flags || exist_at_t (m_t m) flags).
  destruct (order_violated m (h_meas h) || b).
  - cbn [h_meas set_ooo h_max]. rewrite A1, A3. destruct (check_horizon _ _) as [l| |] eqn:Ch; cbn [obind]; try discriminate.
    destruct (check_spans _ hz _ _ Wi N Hh Ti Ch) as [Sp [Wl Sub]].
    set (t0 := if b then _ else _). set (h3 := set_meas _ _). intros [= E]. right.
    assert (Kl : keyed_ok l) by (intros e I; apply Ki; now apply Sub).
    assert (W3 : wsorted (h_meas h3)) by (apply (sort_from_spec t0 l Wl Kl)).
    destruct (redo_from_fields deleg t0 h3 W3) as [B1 _]. rewrite E in B1. cbn [fst] in B1. rewrite B1. cbn [h3 h_meas set_meas].
    assert (S2 : forall e, In e (sort_from t0 l) -> In e l) by (intros e; now apply sort_sub).
    split; [intros p q Ip Iq; apply Sp; now apply S2|]. intros e I. apply Hi. apply Sub. now apply S2.
  - destruct (h_delegate deleg _ m) as [d' r]. destruct (negb (is_disc _)).
    + cbn [h_meas h_max set_dict set_ooo]. rewrite A1, A3. destruct (check_horizon _ _) as [l| |] eqn:Ch; cbn [obind]; try discriminate.
      destruct (check_spans _ hz _ _ Wi N Hh Ti Ch) as [Sp [Wl Sub]]. intros [= <- <-]. right. cbn. split; [exact Sp|].
      intros e I. apply Hi. now apply Sub.
    + intros [= <- <-]. left. cbn. exact A1.
Qed.
(** the times in a call *)
Definition timely {B M P} (o : hop (B:=B) (M:=M) (P:=P)) : Prop :=
  match o with OProcess m => 0 <= m_t m < 2097151 * 1000000000 | OInsert _ => False | _ => True end.
Lemma hstep_meas {B M P} deleg (h h' : handler B M P) o : hinv h -> hstep deleg h o = Ok h' ->
  match o with OProcess _ | OInsert _ => True | OResetBuffer => h_meas h' = [] | _ => h_meas h' = h_meas h end.
Proof.
  intros I. destruct o; cbn [hstep]; intros E; try exact Logic.I.
  - injection E as <-. unfold add. now destruct (exists_id _ _).
  - injection E as <-. unfold remove. now destruct (get_inst _ _).
  - now injection E as <-.
  - now injection E as <-.
  - now injection E as <-.
  - unfold schedule_redo in E. destruct (check_horizon _ _) as [q| |]; cbn [obind] in E; try discriminate. now injection E as <-.
  - injection E as <-. now destruct (redo_after_fields deleg t h (proj1 (hi_ord _ I))).
Qed.
Theorem C71_history_within_horizon :
  forall (B M P : Type) (deleg : dict B M -> meas P -> dict B M * status) (hor : double) (hz : Z) ops (h : handler B M P),
  h_near (Babs hor) hz -> 0 <= hz < 2097151 * 1000000000 ->
  (forall o, In o ops -> timely o) -> (forall x, ~ In (OSetHorizon x) ops) ->
  hrun deleg (new_handler hor) ops = Ok h -> spans_at_most hz (h_meas h).
Proof.
  intros B M P deleg hor hz ops h N Hh T NS.
  assert (G : forall ops (h0 : handler B M P), (forall o, In o ops -> timely o) -> (forall x, ~ In (OSetHorizon x) ops) ->
     hinv h0 -> h_max h0 = Babs hor -> (forall e, In e (h_meas h0) -> 0 <= fst e < 2097151 * 1000000000) -> spans_at_most hz (h_meas h0) ->
     hrun deleg h0 ops = Ok h -> spans_at_most hz (h_meas h)).
  { clear T NS ops. induction ops as [|o r IH]; intros h0 T NS I Mx Tm Sp E; [injection E as <-; exact Sp|]. cbn [hrun] in E.
    destruct (hstep deleg h0 o) as [h1| |] eqn:Es; cbn [obind] in E; try discriminate.
    assert (To : timely o) by (apply T; now left).
    assert (No : never_raw_insert o) by (now destruct o).
    assert (I1 : hinv h1) by exact (hstep_inv deleg h0 h1 o No I Es).
    assert (M1 : h_max h1 = Babs hor).
    { rewrite <- Mx. destruct o; cbn [hstep] in Es; cbn in To.
      - destruct (process deleg m h0) as [[h2 v]| |] eqn:Ep; cbn [omap obind] in Es; try discriminate. injection Es as <-.
        apply process_limits in Ep. unfold limits in Ep. now injection Ep.
      - injection Es as <-. unfold add. now destruct (exists_id _ _).
      - injection Es as <-. unfold remove. now destruct (get_inst _ _).
      - exfalso. apply (NS x). now left.
      - now injection Es as <-.
      - now injection Es as <-.
      - contradiction.
      - unfold schedule_redo in Es. destruct (check_horizon _ _) as [q| |]; cbn [obind] in Es; try discriminate. now injection Es as <-.
      - injection Es as <-. pose proof (redo_after_limits deleg t h0) as L. unfold limits in L. now injection L. }
    assert (Q : spans_at_most hz (h_meas h1) /\ forall e, In e (h_meas h1) -> 0 <= fst e < 2097151 * 1000000000).
    { pose proof (hstep_meas deleg h0 h1 o I Es) as Hm. destruct o; cbn [hstep] in Es; cbn in To; try contradiction; try (rewrite Hm; now split).
      - destruct (process deleg m h0) as [[h2 v]| |] eqn:Ep; cbn [omap obind] in Es; try discriminate. injection Es as <-.
        assert (N0 : h_near (h_max h0) hz) by (now rewrite Mx).
        destruct (process_spans deleg _ m h0 h2 v hz I N0 Hh Tm To Ep) as [->|[Q1 Q2]]; [now split|]. split; [exact Q1|].
        intros e Ie. destruct (Q2 e Ie) as [->|J]; [exact To|now apply Tm]. }
    apply (IH h1); try tauto; [intros x Ix; apply T; now right|intros x Ix; apply (NS x); now right]. }
  apply (G ops (new_handler hor)); auto; [apply new_inv|intros ? []|intros ? ? []].
Qed.
(** also after the horizon was changed: the next stored measurement enforces it *)
Theorem C71_new_horizon_enforced :
  forall (B M P : Type) (deleg : dict B M -> meas P -> dict B M * status) (x : double) (hz : Z) (h h' : handler B M P) m vec,
  h_near (Babs x) hz -> 0 <= hz < 2097151 * 1000000000 -> hinv h ->
  (forall e, In e (h_meas h) -> 0 <= fst e < 2097151 * 1000000000) -> 0 <= m_t m < 2097151 * 1000000000 ->
  process deleg m (h_set_horizon x h) = Ok (h', vec) -> h_meas h' = h_meas h \/ spans_at_most hz (h_meas h').
Proof.
  intros B M P deleg x hz h h' m vec N Hh I Tm Hm E.
  assert (I1 : hinv (h_set_horizon x h)) by (destruct I; now constructor).
  destruct (process_spans deleg _ m (h_set_horizon x h) h' vec hz I1 N Hh Tm Hm E) as [Q|[Q _]]; [left; exact Q|now right].
Qed.

(** ** resets *)
(** reset empties every instance's beliefs and cross-covariance factors, and nothing else *)
Theorem C71_reset :
  forall (B M P : Type) (h : handler B M P) (id : nat),
  let h' := h_reset h in
  exists_id id h' = exists_id id h /\ get_instance_ids h' = get_instance_ids h /\
  (forall i, get_inst id h = Some i -> exists i', get_inst id h' = Some i' /\ i_enabled i' = i_enabled i /\ i_bel i' = [] /\ i_ccf i' = []) /\
  h_meas h' = h_meas h /\ h_ooo h' = h_ooo h /\ h_redo h' = h_redo h /\ limits h' = limits h.
Proof.
  intros B M P h id h'. unfold h', h_reset, exists_id, get_instance_ids, get_inst. cbn [h_dict set_dict].
  assert (G : d_find id (map (fun e : nat * inst B M => (fst e, Inst (i_enabled (snd e)) [] [] : inst B M)) (h_dict h)) = option_map (fun i => Inst (i_enabled i) [] []) (d_find id (h_dict h))).
  { induction (h_dict h) as [|[k i] r IH]; [reflexivity|]. cbn. destruct (k =? id)%nat; [reflexivity|exact IH]. }
  rewrite G. split; [now destruct (d_find id (h_dict h))|]. split; [rewrite map_map; reflexivity|].
  split; [intros i ->; eexists; split; [reflexivity|]; now cbn|]. now repeat split.
Qed.
(** reset_buffer forgets measurements, flags and requests, and leaves the instances and horizons alone *)
Theorem C71_reset_buffer :
  forall (B M P : Type) (h : handler B M P),
  let h' := reset_buffer h in
  h_meas h' = [] /\ h_ooo h' = [] /\ h_redo h' = [] /\ h_dict h' = h_dict h /\ limits h' = limits h.
Proof. intros. now repeat split. Qed.
(** set_horizon itself removes nothing *)
Theorem C71_set_horizon_keeps :
  forall (B M P : Type) (h : handler B M P) x,
  let h' := h_set_horizon x h in
  h_meas h' = h_meas h /\ h_ooo h' = h_ooo h /\ h_redo h' = h_redo h /\ h_dict h' = h_dict h.
Proof. intros. now repeat split. Qed.

(** a run with trimming: horizon 10 s, measurements at 0 s, 5 s, 12 s and, late, 8 s *)
Definition c71_ops : list (@hop Z unit Z) :=
  [OAdd 0 (Inst true [(-1, 100)] []); OProcess (Meas 0 0 PROPAGATION 1); OProcess (Meas 0 5000000000 PRIVATE 5);
   OProcess (Meas 0 12000000000 PRIVATE 2); OProcess (Meas 0 8000000000 PRIVATE 1)].
Definition c71_deleg (d : dict Z unit) (m : meas Z) : dict Z unit * status := (d, PROCESSED).
Example C71_example : (forall o, In o c71_ops -> timely o) /\ h_near (Babs (d_of_Z 10)) 10000000000 /\ (forall x, ~ In (OSetHorizon x) c71_ops) /\
  option_map (map fst) (match hrun c71_deleg (new_handler (d_of_Z 10)) c71_ops with Ok h => Some (h_meas h) | _ => None end) = Some [5000000000; 8000000000; 12000000000].
Proof.
  split; [|split; [|split]].
  - intros o H. cbn in H. repeat (destruct H as [<-|H]); try contradiction; cbn; lia.
  - destruct (d_of_Z_exact 10) as [E F]; [lia|]. split; [now rewrite is_finite_Babs|]. rewrite B2R_Babs, E, (Rabs_pos_eq 10) by lra.
    replace (10 * 1000000000 - 10000000000)%R with 0%R by lra. rewrite Rabs_R0. lra.
  - intros x H. cbn in H. repeat (destruct H as [H|H]; [discriminate|]). contradiction.
  - vm_compute. reflexivity.
Qed.
Print Assumptions C71_horizons_in_seconds.
Print Assumptions C71_history_within_horizon.
Print Assumptions C71_reset.
