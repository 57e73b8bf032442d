(** C102: no history of calls makes the handler's own code fail. *)
From Coq Require Import ZArith List Bool Reals Lra Lia Arith.
From Flocq Require Import Core IEEE754.BinarySingleNaN.
From Verif Require Import Outcome TimestampModel DoubleModel Spec_Time TimestampProofs DoubleProofs BufModel Spec_Buf BufProofs HorizonModel HorizonProofs EpochProofs MeasModel HandlerModel KeepProofs CorrTime Spec_Defined.
Import ListNotations.
Local Open Scope Z_scope.
Local Open Scope outcome_scope.

Definition tkeys {T} (l : buf T) : Prop := forall e, In e l -> timely (fst e).
Definition tmeas {P} (l : buf (meas P)) : Prop := forall e, In e l -> timely (fst e) /\ timely (m_t (snd e)).
Definition hgood (h : double) : Prop := is_finite h = true -> (0 <= B2R h <= 9000000000)%R.

Lemma d_quarter_spec : B2R d_quarter = (/ 4)%R /\ is_finite d_quarter = true.
Proof.
  destruct (d_of_Z_exact 1) as [E1 F1]; [lia|]. destruct (d_of_Z_exact 4) as [E2 F2]; [lia|].
  pose proof (Bdiv_correct prec64 emax64 _ _ mode_NE (d_of_Z 1) (d_of_Z 4)) as C.
  rewrite E2, E1 in C. specialize (C ltac:(lra)). simpl round_mode in C.
  assert (X : rnd (1 / 4) = (/ 4)%R).
  { replace (1 / 4)%R with (bpow radix2 (-2)) by (simpl; lra). replace (/ 4)%R with (bpow radix2 (-2)) by (simpl; lra).
    apply round_generic; [typeclasses eauto|]. apply generic_format_bpow. vm_compute. discriminate. }
  rewrite Rlt_bool_true in C.
  - destruct C as [A [D _]]. split; [unfold d_quarter; rewrite A; exact X|]. unfold d_quarter. now rewrite D.
  - apply rnd_abs_bound. rewrite Rabs_pos_eq by lra. apply Rle_trans with 1%R; [lra|]. apply IZR_le. lia.
Qed.
Lemma hgood_abs x : usable_horizon x -> hgood (set_horizon x).
Proof.
  intros H. unfold hgood, set_horizon. rewrite is_finite_Babs, B2R_Babs. intros F. split; [apply Rabs_pos|exact (H F)].
Qed.
Lemma usable_mul x c : usable_horizon x -> is_finite c = true -> (0 <= B2R c <= 1)%R -> usable_horizon (d_mul x c).
Proof.
  intros H Fc Hc F0. destruct (is_finite x) eqn:F.
  2:{ exfalso. destruct x as [s|s| |s m e b]; try discriminate F; destruct c; discriminate. }
  specialize (H F). apply Rabs_le_inv in H.
  assert (K : (IZR (-9000000000) <= B2R x * B2R c <= IZR 9000000000)%R) by nra.
  destruct (d_mul_spec x c F Fc) as [E F2]. { apply Rabs_le. assert (IZR 9000000000 <= IZR (2 ^ 100))%R by (apply IZR_le; lia). lra. }
  rewrite E. apply Rabs_le. destruct (rnd_between (-9000000000) 9000000000 _ ltac:(lia) ltac:(lia) K). lra.
Qed.
Lemma timely_max t : timely t -> 0 <= t < epoch_max. Proof. exact (fun x => x). Qed.
Lemma sub_infinite x h : is_finite h = false -> is_finite (d_sub x h) = false.
Proof. destruct h as [s|s| |s m e b]; try discriminate; destruct x as [s'|s'| |s' m' e' b']; try reflexivity. destruct s, s'; reflexivity. Qed.
Lemma from_total {T} h t (l : buf T) : hgood h -> timely t -> exists l', check_horizon_from_t h (from_stamp_ns t) l = Ok l'.
Proof.
  intros H Ht. destruct (is_finite h) eqn:F; [specialize (H F); apply trim_defined; [exact F|lra|now apply timely_max]|].
  unfold check_horizon_from_t, trim_from. destruct (negb _); [|eauto]. unfold from_sec. rewrite (sub_infinite _ _ F). cbn [andb obind].
  replace (stamp_ns ts_zero) with (Ok 0 : outcome Z) by reflexivity. cbn [obind]. eauto.
Qed.
Lemma latest_in {T} (l : buf T) a : get_latest_t l = Some a -> exists v, In (a, v) l.
Proof.
  unfold get_latest_t, get_latest. destruct (negb (empty l)); [|discriminate].
  destruct (nth_error l (length l - 1)) as [[k v]|] eqn:E; [|discriminate]. intros [= <-]. exists v. exact (nth_error_In _ _ E).
Qed.
Lemma oldest_in {T} (l : buf T) a v : get_oldest l = Some (a, v) -> In (a, v) l.
Proof. unfold get_oldest. destruct (negb (empty l)); [|discriminate]. apply nth_error_In. Qed.
Lemma trim_total {T} h t (l : buf T) : hgood h -> timely t -> l <> [] -> exists l', trim_from h (from_stamp_ns t) l = Ok l'.
Proof.
  intros Hh Ht N. destruct (from_total h t l Hh Ht) as [l' E]. exists l'. unfold check_horizon_from_t in E.
  destruct l; [now destruct N|exact E].
Qed.
Lemma horizon_total {T} h (l : buf T) : hgood h -> tkeys l -> exists l', check_horizon h l = Ok l'.
Proof.
  intros Hh K. unfold check_horizon. destruct (_ && _) eqn:X; [|eauto]. destruct (get_latest_t l) as [a|] eqn:E; [|eauto].
  destruct (latest_in l a E) as [v I]. apply trim_total; [exact Hh|exact (K _ I)|]. now intros ->.
Qed.
Lemma in_check_from {T} h t (l l' : buf T) e : check_horizon_from_t h t l = Ok l' -> In e l' -> In e l.
Proof. unfold check_horizon_from_t. destruct (negb _); [apply in_trim_from|intros [= <-]; auto]. Qed.

Section Total.
Context {B M P : Type}.
Variable deleg : dict B M -> meas P -> dict B M * status.
Notation handler := (handler B M P).
Definition TInv (h : handler) : Prop :=
  tmeas (h_meas h) /\ tkeys (h_ooo h) /\ tkeys (h_redo h) /\ hgood (h_max h) /\ hgood (h_ooo_max h) /\ hgood (h_redo_max h).
Lemma t_hb {T} t (v : T) l : timely t -> tkeys l -> tkeys (hb_insert t v l).
Proof. intros Ht K e He. apply in_hb_insert in He. destruct He as [->|He]; [exact Ht|exact (K _ He)]. Qed.
Lemma t_mb (m : meas P) l : timely (m_t m) -> tmeas l -> tmeas (mb_insert (m_t m) m l).
Proof. intros Ht K e He. apply in_mb_insert in He. destruct He as [->|He]; [now split|exact (K _ He)]. Qed.
Lemma tm_keys (l : buf (meas P)) : tmeas l -> tkeys l. Proof. intros K e He. exact (proj1 (K _ He)). Qed.
Lemma t_type ty ms (l : buf (meas P)) : tmeas ms -> tmeas l -> tmeas (insert_type ty ms l).
Proof.
  intros Om O. unfold insert_type, foreach, accumulate.
  apply (fold_inv tmeas); [|exact O]. intros s [k x] Hx Os. cbn [snd]. destruct (obs_eqb _ _); [|exact Os]. apply t_mb; [exact (proj2 (Om _ Hx))|exact Os].
Qed.
Lemma t_sort t (l : buf (meas P)) : tmeas l -> tmeas (sort_from t l).
Proof.
  intros O. unfold sort_from. destruct (get_latest_t l) as [tl|]; [|exact O]. destruct (negb _); [|exact O].
  assert (Om : tmeas (mb_get_between t tl l)) by (intros e Hx; apply in_get_between in Hx; exact (O _ Hx)).
  repeat (apply t_type; [exact Om|]). intros e Hx. apply in_remove_at, in_remove_after in Hx. exact (O _ Hx).
Qed.
Lemma t_step s (m : meas P) : timely (m_t m) -> tkeys (snd (fst s)) -> tkeys (snd (fst (replay_step deleg s m))).
Proof.
  intros Ht. destruct s as [[d o] v]. cbn [fst snd]. intros K. unfold replay_step. destruct (empty o || _).
  - destruct (h_delegate deleg d m) as [d' r]. cbn [fst snd]. destruct (is_ooo _); [now apply t_hb|exact K].
  - now apply t_hb.
Qed.
Lemma t_nil {T} : tkeys (@nil (Z * T)). Proof. intros e []. Qed.
Lemma t_redo_from t h : TInv h -> TInv (fst (redo_from deleg t h)).
Proof.
  intros (O & K & R & H1 & H2 & H3). unfold redo_from.
  destruct (get_latest_t (h_meas h)) as [tl|]; [|repeat (split; [first [assumption|exact t_nil]|]); assumption].
  set (s := if t =? tl then _ else _).
  assert (Gs : tkeys (snd (fst s))).
  { subst s. destruct (t =? tl).
    - apply (fold_inv (fun s => tkeys (snd (fst s)))); [|exact t_nil]. intros s x Hx Gs. apply t_step; [|exact Gs].
      apply in_all_at in Hx. destruct Hx as [k Hk]. exact (proj2 (O _ Hk)).
    - apply (between_inv (fun s => tkeys (snd (fst s)))); [|exact t_nil]. intros s x [k Hk] Gs. apply t_step; [exact (proj2 (O _ Hk))|exact Gs]. }
  destruct s as [[d' ooo] vec]. repeat (split; [assumption|]). assumption.
Qed.
Lemma t_redo_after t h : TInv h -> TInv (fst (redo_after deleg t h)).
Proof.
  intros (O & K & R & H1 & H2 & H3). unfold redo_after.
  destruct (get_after_t t (h_meas h)) as [[ta ma]|]; [|repeat (split; [first [assumption|exact t_nil]|]); assumption].
  destruct (get_latest_t (h_meas h)) as [tl|]; [|repeat (split; [first [assumption|exact t_nil]|]); assumption].
  set (s := if ta =? tl then _ else _).
  assert (Gs : tkeys (snd (fst s))).
  { subst s. destruct (ta =? tl).
    - apply (fold_inv (fun s => tkeys (snd (fst s)))); [|exact t_nil]. intros s x Hx Gs. apply t_step; [|exact Gs].
      apply in_all_at in Hx. destruct Hx as [k Hk]. exact (proj2 (O _ Hk)).
    - apply (between_inv (fun s => tkeys (snd (fst s)))); [|exact t_nil]. intros s x [k Hk] Gs. apply t_step; [exact (proj2 (O _ Hk))|exact Gs]. }
  destruct s as [[d' ooo] vec]. repeat (split; [assumption|]). assumption.
Qed.
Lemma t_serve h : TInv h -> exists h', serve_requests deleg h = Ok h' /\ TInv h'.
Proof.
  intros V. destruct V as (O & K & R & H1 & H2 & H3). unfold serve_requests.
  set (tl := match get_latest_t (h_meas h) with Some t => t | None => 0 end).
  assert (Tl : timely tl).
  { subst tl. destruct (get_latest_t (h_meas h)) as [a|] eqn:E; [|unfold timely; lia]. destruct (latest_in _ _ E) as [v I]. exact (proj1 (O _ I)). }
  destruct (from_total (h_redo_max h) tl (h_redo h) H3 Tl) as [r E]. rewrite E. cbn [obind].
  assert (Kr : tkeys r) by (intros e He; exact (R _ (in_check_from _ _ _ _ _ E He))).
  destruct (get_oldest r) as [[to af]|]; [|eexists; split; [reflexivity|]; repeat (split; [assumption|]); assumption].
  assert (V1 : TInv (set_redo [] h)) by (repeat (split; [first [assumption|exact t_nil]|]); assumption).
  destruct (get_oldest_t (h_meas h)) as [tm|]; [|eauto].
  destruct (tm <? to); [|eauto]. eexists; split; [reflexivity|]. destruct af; [now apply t_redo_after|now apply t_redo_from].
Qed.
Lemma t_process viol disc m h : timely (m_t m) -> TInv h -> exists h' rs, process_gen deleg viol disc m h = Ok (h', rs) /\ TInv h'.
Proof.
  intros Tm V. unfold process_gen. destruct (negb (exists_id _ _)); [eauto|]. destruct (too_old m (h_meas h)); [eauto|].
  destruct (t_serve h V) as [h1 [E1 V1]]. rewrite E1. cbn [obind]. destruct (disc m h1); [eauto|].
  destruct V1 as (O & K & R & H1 & H2 & H3).
  destruct (from_total (h_ooo_max h1) (m_t m) (h_ooo h1) H2 Tm) as [fl E]. rewrite E. cbn [obind].
  assert (Kf : tkeys fl) by (intros e He; exact (K _ (in_check_from _ _ _ _ _ E He))).
  assert (Oi : tmeas (mb_insert (m_t m) m (h_meas h1))) by now apply t_mb.
  destruct (horizon_total (h_max h1) _ H1 (tm_keys _ Oi)) as [l El].
  assert (Ol : tmeas l) by (intros e He; exact (Oi _ (in_check_horizon _ _ _ _ El He))).
  set (ex := _ || exist_at_t _ fl). destruct (viol m (h_meas h1) || ex).
  - cbn [set_ooo h_meas h_max]. rewrite El. cbn [obind]. set (ts := if ex then _ else _). set (h4 := set_meas (sort_from ts l) _).
    assert (V4 : TInv h4).
    { split; [now apply t_sort|]. split; [cbn; destruct ex; [exact t_nil|exact Kf]|]. repeat (split; [assumption|]). assumption. }
    pose proof (t_redo_from ts h4 V4) as V5. destruct (redo_from deleg ts h4) as [h5 v5]. eauto.
  - destruct (h_delegate deleg (h_dict (set_ooo fl h1)) m) as [d' r]. 
    assert (K2 : tkeys (if is_ooo (r_status r) then hb_insert (m_t m) true fl else fl)) by (destruct (is_ooo _); [now apply t_hb|exact Kf]).
    destruct (negb (is_disc (r_status r))).
    + cbn [set_ooo set_dict h_meas h_max]. rewrite El. cbn [obind]. eexists; eexists; split; [reflexivity|]. repeat (split; [assumption|]). assumption.
    + eexists; eexists; split; [reflexivity|]. repeat (split; [assumption|]). assumption.
Qed.
Lemma t_call o h : timely_call o -> TInv h -> exists h', hstep deleg h o = Ok h' /\ TInv h'.
Proof.
  intros Oo V. pose proof V as (O & K & R & H1 & H2 & H3). destruct o as [m|id i|id|x| | |m|t a|t]; cbn [hstep timely_call] in *.
  - destruct (t_process order_violated (fun _ _ => false) m h Oo V) as [h' [rs [E V']]]. unfold process. rewrite E. eexists; split; [reflexivity|exact V'].
  - eexists; split; [reflexivity|]. unfold add. destruct (exists_id id h); exact V.
  - eexists; split; [reflexivity|]. unfold remove. destruct (get_inst id h); exact V.
  - eexists; split; [reflexivity|]. destruct d_half_spec as [Eh Fh].
    pose proof (hgood_abs _ (usable_mul x d_half Oo Fh ltac:(rewrite Eh; lra))) as G2. pose proof (hgood_abs _ Oo) as G1. repeat (split; [assumption|]). assumption.
  - eexists; split; [reflexivity|]. split; [intros e []|]. repeat (split; [first [assumption|exact t_nil]|]). assumption.
  - eexists; split; [reflexivity|]. exact V.
  - eexists; split; [reflexivity|]. split; [now apply t_mb|]. repeat (split; [assumption|]). assumption.
  - unfold schedule_redo. assert (Kr : tkeys (hb_insert t a (h_redo h))) by now apply t_hb.
    destruct (horizon_total (h_redo_max h) _ H3 Kr) as [r E]. rewrite E. cbn [obind]. eexists; split; [reflexivity|].
    split; [assumption|]. split; [assumption|]. split; [intros e He; exact (Kr _ (in_check_horizon _ _ _ _ E He))|]. repeat (split; [assumption|]). assumption.
  - eexists; split; [reflexivity|]. now apply t_redo_after.
Qed.
Lemma t_new x : usable_horizon x -> TInv (new_handler x).
Proof.
  intros Hx. destruct d_half_spec as [Eh Fh]. destruct d_quarter_spec as [Eq Fq].
  pose proof (hgood_abs _ (usable_mul x d_half Hx Fh ltac:(rewrite Eh; lra))) as G2. pose proof (hgood_abs _ (usable_mul x d_quarter Hx Fq ltac:(rewrite Eq; lra))) as G3.
  pose proof (hgood_abs _ Hx) as G1. split; [intros e []|]. repeat (split; [first [assumption|exact t_nil]|]). assumption.
Qed.
Lemma t_run ops : forall h, (forall o, In o ops -> timely_call o) -> TInv h -> exists h', hrun deleg h ops = Ok h' /\ TInv h'.
Proof.
  induction ops as [|o r IH]; intros h Ho V; cbn [hrun]; [eauto|].
  destruct (t_call o h (Ho _ (or_introl eq_refl)) V) as [h1 [E V1]]. rewrite E. cbn [obind]. apply IH; [intros; apply Ho; now right|exact V1].
Qed.
End Total.

(** whatever the estimators answer, every history of calls goes through *)
Theorem C102_no_failure (B M P : Type) (deleg : dict B M -> meas P -> dict B M * status) (horizon : double) (calls : list hop) :
  usable_horizon horizon -> (forall c, In c calls -> timely_call c) -> exists h, hrun deleg (new_handler horizon) calls = Ok h.
Proof. intros Hh Hc. destruct (t_run deleg calls _ Hc (t_new horizon Hh)) as [h [E _]]. eauto. Qed.
(** and so does the next measurement, under any rule for violated order and for discarding *)
Theorem C102_next (B M P : Type) (deleg : dict B M -> meas P -> dict B M * status) (horizon : double) (calls : list hop) h viol disc m :
  usable_horizon horizon -> (forall c, In c calls -> timely_call c) -> hrun deleg (new_handler horizon) calls = Ok h -> timely (m_t m) ->
  exists h' rs, process_gen deleg viol disc m h = Ok (h', rs).
Proof.
  intros Hh Hc E Hm. destruct (t_run deleg calls _ Hc (t_new horizon Hh)) as [h0 [E0 V]]. rewrite E in E0. injection E0 as <-.
  destruct (t_process deleg viol disc m h Hm V) as [h' [rs [X _]]]. eauto.
Qed.
(** a longer finite horizon is not usable: with an open redo request the next measurement converts a number of seconds to an
    integer that does not hold it; here for 2^65 s *)
Definition long_horizon : double := d_of_Z (2 ^ 65).
Theorem C102_long_horizon (B M P : Type) (deleg : dict B M -> meas P -> dict B M * status) (i : inst B M) (t : Z) (m : meas P) (after : bool) :
  hrun deleg (new_handler long_horizon) [OAdd (m_id m) i; OSchedule t after; OProcess m] = UB FloatToIntRange.
Proof.
  assert (T0 : trim_from (set_horizon (d_mul long_horizon d_half)) (from_stamp_ns 0) [(t, after)] = UB FloatToIntRange).
  { unfold trim_from. replace (from_sec _) with (UB FloatToIntRange : outcome ts); [reflexivity|]. vm_compute. reflexivity. }
  cbn [hrun hstep obind add exists_id d_find h_dict new_handler fst].
  unfold schedule_redo. cbn [h_redo set_dict hb_insert new_handler]. unfold check_horizon at 1. cbn [empty negb andb h_redo_max].
  match goal with |- context [Bltb ?x ?y] => replace (Bltb x y) with false by (vm_compute; reflexivity) end. cbn [obind].
  set (h := set_redo [(t, after)] _).
  assert (X : exists_id (m_id m) h = true) by (unfold exists_id; cbn [h set_redo set_dict h_dict d_find]; now rewrite Nat.eqb_refl).
  assert (S0 : serve_requests deleg h = UB FloatToIntRange).
  { unfold serve_requests. change (h_meas h) with (@nil (Z * meas P)). change (h_redo h) with [(t, after)].
    change (h_redo_max h) with (set_horizon (d_mul long_horizon d_half)). cbn [get_latest_t get_latest empty negb option_map].
    unfold check_horizon_from_t. cbn [empty negb]. rewrite T0. reflexivity. }
  unfold process, process_gen. rewrite X. cbn [negb]. change (too_old m (h_meas h)) with false. cbn iota. rewrite S0. reflexivity.
Qed.
(** a history of the kind the first theorem ranges over: delayed measurements, a redo request, a shorter horizon, a raw insertion *)
Definition calls102 (m : Z -> meas unit) : list (@hop unit unit unit) :=
  [OAdd 1 (Inst true [(5, tt)] []); OProcess (m 10); OProcess (m 2000000000000000000); OProcess (m 8); OSchedule 9 true; OSetHorizon (d_of_Z 20);
   OProcess (m 2000000000000000001); OInsert (m 1); ORedoAfter 0; OProcess (m 2000000000000000000); ORemove 1; OReset; OResetBuffer].
Example C102_example : usable_horizon (d_of_Z 10) /\ usable_horizon (B754_infinity false) /\ forall c, In c (calls102 (fun t => Meas 1 t PROPAGATION tt)) -> timely_call c.
Proof.
  assert (U : forall z, Z.abs z <= 9000000000 -> usable_horizon (d_of_Z z)).
  { intros z Hz. destruct (d_of_Z_exact z) as [E F]; [lia|]. intros _. rewrite E, <- abs_IZR. apply IZR_le. exact Hz. }
  split; [apply U; lia|]. split; [discriminate|]. intros c Hc. unfold calls102 in Hc.
  repeat (destruct Hc as [<-|Hc]; [cbn [timely_call m_t]; unfold timely; try exact I; try lia; apply U; lia|]). destruct Hc.
Qed.
Print Assumptions C102_no_failure.
Print Assumptions C102_next.
Print Assumptions C102_long_horizon.
