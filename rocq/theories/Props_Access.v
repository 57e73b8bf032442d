(** C107: reading and clearing what estimators store. *)
From Coq Require Import ZArith List Bool Arith Lia Reals Lra Sorted.
From Flocq Require Import IEEE754.BinarySingleNaN.
From Verif Require Import Outcome TimestampModel DoubleModel DoubleProofs Spec_Time BufModel Spec_Buf BufProofs HorizonModel HorizonProofs EpochProofs Props_Buffers MeasModel HandlerModel Spec_Handler HandlerProofs FilterModel ReplayProofs ArrivalProofs Props_Handler Props_Filter AgentModel AgentProofs RateModel AccessModel.
Import ListNotations.
Local Open Scope Z_scope.
Local Open Scope outcome_scope.

(** ** the current belief *)
Theorem C107_current : forall (B : Type) (b : buf B), strictly_chronological b ->
  (b = [] -> current_t b = 0 /\ current_belief b = None) /\
  (forall t v, In (t, v) b -> (forall e, In e b -> fst e <= t) -> current_t b = t /\ current_belief b = Some v).
Proof.
  intros B b C. apply chrono_ssorted in C. pose proof (ssorted_w _ C) as W. split; [intros ->; split; reflexivity|].
  intros t v I Mx. unfold current_t, current_belief, get_latest_t. destruct (get_latest b) as [[k w]|] eqn:E.
  - apply get_latest_spec in E; [|exact W]. destruct E as [J K]. cbn [option_map fst snd].
    assert (Q : k = t) by (specialize (Mx _ J); specialize (K _ I); cbn [fst] in *; lia). subst k. split; [reflexivity|].
    apply (get_at_iff t w b C) in J. apply (get_at_iff t v b C) in I. congruence.
  - apply get_latest_none in E. subst b. destruct I.
Qed.
(** get_latest_belief(ID): that of the registered instance, if it stores any *)
Theorem C107_latest_of : forall (B M : Type) (d : dict B M) (id : nat),
  match d_find id d with
  | Some i => h_latest_belief id d = current_belief (i_bel i)
  | None => h_latest_belief id d = None
  end.
Proof. intros. unfold h_latest_belief. now destruct (d_find id d). Qed.
(** get_belief_before_t: the newest strictly older belief and its time; or false, a null pointer and the time zero *)
Theorem C107_before : forall (B : Type) (b : buf B) (t : Z), strictly_chronological b ->
  (exists k v, get_belief_before_t t b = (true, Some v, k) /\ In (k, v) b /\ k < t /\ forall e, In e b -> fst e < t -> fst e <= k) \/
  (get_belief_before_t t b = (false, None, 0) /\ forall e, In e b -> t <= fst e).
Proof.
  intros B b t C. apply chrono_ssorted in C. pose proof (ssorted_w _ C) as W. unfold get_belief_before_t.
  destruct (get_before_t t b) as [[k v]|] eqn:E.
  - left. exists k, v. destruct (get_before_spec t b k v W E) as [I [L H]]. now repeat split.
  - right. split; [reflexivity|]. now apply get_before_none.
Qed.
Example C107_before_example : get_belief_before_t 5 [(1, 10); (3, 30); (5, 50)] = (true, Some 30, 3) /\ get_belief_before_t 1 [(1, 10); (3, 30)] = (false, None, 0).
Proof. split; reflexivity. Qed.

(** ** get_instance_types *)
Theorem C107_types : forall (S B M : Type) (ty : nat -> S) (d : dict B M),
  let r := instance_types ty d in
  StronglySorted lt (map fst r) /\ forall id s, In (id, s) r <-> s = ty id /\ d_find id d <> None.
Proof.
  intros S B M ty d r.
  assert (G : forall d (m : list (nat * S)), StronglySorted lt (map fst m) ->
    StronglySorted lt (map fst (fold_left (fun m e => smap_set (fst e) (ty (fst e)) m) d m)) /\
    forall id s, In (id, s) (fold_left (fun m (e : nat * inst B M) => smap_set (fst e) (ty (fst e)) m) d m) <->
      (if d_find id d then s = ty id else In (id, s) m)).
  { clear. 
    assert (St : forall k v (m : list (nat * S)), StronglySorted lt (map fst m) -> StronglySorted lt (map fst (smap_set k v m)) /\
      forall x s, In (x, s) (smap_set k v m) <-> (if (k =? x)%nat then s = v else In (x, s) m)).
    { intros k v m. induction m as [|[y w] m IH]; intros C.
      - cbn. split; [repeat constructor|]. intros x s. destruct (Nat.eqb_spec k x) as [->|N]; split; [intros [[= ->]|[]]; reflexivity|intros ->; now left|intros [[= -> _]|[]]; now apply N|intros []].
      - inversion C as [|? ? C1 F]; subst. cbn [map fst] in C1, F. specialize (IH C1). rewrite Forall_forall in F. cbn [smap_set].
        destruct (Nat.ltb_spec k y) as [L|L].
        + split; [constructor; [exact C|]; apply Forall_forall; intros z [<-|Iz]; cbn [fst]; [exact L|]; specialize (F z Iz); lia|].
          intros x s. destruct (Nat.eqb_spec k x) as [->|N]; cbn; split.
          * intros [[= ->]|[[= -> ->]|I]]; [reflexivity|lia|]. apply (in_map fst) in I. specialize (F _ I). cbn in F. lia.
          * intros ->. now left.
          * intros [[= -> _]|I]; [now contradict N|exact I].
          * intros I. now right.
        + destruct (Nat.eqb_spec k y) as [->|N].
          * split; [constructor; [exact C1|now apply Forall_forall]|]. intros x s. destruct (Nat.eqb_spec y x) as [->|N]; cbn; split.
            -- intros [[= ->]|I]; [reflexivity|]. apply (in_map fst) in I. specialize (F _ I). cbn in F. lia.
            -- intros ->. now left.
            -- intros [[= -> _]|I]; [now contradict N|now right].
            -- intros [[= -> _]|I]; [now contradict N|now right].
          * destruct IH as [IH1 IH2]. split.
            -- cbn [map fst]. constructor; [exact IH1|]. apply Forall_forall. intros z Iz. apply in_map_iff in Iz. destruct Iz as [[z' s'] [<- Iz]].
               apply IH2 in Iz. cbn. destruct (Nat.eqb_spec k z') as [->|_]; [lia|]. apply (in_map fst) in Iz. exact (F _ Iz).
            -- intros x s. cbn. rewrite IH2. destruct (Nat.eqb_spec k x) as [->|N2]; split.
               ++ intros [[= -> _]|I]; [now contradict N|exact I].
               ++ intros I. now right.
               ++ intros I. exact I.
               ++ intros I. exact I. }
    induction d as [|[k i] d IH]; intros m C; [split; [exact C|cbn; tauto]|]. cbn [fold_left fst].
    destruct (St k (ty k) m C) as [S1 S2]. destruct (IH _ S1) as [T1 T2]. split; [exact T1|].
    intros id s. rewrite T2. cbn [d_find]. destruct (Nat.eqb_spec k id) as [->|N].
    - destruct (d_find id d); [tauto|]. rewrite S2, Nat.eqb_refl. tauto.
    - destruct (d_find id d); [tauto|]. rewrite S2. apply Nat.eqb_neq in N. now rewrite N. }
  destruct (G d [] ltac:(constructor)) as [G1 G2]. split; [exact G1|]. intros id s. unfold r, instance_types. rewrite G2.
  destruct (d_find id d).
  - split; [intros ->; split; [reflexivity|discriminate]|now intros [-> _]].
  - split; [intros []|intros [_ X]; now apply X].
Qed.
Example C107_types_example : instance_types (fun id => (id * 10)%nat) [(7%nat, Inst true [(0, 0)] (@nil (nat * buf unit))); (2%nat, Inst true [] [])] = [(2, 20); (7, 70)]%nat.
Proof. reflexivity. Qed.

(** ** get_belief_at_t for one estimator, local or not *)
Theorem C107_routed : forall (B M S : Type) (read : nat -> Z -> S -> inst B M -> outcome (inst B M * option B)) (remote : nat -> Z -> S -> option B) (d : dict B M) id t ty,
  (d_find id d = None -> icse_get_belief read remote id t ty d = Ok (d, remote id t ty)) /\
  (forall i, d_find id d = Some i ->
     match read id t ty i with
     | Ok (i', ob) => exists d', icse_get_belief read remote id t ty d = Ok (d', ob) /\
         map fst d' = map fst d /\ d_find id d' = Some i' /\ forall j, j <> id -> d_find j d' = d_find j d
     | Abort a => icse_get_belief read remote id t ty d = Abort a
     | UB u => icse_get_belief read remote id t ty d = UB u
     end).
Proof.
  intros. unfold icse_get_belief. split; [intros ->; reflexivity|]. intros i E. rewrite E. destruct (read id t ty i) as [[i' ob]| |]; cbn [obind]; try reflexivity.
  eexists. split; [reflexivity|]. split; [|split].
  - rewrite map_map. apply map_ext. intros e. destruct (Nat.eqb_spec (fst e) id); cbn; congruence.
  - induction d as [|[k x] d IH]; cbn in *; [discriminate|]. destruct (Nat.eqb_spec k id) as [->|N]; cbn; [now rewrite Nat.eqb_refl|].
    apply Nat.eqb_neq in N. rewrite N. now apply IH.
  - intros j N. clear E. induction d as [|[k x] d IH]; cbn; [reflexivity|]. destruct (Nat.eqb_spec k id) as [->|N2]; cbn.
    + destruct (Nat.eqb_spec id j) as [->|_]; [now contradict N|exact IH].
    + destruct (k =? j)%nat; [reflexivity|exact IH].
Qed.

(** ** one horizon for everything an estimator stores *)
Fixpoint last_set (x : double) (ops : list zop) : double * bool :=
  match ops with [] => (x, false) | ZSet y :: r => let (z, s) := last_set y r in (z, true) | _ :: r => last_set x r end.
Theorem C107_one_horizon : forall (x : double) (ops : list zop),
  let z := fold_left zstep ops (z_new x) in
  let (y, by_setter) := last_set x ops in
  z_max z = y /\ z_bel z = Babs y /\ z_meas z = Babs y /\ (forall j h, In (j, h) (z_ccf z) -> h = Babs y) /\
  z_corr z = if by_setter then Babs (d_mul y (d_of_Z 2)) else Babs y.
Proof.
  intros x ops. 
  assert (G : forall ops x z s, z_max z = x -> z_bel z = Babs x -> z_meas z = Babs x -> (forall j h, In (j, h) (z_ccf z) -> h = Babs x) ->
    z_corr z = (if s : bool then Babs (d_mul x (d_of_Z 2)) else Babs x) ->
    let z' := fold_left zstep ops z in let (y, s') := last_set x ops in
    z_max z' = y /\ z_bel z' = Babs y /\ z_meas z' = Babs y /\ (forall j h, In (j, h) (z_ccf z') -> h = Babs y) /\
    z_corr z' = if s || s' then Babs (d_mul y (d_of_Z 2)) else Babs y).
  { clear. induction ops as [|o r IH]; intros x z s A1 A2 A3 A4 A5.
    - cbn. rewrite orb_false_r. auto.
    - cbn [fold_left]. destruct o as [y|j|].
      + cbn [last_set zstep]. specialize (IH y (z_set y z) true eq_refl eq_refl eq_refl). 
        assert (A6 : forall j h, In (j, h) (z_ccf (z_set y z)) -> h = Babs y).
        { intros j h I. cbn in I. apply in_map_iff in I. destruct I as [e [[= _ <-] _]]. reflexivity. }
        specialize (IH A6 eq_refl). cbn zeta in IH |- *. destruct (last_set y r) as [w s']. rewrite orb_true_l in IH. rewrite orb_true_r. exact IH.
      + cbn [last_set zstep]. apply IH; unfold z_use; destruct (existsb _ _); auto.
        cbn. intros i h I. apply in_app_or in I. destruct I as [I|[[= _ <-]|[]]]; [now apply A4 in I|now rewrite A1].
      + cbn [last_set zstep]. apply IH; auto. intros i h []. }
  specialize (G ops x (z_new x) false eq_refl eq_refl eq_refl ltac:(intros ? ? []) eq_refl). exact G.
Qed.
(** the single filter's check_horizon keeps, in both histories, exactly what is inside the horizon counted from their newest entry *)
Theorem C107_check_horizon : forall (B P : Type) (h : double) (hz : Z) (f : @filt B P),
  denotes_ns h hz -> 0 <= hz < 2097151 * giga -> f_hor_meas f = h -> strictly_chronological (f_bel f) -> chronological (f_meas f) ->
  (forall e, In e (f_bel f) -> 0 <= fst e < 2097151 * giga) -> (forall e, In e (f_meas f) -> 0 <= fst e < 2097151 * giga) ->
  exists f', kf_check_horizon h f = Ok f' /\ f_delayed f' = f_delayed f /\
    (forall e, In e (f_bel f') <-> In e (f_bel f) /\ forall x, In x (f_bel f) -> fst x - hz <= fst e) /\
    (forall e, In e (f_meas f') <-> In e (f_meas f) /\ forall x, In x (f_meas f) -> fst x - hz <= fst e).
Proof.
  intros B P h hz f D Hh Eh Cb Cm Rb Rm. 
  assert (G : forall T (l : buf T), wsorted l -> (forall e, In e l -> 0 <= fst e < 2097151 * giga) ->
    exists l', check_horizon h l = Ok l' /\ forall e, In e l' <-> In e l /\ forall x, In x l -> fst x - hz <= fst e).
  { intros T l W R. assert (N : l = [] \/ l <> []) by (destruct l; [now left|right; discriminate]). destruct N as [->|N].
    - exists []. split; [reflexivity|]. intros e. split; [intros []|intros [[] _]].
    - destruct (nonempty_latest l N) as [a La]. eexists. split; [exact (check_horizon_exact h hz a l W D Hh R La)|].
      destruct (latest_t_spec _ _ W La) as [[v Ia] Mx]. intros e. unfold trimmed. rewrite filter_In, Z.leb_le. split.
      + intros [I L]. split; [exact I|]. intros x Ix. specialize (Mx x Ix). lia.
      + intros [I L]. split; [exact I|]. exact (L _ Ia). }
  unfold kf_check_horizon. rewrite Eh.
  destruct (G _ (f_bel f) (ssorted_w _ (chrono_ssorted _ Cb)) Rb) as [b' [E1 H1]]. destruct (G _ (f_meas f) (proj1 (chrono_w _) Cm) Rm) as [l' [E2 H2]].
  rewrite E1. cbn [obind]. rewrite E2. cbn [obind]. eexists. split; [reflexivity|]. split; [reflexivity|]. split; [exact H1|exact H2].
Qed.

(** ** the isolated filter never stores measurements itself: its inherited replay replays nothing *)
Theorem C107_stores_no_measurements : forall (B M P : Type) (deleg : inst B M -> meas P -> inst B M * status) (i0 : inst B M) ops n,
  nrun deleg (node_new i0) ops = Ok n -> n_meas n = [].
Proof.
  intros B M P deleg i0 ops n. assert (G : forall ops n0, n_meas n0 = [] -> nrun deleg n0 ops = Ok n -> n_meas n = []); [|now apply G].
  clear. induction ops as [|o r IH]; intros n0 E0 E; [injection E as <-; exact E0|]. cbn [nrun] in E.
  destruct (nstep deleg n0 o) as [n1| |] eqn:Es; cbn [obind] in E; try discriminate. apply (IH n1); [|exact E].
  destruct o as [v| |t|i|h]; cbn in Es; rewrite ?E0 in Es; cbn in Es; injection Es as <-; cbn; try exact E0; try reflexivity.
  - now destruct v.
  - unfold node_redo_after. rewrite E0. reflexivity.
Qed.
Theorem C107_inherited_redo : forall (B M P : Type) (deleg : inst B M -> meas P -> inst B M * status) (i0 : inst B M) ops n t,
  nrun deleg (node_new i0) ops = Ok n ->
  strictly_chronological (i_bel (n_inst n)) -> (forall j b, In (j, b) (i_ccf (n_inst n)) -> strictly_chronological b) ->
  let (n', results) := node_redo_after deleg t n in
  results = [] /\ n_meas n' = n_meas n /\ n_delayed n' = n_delayed n /\
  n_inst n' = Inst (i_enabled (n_inst n)) (filter (fun e => fst e <=? t) (i_bel (n_inst n)))
                (map (fun e => (fst e, filter (fun e => fst e <=? t) (snd e))) (i_ccf (n_inst n))).
Proof.
  intros B M P deleg i0 ops n t E Cb Cc. apply C107_stores_no_measurements in E. unfold node_redo_after. rewrite E. cbn.
  repeat (split; [reflexivity || now rewrite E|]). f_equal.
  - pose proof (ssorted_w _ (chrono_ssorted _ Cb)) as W. rewrite (remove_after_filter t _ W).
    rewrite remove_after_filter by now apply wsorted_filter. clear. induction (i_bel (n_inst n)) as [|e l IH]; [reflexivity|]. cbn.
    destruct (fst e <=? t) eqn:X; cbn; rewrite ?X, IH; reflexivity.
  - apply map_ext_in. intros [j b] I. cbn. f_equal. apply remove_after_filter, ssorted_w, chrono_ssorted. exact (Cc _ _ I).
Qed.
Example C107_redo_example : let deleg := fun (i : inst Z Z) (m : meas Z) => (i, PROCESSED) in
  nrun deleg (node_new (Inst true [(1, 10); (4, 40)] [(9%nat, [(1, 5); (4, 6)])])) [NDelayed true; NTrim (d_of_Z 1); NRedo 2] =
  Ok (Node (Inst true [(1, 10)] [(9%nat, [(1, 5)])]) [] true).
Proof. reflexivity. Qed.

(** ** copies, zero times, rates *)
(** clone() of a buffer with horizon: horizon and content *)
Theorem C107_clone : forall (T : Type) (x : double) (l : buf T), hor_clone (set_horizon x) l = (set_horizon x, l).
Proof. intros. unfold hor_clone, set_horizon. f_equal. now destruct x. Qed.
(** is_zero() holds of the time zero alone *)
Theorem C107_is_zero : forall t : ts, normalised t -> (is_zero t = true <-> instant_ns t = 0).
Proof.
  intros t N. unfold is_zero, instant_ns, normalised, giga in *. rewrite andb_true_iff, !Z.eqb_eq. lia.
Qed.
(** Rate::set changes the period exactly as the constructor sets it, and nothing else *)
Theorem C107_rate_set : forall (hz : double) (r : rate),
  match rate_ms hz with
  | Ok m => rate_set hz r = Ok (Rate m (r_start r) (r_process r)) /\ omap r_sleep (rate_new hz (r_start r)) = Ok m
  | UB u => rate_set hz r = UB u
  | Abort a => rate_set hz r = Abort a
  end.
Proof. intros. unfold rate_set, rate_new. destruct (rate_ms hz); cbn; auto. Qed.
Print Assumptions C107_current.
Print Assumptions C107_latest_of.
Print Assumptions C107_before.
Print Assumptions C107_types.
Print Assumptions C107_routed.
Print Assumptions C107_one_horizon.
Print Assumptions C107_check_horizon.
Print Assumptions C107_stores_no_measurements.
Print Assumptions C107_inherited_redo.
Print Assumptions C107_clone.
Print Assumptions C107_is_zero.
Print Assumptions C107_rate_set.
