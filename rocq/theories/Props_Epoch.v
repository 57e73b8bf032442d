(** Property theorems C06, C07, C08, C12, C14, C15, C21, C22 (exact limits): what the double arithmetic inside
    Timestamp costs for every time until the 31-bit end of epoch seconds (the year 2038), and the exact criteria of
    the corner cases. *)
From Coq Require Import ZArith List Reals Lra Lia Bool.
From Flocq Require Import Core IEEE754.BinarySingleNaN.
From Verif Require Import Outcome TimestampModel DoubleModel Spec_Time TimestampProofs DoubleProofs.
From Verif Require Import BufModel Spec_Buf BufProofs HorizonModel HorizonProofs EpochProofs Props_Time Props_Buffers.
Import ListNotations.
Local Open Scope Z_scope.

(** the last second that fits into a 32-bit signed time_t, in nanoseconds *)
Definition year2038 : Z := (2 ^ 31 - 1) * giga.

(** ** C06 *)
Theorem C06_epoch_error : forall t, normalised t -> 0 <= instant_ns t < year2038 ->
  exists r, from_sec (to_sec t) = Ok r /\ normalised r /\ Z.abs (instant_ns r - instant_ns t) <= 119.
Proof. intros t N H. apply epoch_roundtrip; [|exact N]. unfold normalised, instant_ns, year2038, giga in *. lia. Qed.
Print Assumptions C06_epoch_error.
(** the bound 2^23 s of the lossless range cannot be raised *)
Theorem C06_limit_sharp : from_sec (to_sec (mkTs (2 ^ 23) 1)) = Ok (mkTs (2 ^ 23) 2).
Proof. vm_compute. reflexivity. Qed.
Print Assumptions C06_limit_sharp.
Example C06_epoch_example : from_sec (to_sec (mkTs 1720712106 123456789)) = Ok (mkTs 1720712106 123456717) /\
  normalised (mkTs 1720712106 123456789) /\ 0 <= instant_ns (mkTs 1720712106 123456789) < year2038.
Proof. repeat split; vm_compute; congruence. Qed.

(** ** C07 *)
Theorem C07_epoch_error : forall a b, normalised a -> normalised b ->
  0 <= instant_ns a < year2038 -> 0 <= instant_ns b < year2038 ->
  (exists r, ts_add a b = Ok r /\ normalised r /\ Z.abs (instant_ns r - (instant_ns a + instant_ns b)) <= 477) /\
  (exists r, ts_sub a b = Ok r /\ normalised r /\ Z.abs (instant_ns r - (instant_ns a - instant_ns b)) <= 358).
Proof.
  intros a b Na Nb Ha Hb. split; [apply add_epoch|apply sub_epoch]; try assumption;
    unfold normalised, instant_ns, year2038, giga in *; lia.
Qed.
Print Assumptions C07_epoch_error.
Example C07_epoch_example : ts_sub (mkTs 1720712106 123456789) (mkTs 1720712105 0) = Ok (mkTs 1 123456717).
Proof. vm_compute. reflexivity. Qed.

(** ** C08 *)
(** A timestamp obtained from a double and one obtained from the nanosecond count of the same instant compare
    equal exactly when the instant is not before zero or is a whole second. *)
Lemma from_sec_norm (t : double) r : from_sec t = Ok r -> normalised r.
Proof.
  intros E. destruct (C05_from_sec_out_of_range t) as [A [B C]].
  assert (Z0 : normalised ts_zero) by (vm_compute; split; congruence).
  destruct (is_finite t) eqn:F; [|rewrite A in E by reflexivity; injection E as <-; exact Z0].
  destruct (Z_lt_ge_dec (Zfloor (B2R t)) (- 2 ^ 63)) as [L|L]; [rewrite C in E by (auto; lia); discriminate|].
  destruct (Z_lt_ge_dec (Zfloor (B2R t)) (2 ^ 33)) as [M|M].
  - destruct (C05_from_sec_normalised t F ltac:(lia)) as [r' [E' [N _]]]. rewrite E in E'. now injection E' as <-.
  - destruct (Z_lt_ge_dec (Zfloor (B2R t)) (2 ^ 63)) as [K|K].
    + rewrite B in E by (auto; lia). injection E as <-. exact Z0.
    + rewrite C in E by (auto; lia). discriminate.
Qed.
Theorem C08_mixed_constructors_iff : forall (t : double) ns r, is_int64 ns -> from_sec t = Ok r -> instant_ns r = ns ->
  (ts_eq r (from_stamp_ns ns) = true <-> 0 <= ns \/ (giga | ns)).
Proof.
  intros t ns r I E J. pose proof (from_sec_norm t r E) as N.
  destruct (from_ns_fields ns I) as [-> _].
  assert (Q := Z.quot_rem ns giga ltac:(unfold giga; lia)).
  assert (P : ts_eq r (mkTs (Z.quot ns giga) (Z.rem ns giga)) = true <-> r = mkTs (Z.quot ns giga) (Z.rem ns giga))
    by (apply (C02_total_order r _ r)).
  rewrite P. clear P. destruct r as [s n]. unfold normalised, instant_ns, giga in *. cbn [sec nsec] in *. split.
  - intros X. injection X as -> ->. destruct (Z_le_gt_dec 0 ns) as [L|L]; [now left|right].
    exists (Z.quot ns 1000000000). assert (Z.rem ns 1000000000 <= 0) by (apply Z.rem_nonpos; lia). lia.
  - intros [L|[k D]].
    + assert (0 <= Z.rem ns 1000000000 < 1000000000) by (apply Z.rem_bound_pos; lia). f_equal; lia.
    + assert (Z.rem ns 1000000000 = 0) by (rewrite D; apply Z.rem_mul; lia). f_equal; lia.
Qed.
Print Assumptions C08_mixed_constructors_iff.
(** with one and the same constructor equal instants always compare equal *)
Theorem C08_same_constructor : forall (s t : double) a b x y,
  from_sec s = Ok a -> from_sec t = Ok b -> is_int64 x -> is_int64 y ->
  (ts_eq a b = true <-> instant_ns a = instant_ns b) /\
  (ts_eq (from_stamp_ns x) (from_stamp_ns y) = true <-> instant_ns (from_stamp_ns x) = instant_ns (from_stamp_ns y)).
Proof.
  intros s t a b x y Ea Eb Ix Iy. pose proof (from_sec_norm s a Ea) as Na. pose proof (from_sec_norm t b Eb) as Nb.
  split; [exact (ts_eq_instant a b Na Nb)|].
  rewrite !from_ns_instant by assumption. split; [|intros ->; apply (C02_total_order _ _ (from_stamp_ns y)); reflexivity].
  intros E. apply (C02_total_order _ _ (from_stamp_ns y)) in E. rewrite <- (from_ns_instant x Ix), <- (from_ns_instant y Iy), E. reflexivity.
Qed.
Print Assumptions C08_same_constructor.
Example C08_mixed_example : from_sec (d_of_Z (-3)) = Ok (mkTs (-3) 0) /\ from_stamp_ns (-3000000000) = mkTs (-3) 0 /\
  (giga | -3000000000).
Proof. split; [vm_compute; reflexivity|]. split; [vm_compute; reflexivity|]. exists (-3). reflexivity. Qed.

(** ** C12 *)
Theorem C12_epoch_error : forall (T : Type) (ops : list (hb_op T)) (t : Z) (e : Z * T),
  0 <= t < year2038 -> (forall x, In x (hb_run ops) -> 0 <= fst x < year2038) ->
  get_closest_t t (hb_run ops) = Ok (Some e) ->
  In e (hb_run ops) /\ forall x, In x (hb_run ops) -> Z.abs (fst e - t) <= Z.abs (fst x - t) + 716.
Proof.
  intros T ops t e Ht Hl H. split; [|apply closest_31; auto; apply ssorted_w, hb_run_ssorted].
  destruct (C12_closest_safe T ops t) as [r [E [_ I]]].
  - unfold is_int64, year2038, giga in *. lia.
  - intros x Ix. specialize (Hl x Ix). unfold is_int64, year2038, giga in *. lia.
  - rewrite H in E. injection E as <-. now apply I.
Qed.
Print Assumptions C12_epoch_error.
Example C12_epoch_example : get_closest_t 1720000000000000000
    (hb_run [HInsert (1720000000000000000 - 60) 1; HInsert (1720000000000000000 + 100) 2]) = Ok (Some (1720000000000000000 + 100, 2)).
Proof. vm_compute. reflexivity. Qed.

(** ** C14: something older than t is left exactly when the buffer is non-empty and holds only older elements *)
Theorem C14_older_left_iff : forall (T : Type) (ops : list (hb_op T)) (t : Z),
  ((exists e, In e (remove_before_t t (hb_run ops)) /\ fst e < t) <->
   hb_run ops <> [] /\ (forall e, In e (hb_run ops) -> fst e < t)) /\
  ((forall e, In e (hb_run ops) -> fst e < t) -> remove_before_t t (hb_run ops) = hb_run ops).
Proof.
  intros T ops t. destruct (C13_removal T ops t) as [_ [_ [_ A]]]. split; [|exact A].
  split.
  - intros [e [I L]]. split.
    + intros X. rewrite X in I. exact I.
    + intros e' I'. destruct (Z_lt_ge_dec (fst e') t) as [P|P]; [exact P|exfalso].
      assert (Z := C14_nothing_older T ops t (ex_intro _ e' (conj I' (Z.ge_le _ _ P))) e I). lia.
  - intros [N H]. rewrite A by exact H. destruct (hb_run ops) as [|e l]; [congruence|]. exists e. split; [now left|]. apply H. now left.
Qed.
Print Assumptions C14_older_left_iff.
Example C14_left_example : remove_before_t 5 (hb_run [HInsert 1 10; HInsert 3 30]) = [(1, 10); (3, 30)].
Proof. reflexivity. Qed.

(** ** C15: the degenerate interval *)
Theorem C15_single_instant_empty : forall (T : Type) (ops : list (hb_op T)) (t : Z), hb_get_between t t (hb_run ops) = [].
Proof. intros T ops t. unfold hb_get_between. rewrite Z.ltb_irrefl. reflexivity. Qed.
Print Assumptions C15_single_instant_empty.

(** ** C21 *)
Theorem C21_epoch_error : forall (T : Type) (ops : list (mb_op T)) (h : double) (hz a : Z),
  denotes_ns h hz -> 239 <= hz < year2038 -> (forall e, In e (mb_run ops) -> 0 <= fst e < year2038) ->
  get_latest_t (mb_run ops) = Some a ->
  exists c, a - hz - 358 <= c <= a - hz + 239 /\
    check_horizon h (mb_run ops) = Ok (filter (fun e => c <=? fst e) (mb_run ops)).
Proof.
  intros T ops h hz a D Hh Hl E. destruct (check_horizon_31 h hz a (mb_run ops)) as [c [A B]]; auto; [apply mb_run_wsorted|].
  exists c. split; assumption.
Qed.
Print Assumptions C21_epoch_error.
Example C21_epoch_example :
  check_horizon (d_of_Z 1) (mb_run [MInsert 1720000000000000000 1; MInsert 1720000000500000001 2; MInsert 1720000001500000050 3])
  = Ok [(1720000000500000001, 2); (1720000001500000050, 3)].
Proof. vm_compute. reflexivity. Qed.

(** ** C22 *)
(** until 2038 the cut of check_horizon_from_t is off by at most 239 ns *)
Theorem C22_epoch_error : forall (T : Type) (ops : list (hb_op T)) (h : double) (hz t : Z),
  denotes_ns h hz -> 0 <= hz < year2038 -> 0 <= t < year2038 ->
  exists c, Z.abs (c - (t - hz)) <= 239 /\
    ((exists e, In e (hb_run ops) /\ c <= fst e) ->
       check_horizon_from_t h (from_stamp_ns t) (hb_run ops) = Ok (filter (fun e => c <=? fst e) (hb_run ops))) /\
    ((forall e, In e (hb_run ops) -> fst e < c) -> check_horizon_from_t h (from_stamp_ns t) (hb_run ops) = Ok (hb_run ops)).
Proof.
  intros T ops h hz t D Hh Ht. destruct (trim_key_31 h hz t D Hh Ht) as [o [c [Eo [Ec Bc]]]]. exists c. split; [lia|].
  set (l := hb_run ops). assert (W : wsorted l) by apply ssorted_w, hb_run_ssorted.
  assert (R : l <> [] -> check_horizon_from_t h (from_stamp_ns t) l = Ok (if existsb (fun e => c <=? fst e) l then filter (fun e => c <=? fst e) l else l)).
  { intros N. unfold check_horizon_from_t. replace (empty l) with false by (destruct l; [congruence|reflexivity]). cbn [negb].
    unfold trim_from. rewrite Eo. cbn [obind]. rewrite Ec. cbn [obind]. now rewrite remove_before_filter by exact W. }
  split.
  - intros [e [I L]]. rewrite R by (intros X; rewrite X in I; destruct I). replace (existsb _ l) with true; [reflexivity|].
    symmetry. apply existsb_exists. exists e. split; [exact I|lia].
  - intros H. destruct l as [|x r] eqn:X; [reflexivity|]. rewrite R by congruence. replace (existsb _ _) with false; [reflexivity|].
    symmetry. destruct (existsb _ _) eqn:E; [|reflexivity]. apply existsb_exists in E. destruct E as [e [I L]]. apply H in I. lia.
Qed.
Print Assumptions C22_epoch_error.
Theorem C22_horizon_defined : forall (T : Type) (ops : list (hb_op T)) (h : double) (t : Z),
  is_finite h = true -> (0 <= B2R h <= 9223372034)%R -> 0 <= t < year2038 ->
  exists l', check_horizon_from_t h (from_stamp_ns t) (hb_run ops) = Ok l'.
Proof. intros. now apply trim_defined. Qed.
Print Assumptions C22_horizon_defined.
Theorem C22_horizon_undefined : forall (T : Type) (ops : list (hb_op T)) (h : double) (t : Z),
  is_finite h = true -> (11370855686 <= B2R h)%R -> 0 <= t < year2038 -> hb_run ops <> [] ->
  exists e, check_horizon_from_t h (from_stamp_ns t) (hb_run ops) = UB e.
Proof. intros. now apply trim_undefined. Qed.
Print Assumptions C22_horizon_undefined.
