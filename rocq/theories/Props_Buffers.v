(** Properties C09-C22: the time-indexed buffers. *)
From Coq Require Import ZArith List Bool Lia Permutation Reals.
From Flocq Require Import Core IEEE754.BinarySingleNaN.
From Verif Require Import Outcome TimestampModel DoubleModel Spec_Time BufModel Spec_Buf BufProofs HorizonModel HorizonProofs.
Import ListNotations.
Local Open Scope Z_scope.

(** ** C09: last-write-wins map *)
(** For every operation sequence the specification determines what is stored at each instant, and get_at_t
    returns exactly that. *)
Theorem C09_last_write_wins : forall (T : Type) (ops : list (hb_op T)) (m : amap T),
  amap_run ops m -> forall t, get_at_t t (hb_run ops) = m t.
Proof. intros T ops m H t. exact (amap_run_unique ops _ _ (hb_run_refines ops) H t). Qed.
(** the specification is total, so the theorem above is never vacuous *)
Theorem C09_spec_total : forall (T : Type) (ops : list (hb_op T)), exists m, amap_run ops m.
Proof. intros T ops. eexists. apply hb_run_refines. Qed.
Example C09_example : get_at_t 5 (hb_run [HInsert 5 1; HInsert 7 2; HInsert 5 3; HRemoveAfter 5]) = Some 3
  /\ get_at_t 7 (hb_run [HInsert 5 1; HInsert 7 2; HInsert 5 3; HRemoveAfter 5]) = None.
Proof. split; reflexivity. Qed.

(** ** C10: enumeration *)
Theorem C10_enumeration : forall (T : Type) (ops : list (hb_op T)),
  let l := hb_run ops in
  strictly_chronological l /\
  (forall i, at_idx i l = nth_error l i) /\
  (forall i, at_idx i l = None <-> (size l <= i)%nat) /\
  (forall t, (exists i v, at_idx i l = Some (t, v)) <-> get_at_t t l <> None) /\
  (forall t i, hb_index_at_t t l = Some i <-> exists v, at_idx i l = Some (t, v)) /\
  (forall t, hb_index_at_t t l = None <-> get_at_t t l = None) /\
  foreach (fun acc v => acc ++ [v]) [] l = map snd l /\
  foreach_t (fun acc k => acc ++ [k]) [] l = map fst l /\
  foreach_reverse (fun acc v => acc ++ [v]) [] l = rev (map snd l).
Proof.
  intros T ops l. pose proof (hb_run_ssorted ops) as S. fold l in S.
  assert (A : forall t i, hb_index_at_t t l = Some i <-> exists v, at_idx i l = Some (t, v)).
  { intros t i. setoid_rewrite at_idx_nth. now apply hb_index_spec. }
  assert (FA : forall (B : Type) (f : Z * T -> B) (q : list (Z * T)) acc,
     fold_left (fun acc e => acc ++ [f e]) q acc = acc ++ map f q).
  { intros B f q. induction q as [|e q IH]; intros acc; cbn; [now rewrite app_nil_r|]. rewrite IH, <- app_assoc. reflexivity. }
  split; [now apply ssorted_chrono|]. split; [intros i; apply at_idx_nth|].
  split; [intros i; rewrite at_idx_nth; unfold size; apply nth_error_None|].
  split.
  { intros t. split.
    - intros [i [v H]]. rewrite at_idx_nth in H. apply nth_error_In in H. rewrite (proj2 (get_at_iff t v l S) H). discriminate.
    - intros H. destruct (get_at_t t l) as [v|] eqn:E; [|congruence]. apply get_at_In in E. apply In_nth_error in E.
      destruct E as [i E]. exists i, v. now rewrite at_idx_nth. }
  split; [exact A|]. split.
  { intros t. rewrite get_at_none. split.
    - intros H v I. apply In_nth_error in I. destruct I as [i I]. assert (hb_index_at_t t l = Some i) by (apply A; exists v; now rewrite at_idx_nth). congruence.
    - intros H. destruct (hb_index_at_t t l) as [i|] eqn:E; [|reflexivity]. apply A in E. destruct E as [v E].
      rewrite at_idx_nth in E. apply nth_error_In in E. now apply H in E. }
  split; [|split]; unfold foreach, accumulate, foreach_t, foreach_reverse; rewrite FA; cbn; auto using map_rev.
Qed.
Example C10_example : hb_run [HInsert 9 1; HInsert 2 2; HInsert 4 3; HInsert 2 7] = [(2, 7); (4, 3); (9, 1)].
Proof. reflexivity. Qed.

(** ** C11: neighbours *)
Theorem C11_neighbours : forall (T : Type) (ops : list (hb_op T)) (t : Z),
  let l := hb_run ops in
  (forall k v, get_before_t t l = Some (k, v) <->
     In (k, v) l /\ k < t /\ forall e, In e l -> fst e < t -> fst e <= k) /\
  (get_before_t t l = None <-> forall e, In e l -> t <= fst e) /\
  (forall k v, get_after_t t l = Some (k, v) <->
     In (k, v) l /\ t < k /\ forall e, In e l -> t < fst e -> k <= fst e) /\
  (get_after_t t l = None <-> forall e, In e l -> fst e <= t) /\
  (hb_exist_before_t t l = true <-> get_before_t t l <> None) /\
  (exist_after_t t l = true <-> get_after_t t l <> None) /\
  (exist_at_t t l = true <-> get_at_t t l <> None) /\
  (forall k v, get_oldest l = Some (k, v) <-> In (k, v) l /\ forall e, In e l -> k <= fst e) /\
  (forall k v, get_latest l = Some (k, v) <-> In (k, v) l /\ forall e, In e l -> fst e <= k) /\
  (get_oldest l = None <-> l = []) /\ (get_latest l = None <-> l = []).
Proof.
  intros T ops t l. pose proof (hb_run_ssorted ops) as S. fold l in S. pose proof (ssorted_w l S) as W.
  assert (U : forall k v w, In (k, v) l -> In (k, w) l -> v = w).
  { intros k v w I J. apply (get_at_iff k v l S) in I. apply (get_at_iff k w l S) in J. congruence. }
  split.
  { intros k v. split; [now apply get_before_spec|]. intros [I [L M]].
    destruct (get_before_t t l) as [[k' v']|] eqn:E.
    - apply get_before_spec in E; [|exact W]. destruct E as [I' [L' M']].
      assert (k = k') by (apply Z.le_antisymm; [apply (M' _ I L)|apply (M _ I' L')]). subst k'. do 2 f_equal. eauto.
    - rewrite get_before_none in E by exact W. apply E in I. cbn in I. lia. }
  split; [now apply get_before_none|]. split.
  { intros k v. split; [now apply get_after_spec|]. intros [I [L M]].
    destruct (get_after_t t l) as [[k' v']|] eqn:E.
    - apply get_after_spec in E; [|exact W]. destruct E as [I' [L' M']].
      assert (k = k') by (apply Z.le_antisymm; [apply (M _ I' L')|apply (M' _ I L)]). subst k'. do 2 f_equal. eauto.
    - rewrite get_after_none in E by exact W. apply E in I. cbn in I. lia. }
  split; [now apply get_after_none|]. split.
  { rewrite hb_exist_before_get. destruct (get_before_t t l); split; congruence. }
  split.
  { rewrite exist_after_iff. split.
    - intros [e [I L]] E. rewrite get_after_none in E by exact W. apply E in I. lia.
    - destruct (get_after_t t l) as [[k v]|] eqn:E; [|congruence]. intros _. apply get_after_spec in E; [|exact W].
      exists (k, v). cbn. tauto. }
  split.
  { rewrite exist_at_iff. split.
    - intros [v I] E. rewrite get_at_none in E. now apply E in I.
    - destruct (get_at_t t l) as [v|] eqn:E; [|congruence]. intros _. apply get_at_In in E. eauto. }
  split.
  { intros k v. split; [now apply get_oldest_spec|]. intros [I M]. destruct (get_oldest l) as [[k' v']|] eqn:E.
    - apply get_oldest_spec in E; [|exact W]. destruct E as [I' M'].
      assert (k = k') by (apply Z.le_antisymm; [apply (M _ I')|apply (M' _ I)]). subst k'. do 2 f_equal. eauto.
    - apply get_oldest_none in E. rewrite E in I. destruct I. }
  split.
  { intros k v. split; [now apply get_latest_spec|]. intros [I M]. destruct (get_latest l) as [[k' v']|] eqn:E.
    - apply get_latest_spec in E; [|exact W]. destruct E as [I' M'].
      assert (k = k') by (apply Z.le_antisymm; [apply (M' _ I)|apply (M _ I')]). subst k'. do 2 f_equal. eauto.
    - apply get_latest_none in E. rewrite E in I. destruct I. }
  split; [apply get_oldest_none|apply get_latest_none].
Qed.
Example C11_example : get_before_t 4 (hb_run [HInsert 9 1; HInsert 2 2; HInsert 4 3]) = Some (2, 2)
  /\ get_after_t 4 (hb_run [HInsert 9 1; HInsert 2 2; HInsert 4 3]) = Some (9, 1).
Proof. split; reflexivity. Qed.

(** ** C12: closest element *)
(** safe, never undefined, succeeds exactly on a non-empty buffer, for every int64 key and query *)
Theorem C12_closest_safe : forall (T : Type) (ops : list (hb_op T)) (t : Z),
  is_int64 t -> (forall e, In e (hb_run ops) -> is_int64 (fst e)) ->
  exists r, get_closest_t t (hb_run ops) = Ok r /\ (r = None <-> hb_run ops = []) /\
            (forall e, r = Some e -> In e (hb_run ops)).
Proof. intros. apply closest_cases; auto. apply ssorted_w, hb_run_ssorted. Qed.
(** minimal distance for instants in [0, 2^21 s); for later instants see C12_epoch_error (at most 716 ns off) and
    C12_epoch_not_minimal *)
Theorem C12_closest_minimal : forall (T : Type) (ops : list (hb_op T)) (t : Z) (e : Z * T),
  0 <= t < 2097152 * giga -> (forall x, In x (hb_run ops) -> 0 <= fst x < 2097152 * giga) ->
  get_closest_t t (hb_run ops) = Ok (Some e) ->
  In e (hb_run ops) /\
  forall x, In x (hb_run ops) ->
    Z.abs (fst e - t) < Z.abs (fst x - t) \/ (Z.abs (fst e - t) = Z.abs (fst x - t) /\ fst x <= fst e).
Proof. intros T ops t e Ht Hl H. apply closest_minimal; auto. apply ssorted_w, hb_run_ssorted. Qed.
Example C12_example :
  get_closest_t 5 (hb_run [HInsert 1 10; HInsert 9 20]) = Ok (Some (9, 20)) /\
  get_closest_t 4 (hb_run [HInsert 1 10; HInsert 9 20]) = Ok (Some (1, 10)).
Proof. split; vm_compute; reflexivity. Qed.
(** At wall-clock epoch times the double subtraction loses the difference: here the element 60 ns before the
    query is passed over for one 100 ns after it. *)
Theorem C12_epoch_not_minimal :
  exists (ops : list (hb_op Z)) (t : Z) (e x : Z * Z),
    0 <= t < 2 ^ 61 /\ get_closest_t t (hb_run ops) = Ok (Some e) /\ In x (hb_run ops) /\
    Z.abs (fst x - t) < Z.abs (fst e - t).
Proof.
  exists [HInsert (1720000000000000000 - 60) 1; HInsert (1720000000000000000 + 100) 2], 1720000000000000000,
    (1720000000000000000 + 100, 2), (1720000000000000000 - 60, 1).
  split; [lia|]. split; [vm_compute; reflexivity|]. split; [vm_compute; auto|]. vm_compute. reflexivity.
Qed.

(** ** C13: removal *)
Theorem C13_removal : forall (T : Type) (ops : list (hb_op T)) (t : Z),
  let l := hb_run ops in
  remove_at_t t l = filter (fun e => negb (fst e =? t)) l /\
  remove_after_t t l = filter (fun e => fst e <=? t) l /\
  ((exists e, In e l /\ t <= fst e) -> remove_before_t t l = filter (fun e => t <=? fst e) l) /\
  ((forall e, In e l -> fst e < t) -> remove_before_t t l = l).
Proof.
  intros T ops t l. pose proof (ssorted_w _ (hb_run_ssorted ops)) as W. fold l in W.
  split; [reflexivity|]. split; [now apply remove_after_filter|]. rewrite remove_before_filter by exact W. split.
  - intros [e [I L]]. replace (existsb _ l) with true; [reflexivity|]. symmetry. apply existsb_exists.
    exists e. split; [exact I|lia].
  - intros H. replace (existsb _ l) with false; [reflexivity|]. symmetry.
    destruct (existsb _ l) eqn:E; [|reflexivity]. apply existsb_exists in E. destruct E as [e [I L]]. apply H in I. lia.
Qed.
Example C13_example : remove_before_t 4 (hb_run [HInsert 9 1; HInsert 2 2; HInsert 4 3]) = [(4, 3); (9, 1)]
  /\ remove_before_t 10 (hb_run [HInsert 9 1; HInsert 2 2]) = [(2, 2); (9, 1)].
Proof. split; reflexivity. Qed.

(** ** C14: nothing older survives remove_before_t *)
Theorem C14_nothing_older : forall (T : Type) (ops : list (hb_op T)) (t : Z),
  (exists e, In e (hb_run ops) /\ t <= fst e) ->
  forall e, In e (remove_before_t t (hb_run ops)) -> t <= fst e.
Proof.
  intros T ops t H e I. destruct (C13_removal T ops t) as [_ [_ [A _]]]. rewrite A in I by exact H.
  apply filter_In in I. destruct I as [_ I]. now apply Z.leb_le.
Qed.
Theorem C14_all_older_kept :
  exists (ops : list (hb_op Z)) (t : Z) e, In e (remove_before_t t (hb_run ops)) /\ fst e < t.
Proof. exists [HInsert 1 10], 5, (1, 10). split; [vm_compute; auto|cbn; lia]. Qed.
Example C14_example : remove_before_t 4 (hb_run [HInsert 9 1; HInsert 2 2]) = [(9, 1)].
Proof. reflexivity. Qed.

(** ** C15: range queries *)
Theorem C15_range : forall (T : Type) (ops : list (hb_op T)) (t1 t2 : Z),
  let l := hb_run ops in
  (t1 <> t2 -> hb_get_between t1 t2 l = elements_in t1 t2 l) /\
  (forall A (op : A -> T -> A) a, hb_accumulate_between t1 t2 op a l = fold_left op (map snd (elements_in t1 t2 l)) a) /\
  (forall A (op : A -> T -> A) a, hb_foreach_between t1 t2 op a l = fold_left op (map snd (elements_in t1 t2 l)) a) /\
  (t2 < t1 -> elements_in t1 t2 l = []).
Proof.
  intros T ops t1 t2 l. pose proof (ssorted_w _ (hb_run_ssorted ops)) as W. fold l in W.
  destruct (hb_between_specs t1 t2 l W) as [A [B C]].
  assert (E : t2 < t1 -> elements_in t1 t2 l = []).
  { intros H. unfold elements_in. apply filter_all_false. rewrite Forall_forall. intros e _.
    destruct (Z.leb_spec t1 (fst e)), (Z.leb_spec (fst e) t2); cbn; lia. }
  split; [|split; [exact C|split; [exact C|exact E]]].
  intros N. destruct (Z_lt_ge_dec t1 t2); [now apply A|]. rewrite B, E by lia. reflexivity.
Qed.
Theorem C15_single_instant_misses_element :
  exists (ops : list (hb_op Z)) (t1 t2 : Z),
    t1 <= t2 /\ hb_get_between t1 t2 (hb_run ops) <> elements_in t1 t2 (hb_run ops).
Proof. exists [HInsert 1 10], 1, 1. split; [lia|vm_compute; discriminate]. Qed.
Example C15_example : hb_get_between 2 4 (hb_run [HInsert 9 1; HInsert 2 2; HInsert 4 3; HInsert 1 0]) = [(2, 2); (4, 3)].
Proof. reflexivity. Qed.

(** ** C16: subsampling *)
(** [positions] pairs each element with its position. *)
Theorem C16_subsampling : forall (T : Type) (ops : list (hb_op T)) (n : nat), (1 <= n)%nat ->
  let l := hb_run ops in
  let positions := combine (seq 0 (length l)) l in
  subsample_by_N n l = Ok (map snd (filter (fun p => (fst p mod n =? 0)%nat) positions)) /\
  remove_every_N n l = Ok (map snd (filter (fun p => negb (fst p mod n =? 0)%nat) positions)).
Proof.
  intros T ops n Hn l positions. unfold subsample_by_N, remove_every_N, every_N.
  destruct n as [|n]; [lia|].
  assert (E : forall km, match l with [] | _ => Ok (every_loop km (S n) 0 l) end = Ok (every_loop km (S n) 0 l)) by (intros; destruct l; reflexivity).
  rewrite !every_loop_spec by lia. split; do 2 f_equal; apply filter_ext; intros p; destruct (_ =? _)%nat; reflexivity.
Qed.
Theorem C16_zero : forall (T : Type) (l : buf T),
  l <> [] -> subsample_by_N 0 l = UB DivByZero /\ remove_every_N 0 l = UB DivByZero.
Proof. intros T [|e l] H; [congruence|]. split; reflexivity. Qed.
Example C16_example : subsample_by_N 2 (hb_run [HInsert 9 1; HInsert 2 2; HInsert 4 3]) = Ok [(2, 2); (9, 1)].
Proof. reflexivity. Qed.

(** ** C17: multi buffer *)
Theorem C17_multi_insert : forall (T : Type) (ops : list (mb_op T)) (t : Z) (v : T),
  let l := mb_run ops in
  chronological (mb_insert t v l) /\
  Permutation ((t, v) :: l) (mb_insert t v l) /\
  (exists l1 l2, l = l1 ++ l2 /\ mb_insert t v l = l1 ++ (t, v) :: l2) /\
  (forall s, elements_at s (mb_insert t v l) = elements_at s l ++ (if t =? s then [(t, v)] else [])).
Proof.
  intros T ops t v l. pose proof (mb_run_wsorted ops) as W. fold l in W.
  split; [now apply wsorted_chrono, mb_insert_wsorted|]. split; [now apply mb_insert_perm|].
  split; [now apply mb_insert_remove_sub|]. intros s. now apply mb_insert_at.
Qed.
Theorem C17_multi_chronological : forall (T : Type) (ops : list (mb_op T)), chronological (mb_run ops).
Proof. intros. apply wsorted_chrono, mb_run_wsorted. Qed.
Example C17_example : mb_run [MInsert 5 1; MInsert 3 2; MInsert 5 3; MInsert 5 4] = [(3, 2); (5, 1); (5, 3); (5, 4)].
Proof. reflexivity. Qed.

(** ** C18: multi buffer queries *)
Theorem C18_multi_queries : forall (T : Type) (ops : list (mb_op T)) (t t1 t2 : Z),
  let l := mb_run ops in
  mb_get_all_at_t t l = map snd (elements_at t l) /\
  (forall k v, get_before_t t l = Some (k, v) -> In (k, v) l /\ k < t /\ forall e, In e l -> fst e < t -> fst e <= k) /\
  (get_before_t t l = None <-> forall e, In e l -> t <= fst e) /\
  (forall k v, get_after_t t l = Some (k, v) -> In (k, v) l /\ t < k /\ forall e, In e l -> t < fst e -> k <= fst e) /\
  (get_after_t t l = None <-> forall e, In e l -> fst e <= t) /\
  (forall k v, get_latest l = Some (k, v) -> (forall e, In e l -> fst e <= k) /\ exists p, l = p ++ [(k, v)]) /\
  mb_get_between t1 t2 l = elements_in t1 t2 l /\
  (forall A (op : A -> T -> A) a, mb_accumulate_between t1 t2 op a l = fold_left op (map snd (elements_in t1 t2 l)) a) /\
  (forall A (op : A -> T -> A) a, mb_foreach_between t1 t2 op a l = fold_left op (map snd (elements_in t1 t2 l)) a) /\
  remove_at_t t l = filter (fun e => negb (fst e =? t)) l /\
  remove_after_t t l = filter (fun e => fst e <=? t) l.
Proof.
  intros T ops t t1 t2 l. pose proof (mb_run_wsorted ops) as W. fold l in W.
  split; [now apply mb_get_all_spec|]. split; [intros; now apply get_before_spec|]. split; [now apply get_before_none|].
  split; [intros; now apply get_after_spec|]. split; [now apply get_after_none|]. split.
  { intros k v H. split; [apply get_latest_spec in H; tauto|].
    destruct l as [|a q] using rev_ind; [discriminate|]. rewrite get_latest_app in H. injection H as ->. eauto. }
  split; [now apply mb_get_between_spec|]. split; [intros; now apply mb_accumulate_between_spec|].
  split; [intros; now apply mb_accumulate_between_spec|]. split; [reflexivity|now apply remove_after_filter].
Qed.
Example C18_example : mb_get_all_at_t 5 (mb_run [MInsert 5 1; MInsert 3 2; MInsert 5 3]) = [1; 3] /\
  mb_get_between 5 5 (mb_run [MInsert 5 1; MInsert 3 2; MInsert 5 3]) = [(5, 1); (5, 3)].
Proof. split; reflexivity. Qed.

(** ** C19: multi buffer exist_before_t *)
(** What the code computes: true exactly if some element is at or after t and either an earlier one exists or
    nothing is stored at t itself. *)
Theorem C19_exist_before_exact : forall (T : Type) (ops : list (mb_op T)) (t : Z),
  let l := mb_run ops in
  (mb_exist_before_t t l = true <->
     (exists e, In e l /\ t <= fst e) /\ ((exists e, In e l /\ fst e < t) \/ (forall v, ~ In (t, v) l))) /\
  (* correct whenever an element is stored at t *)
  ((exists v, In (t, v) l) -> (mb_exist_before_t t l = true <-> get_before_t t l <> None)).
Proof.
  intros T ops t l. pose proof (mb_run_wsorted ops) as W. fold l in W. pose proof (mb_exist_before_exact t l W) as E.
  split; [exact E|]. intros [v I]. rewrite E. split.
  - intros [_ [[e [J L]]|N]] G; [|now apply N in I]. rewrite get_before_none in G by exact W. apply G in J. lia.
  - destruct (get_before_t t l) as [[k w]|] eqn:G; [|congruence]. intros _. apply get_before_spec in G; [|exact W].
    split; [exists (t, v); cbn; split; [exact I|lia]|]. left. exists (k, w). cbn. tauto.
Qed.
Theorem C19_wrong_answers :
  (exists (ops : list (mb_op Z)) t, mb_exist_before_t t (mb_run ops) = true /\ get_before_t t (mb_run ops) = None) /\
  (exists (ops : list (mb_op Z)) t, mb_exist_before_t t (mb_run ops) = false /\ get_before_t t (mb_run ops) <> None).
Proof.
  split; [exists [MInsert 5 1], 3|exists [MInsert 5 1], 9]; split; try reflexivity. vm_compute; discriminate.
Qed.
Example C19_example : mb_exist_before_t 5 (mb_run [MInsert 5 1; MInsert 3 2]) = true.
Proof. reflexivity. Qed.

(** ** C20: multi buffer index_at_t *)
Theorem C20_index : forall (T : Type) (ops : list (mb_op T)) (t : Z),
  let l := mb_run ops in
  match snd (mb_index_at_t t l) with
  | Some i => (exists v, at_idx i l = Some (t, v)) /\ forall j e, (j < i)%nat -> at_idx j l = Some e -> fst e <> t
  | None => forall v, ~ In (t, v) l
  end.
Proof.
  intros T ops t l. unfold mb_index_at_t. cbn [snd]. destruct (exist_at_t t l) eqn:X.
  - assert (N : find_pos t l <> length l).
    { intros E. apply exist_at_iff in X. destruct X as [v I]. rewrite find_pos_end in E. now apply (E _ I). }
    destruct (find_pos_some t l N) as [v [E M]]. split; [exists v; now rewrite at_idx_nth|].
    intros j e L. rewrite at_idx_nth. intros. eapply M; eauto.
  - intros v I. assert (exist_at_t t l = true) by (apply exist_at_iff; eauto). congruence.
Qed.
(** but the returned flag is always false *)
Theorem C20_flag_always_false :
  (forall (T : Type) t (l : buf T), fst (mb_index_at_t t l) = false) /\
  (exists (ops : list (mb_op Z)) t, exist_at_t t (mb_run ops) = true /\ fst (mb_index_at_t t (mb_run ops)) = false).
Proof. split; [reflexivity|]. exists [MInsert 5 1], 5. split; reflexivity. Qed.
Example C20_example : snd (mb_index_at_t 5 (mb_run [MInsert 5 1; MInsert 3 2; MInsert 5 3])) = Some 1%nat.
Proof. reflexivity. Qed.

(** ** C21: horizon *)
(** The double [h] denotes [hz] nanoseconds up to a tenth of a nanosecond. *)
Definition denotes_ns (h : double) (hz : Z) : Prop :=
  is_finite h = true /\ (Rabs (B2R h * 1000000000 - IZR hz) <= / 10)%R.

(** For every horizon value (also NaN, infinite) a completed check only drops a prefix and keeps the newest. *)
Theorem C21_newest_survives : forall (T : Type) (ops : list (mb_op T)) (h : double) (l' : buf T),
  check_horizon h (mb_run ops) = Ok l' ->
  (exists dropped, mb_run ops = dropped ++ l') /\ get_latest l' = get_latest (mb_run ops).
Proof. intros T ops h l'. apply check_suffix. Qed.
(** it always completes on non-negative int64 keys, for every horizon passed through set_horizon *)
Theorem C21_check_total : forall (T : Type) (ops : list (mb_op T)) (h : double),
  (forall e, In e (mb_run ops) -> 0 <= fst e < 2 ^ 63) ->
  exists l', check_horizon (set_horizon h) (mb_run ops) = Ok l'.
Proof. intros. apply check_horizon_total; auto. apply mb_run_wsorted. Qed.
(** exactly the elements not older than newest - horizon stay *)
Theorem C21_exact : forall (T : Type) (ops : list (mb_op T)) (h : double) (hz a : Z),
  denotes_ns h hz -> 0 <= hz < 2097151 * giga ->
  (forall e, In e (mb_run ops) -> 0 <= fst e < 2097151 * giga) ->
  get_latest_t (mb_run ops) = Some a ->
  check_horizon h (mb_run ops) = Ok (filter (fun e => a - hz <=? fst e) (mb_run ops)).
Proof. intros. apply check_horizon_exact; auto. apply mb_run_wsorted. Qed.
(** the same three for the history buffer follow from the general lemmas *)
Theorem C21_history_buffer : forall (T : Type) (ops : list (hb_op T)) (h : double),
  (forall l', check_horizon h (hb_run ops) = Ok l' ->
     (exists dropped, hb_run ops = dropped ++ l') /\ get_latest l' = get_latest (hb_run ops)) /\
  (forall hz a, denotes_ns h hz -> 0 <= hz < 2097151 * giga ->
     (forall e, In e (hb_run ops) -> 0 <= fst e < 2097151 * giga) -> get_latest_t (hb_run ops) = Some a ->
     check_horizon h (hb_run ops) = Ok (filter (fun e => a - hz <=? fst e) (hb_run ops))).
Proof.
  intros T ops h. split; [apply check_suffix|]. intros. apply check_horizon_exact; auto. apply ssorted_w, hb_run_ssorted.
Qed.
(** insert-then-check over any sequence of insertions: never fails, and the result is the untrimmed buffer
    restricted to [newest - horizon, newest]; in particular the span never exceeds the horizon. *)
Theorem C21_run : forall (T : Type) (multi : bool) (ev : list (Z * T)) (h : double) (hz : Z),
  denotes_ns h hz -> 0 <= hz < 2097151 * giga -> (forall e, In e ev -> 0 <= fst e < 2097151 * giga) ->
  let ins := if multi then @mb_insert T else @hb_insert T in
  let newest := fold_left (fun m e => Z.max m (fst e)) ev 0 in
  let all := fold_left (fun l e => ins (fst e) (snd e) l) ev [] in
  hor_run ins h [] ev = Ok (filter (fun e => newest - hz <=? fst e) all) /\
  (forall l, hor_run ins h [] ev = Ok l -> forall a b, In a l -> In b l -> fst a - fst b <= hz).
Proof.
  intros T multi ev h hz D Hh He ins newest all.
  assert (E : hor_run ins h [] ev = Ok (filter (fun e => newest - hz <=? fst e) all)).
  { unfold ins. destruct multi; [now apply mb_hor_run_exact|now apply hb_hor_run_exact]. }
  split; [exact E|]. intros l H a b Ia Ib. rewrite E in H. injection H as <-.
  apply filter_In in Ia, Ib. destruct Ia as [Ia _], Ib as [_ Ib]. apply Z.leb_le in Ib.
  assert (M : fst a <= newest); [|lia].
  assert (S : forall q acc, acc <= fold_left (fun m (e : Z * T) => Z.max m (fst e)) q acc /\
     forall e, In e q -> fst e <= fold_left (fun m (e : Z * T) => Z.max m (fst e)) q acc).
  { induction q as [|x q IH]; intros acc; cbn; [split; [lia|tauto]|].
    destruct (IH (Z.max acc (fst x))) as [A B]. split; [lia|]. intros e [<-|I]; [lia|now apply B]. }
  apply S. revert Ia. unfold all, ins. destruct multi.
  - apply (untrimmed_from_ev mb_insert wsorted); intros; try (now constructor); try now apply mb_insert_wsorted.
    now apply mb_insert_In in H0.
  - apply (untrimmed_from_ev hb_insert ssorted); intros; try (now constructor); try now apply hb_insert_ssorted.
    apply hb_insert_In in H0; tauto.
Qed.
Example C21_example :
  hor_run (@mb_insert Z) (d_of_Z 2) [] [(giga, 1); (2 * giga, 2); (4 * giga, 3); (giga, 4); (3 * giga, 5)]
  = Ok [(2 * giga, 2); (3 * giga, 5); (4 * giga, 3)].
Proof. vm_compute. reflexivity. Qed.
(** the hypothesis on the horizon is met e.g. by every whole number of seconds *)
Example C21_denotes_example : denotes_ns (d_of_Z 3) (3 * giga).
Proof.
  destruct (DoubleProofs.d_of_Z_exact 3) as [E F]; [lia|]. split; [exact F|]. rewrite E. unfold giga.
  rewrite mult_IZR. replace (_ - _)%R with 0%R by ring. rewrite Rabs_R0. apply Rlt_le, Rinv_0_lt_compat. apply IZR_lt. lia.
Qed.

(** ** C22: trimming relative to an external time *)
Theorem C22_from_t : forall (T : Type) (ops : list (hb_op T)) (h : double) (hz t : Z),
  denotes_ns h hz -> 0 <= hz < 2097151 * giga -> 0 <= t < 2097151 * giga ->
  let l := hb_run ops in
  ((exists e, In e l /\ t - hz <= fst e) ->
     check_horizon_from_t h (from_stamp_ns t) l = Ok (filter (fun e => t - hz <=? fst e) l)) /\
  ((forall e, In e l -> fst e < t - hz) -> check_horizon_from_t h (from_stamp_ns t) l = Ok l).
Proof.
  intros T ops h hz t D Hh Ht l. assert (W : wsorted l) by apply ssorted_w, hb_run_ssorted.
  rewrite (check_from_exact h hz t l W D Hh Ht). split.
  - intros [e [I L]]. replace (existsb _ l) with true; [reflexivity|]. symmetry. apply existsb_exists. exists e. split; [exact I|lia].
  - intros H. replace (existsb _ l) with false; [reflexivity|]. symmetry.
    destruct (existsb _ l) eqn:E; [|reflexivity]. apply existsb_exists in E. destruct E as [e [I L]]. apply H in I. lia.
Qed.
Theorem C22_restricted : forall (T : Type) (ops : list (hb_op T)) (h : double) (n : nat) (l' : buf T),
  check_horizon_restricted h n (hb_run ops) = Ok l' ->
  (exists dropped, hb_run ops = dropped ++ l') /\ get_latest l' = get_latest (hb_run ops) /\
  ((length (hb_run ops) <= n)%nat -> l' = hb_run ops).
Proof. intros T ops h n l'. apply check_restricted_suffix. Qed.
Theorem C22_restricted_exact : forall (T : Type) (ops : list (hb_op T)) (h : double) (hz a : Z) (n : nat),
  denotes_ns h hz -> 0 <= hz < 2097151 * giga ->
  (forall e, In e (hb_run ops) -> 0 <= fst e < 2097151 * giga) -> get_latest_t (hb_run ops) = Some a ->
  (n < length (hb_run ops))%nat ->
  check_horizon_restricted h n (hb_run ops) = Ok (filter (fun e => a - hz <=? fst e) (hb_run ops)).
Proof.
  intros T ops h hz a n D Hh Hl E L. rewrite (check_restricted_exact h hz n a); auto; [|apply ssorted_w, hb_run_ssorted].
  replace (n <? length (hb_run ops))%nat with true; [reflexivity|]. symmetry. now apply Nat.ltb_lt.
Qed.
Theorem C22_sign : forall h : double, set_horizon (Bopp h) = set_horizon h.
Proof. intros []; reflexivity. Qed.
(** a horizon of more than about 292 years (for instance DBL_MAX meant as "infinite") is undefined here, although
    check_horizon accepts it *)
Theorem C22_huge_horizon_example : exists (h : double) (ops : list (hb_op Z)) (t : Z),
  is_finite h = true /\ check_horizon_from_t h (from_stamp_ns t) (hb_run ops) = UB FloatToIntRange.
Proof.
  exists (d_of_Z (2 ^ 80)), [HInsert 5 1], 7. split; vm_compute; reflexivity.
Qed.
Example C22_example :
  check_horizon_from_t (d_of_Z 2) (from_stamp_ns (5 * giga)) (hb_run [HInsert giga 1; HInsert (3 * giga) 2; HInsert (4 * giga) 3])
  = Ok [(3 * giga, 2); (4 * giga, 3)].
Proof. vm_compute. reflexivity. Qed.

Print Assumptions C09_last_write_wins.
Print Assumptions C10_enumeration.
Print Assumptions C11_neighbours.
Print Assumptions C12_closest_safe.
Print Assumptions C12_closest_minimal.
Print Assumptions C12_epoch_not_minimal.
Print Assumptions C13_removal.
Print Assumptions C14_all_older_kept.
Print Assumptions C15_range.
Print Assumptions C16_subsampling.
Print Assumptions C17_multi_insert.
Print Assumptions C18_multi_queries.
Print Assumptions C19_exist_before_exact.
Print Assumptions C20_index.
Print Assumptions C21_run.
Print Assumptions C21_check_total.
Print Assumptions C22_from_t.
Print Assumptions C22_huge_horizon_example.
