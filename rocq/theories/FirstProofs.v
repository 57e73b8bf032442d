(** What the handler does with measurements that are not newer than the first one to arrive. *)
From Coq Require Import ZArith List Bool Arith Lia Sorted Permutation.
From Verif Require Import Outcome BufModel Spec_Buf BufProofs HorizonModel HorizonProofs MeasModel HandlerModel Spec_Handler ClockProofs ReplayProofs ArrivalProofs Spec_Time Props_Buffers Props_Handler2.
Import ListNotations.
Local Open Scope Z_scope.

Lemma process_all_app {B M P} (deleg : dict B M -> meas P -> dict B M * status) a b : forall h,
  process_all deleg h (a ++ b) = obind (process_all deleg h a) (fun h' => process_all deleg h' b).
Proof.
  induction a as [|m a IH]; intros h; [reflexivity|]. cbn [app process_all].
  destruct (process deleg m h) as [x|e|e]; [cbn [obind]; apply IH|reflexivity|reflexivity].
Qed.
Lemma chrono_ss {P} (ms : list (meas P)) : stable_sort ms (chrono ms).
Proof. split; [apply fold_sorted; constructor|]. split; [apply (fold_perm ms [])|]. intros t ty. unfold chrono. now rewrite fold_slot by constructor. Qed.
Lemma processable_incl {B M P} (good : dict B M -> Prop) okm deleg d0 lo wa wb hz hzo tmax slack (l l' : list (meas P)) :
  (forall x, In x l' -> In x l) -> processable good okm deleg d0 lo wa wb hz hzo tmax slack l -> processable good okm deleg d0 lo wa wb hz hzo tmax slack l'.
Proof. intros I [A [B' D]]. split; [auto|]. split; [auto|]. destruct D as [D|D]; [now left|right; auto]. Qed.


(** if after the first and any prefix of the newer measurements the stored history is the chronological one, the others do not count *)
Lemma stale_discarded {B M P} (deleg : dict B M -> meas P -> dict B M * status) (tmax slack : Z) (m0 : meas P) kept m (h1 : handler B M P) :
  clock tmax slack -> (forall x, In x (m0 :: kept) -> m_t m0 <= m_t x < tmax) -> h_meas h1 = map (fun m => (m_t m, m)) (chrono (m0 :: kept)) ->
  0 <= m_t m -> m_t m <= m_t m0 -> process deleg m h1 = Ok (h1, [discarded_result]).
Proof.
  intros Ck R M1 Rm Le.
  destruct (chrono_ss (m0 :: kept)) as [Ss [Pm _]].
  unfold process, process_gen. destruct (negb (exists_id (m_id m) h1)); [reflexivity|].
  assert (T : too_old m (h_meas h1) = true); [|now rewrite T].
  assert (In1 : forall x, In x (chrono (m0 :: kept)) -> m_t m0 <= m_t x < tmax) by (intros x I; apply R; revert I; apply Permutation_in; now apply Permutation_sym).
  assert (Rl : forall e, In e (h_meas h1) -> 0 <= fst e < tmax).
  { rewrite M1. intros e He. apply in_map_iff in He. destruct He as [x [<- Hx]]. cbn. apply In1 in Hx. lia. }
  assert (Wl : wsorted (h_meas h1)) by (rewrite M1; now apply keyed_ws).
  assert (Rm0 : 0 <= m_t m < tmax) by (specialize (R m0 (or_introl eq_refl)); lia).
  apply (proj2 (too_old_clock tmax slack m (h_meas h1) Ck Wl Rl Rm0)).
  - rewrite M1. pose proof (Permutation_in m0 Pm (or_introl eq_refl)) as Im. destruct (chrono (m0 :: kept)); [contradiction|discriminate].
  - rewrite M1. intros e He. apply in_map_iff in He. destruct He as [x [<- Hx]]. cbn. apply In1 in Hx. lia.
Qed.
Lemma only_newer_gen {B M P} (deleg : dict B M -> meas P -> dict B M * status) (tmax slack : Z) (h : handler B M P) (m0 : meas P) rest :
  clock tmax slack -> (forall x, In x (m0 :: rest) -> 0 <= m_t x < tmax) ->
  (forall a b, filter (fun m => m_t m0 <? m_t m) rest = a ++ b -> exists h1, process_all deleg h (m0 :: a) = Ok h1 /\ h_meas h1 = map (fun m => (m_t m, m)) (chrono (m0 :: a))) ->
  process_all deleg h (m0 :: rest) = process_all deleg h (m0 :: filter (fun m => m_t m0 <? m_t m) rest).
Proof.
  intros Ck. induction rest as [|m r IH] using rev_ind; intros Hk St; [reflexivity|].
  rewrite filter_app in *. cbn [filter] in *.
  assert (IH' : process_all deleg h (m0 :: r) = process_all deleg h (m0 :: filter (fun m => m_t m0 <? m_t m) r)).
  { apply IH; [intros x [<-|I]; apply Hk; [now left|right; apply in_or_app; now left]|]. intros a b E. apply (St a (b ++ (if m_t m0 <? m_t m then [m] else []))). now rewrite E, app_assoc. }
  change (m0 :: r ++ [m]) with ((m0 :: r) ++ [m]). change (m0 :: filter (fun m => m_t m0 <? m_t m) r ++ ?l) with ((m0 :: filter (fun m => m_t m0 <? m_t m) r) ++ l).
  rewrite !process_all_app, IH'. assert (Rm : 0 <= m_t m < tmax) by (apply Hk; right; apply in_or_app; right; now left).
  destruct (Z.ltb_spec (m_t m0) (m_t m)) as [L|L]; [reflexivity|].
  destruct (St (filter (fun m => m_t m0 <? m_t m) r) [] eq_refl) as [h1 [E M1]]. rewrite E. cbn [obind process_all].
  rewrite (stale_discarded deleg tmax slack m0 (filter (fun m => m_t m0 <? m_t m) r) m h1 Ck); [reflexivity| |exact M1|lia|exact L].
  intros x [<-|I]; [split; [lia|apply Hk; now left]|]. apply filter_In in I. destruct I as [I L2]. apply Z.ltb_lt in L2.
  split; [lia|apply Hk; right; apply in_or_app; now left].
Qed.
