(** Independent specification of the central handler: what an instance stores, what is asked of estimators, the order
    of measurements, and what a replay does.  Nothing here refers to the handler's functions except the data types. *)
From Coq Require Import ZArith List Bool Sorted Permutation.
From Verif Require Import BufModel BufProofs MeasModel HandlerModel.
Import ListNotations.
Local Open Scope Z_scope.

(** ** the clock
    Either all times lie below 2097151 s (24 days since the clock's zero), where the library's double-valued seconds
    resolve every nanosecond; or below 2147483647 s (wall-clock epoch times until January 2038), where they resolve about
    238 ns and comparisons of times are only asked to succeed with 1000 ns to spare. *)
Definition clock (tmax slack : Z) : Prop :=
  (tmax = 2097151 * 1000000000 /\ slack = 0) \/ (tmax = 2147483647 * 1000000000 /\ slack = 1000).

Section Spec.
Context {B M P : Type}.
Notation meas := (meas P). Notation inst := (inst B M). Notation dict := (dict B M).

(** ** content of an instance, pointwise *)
Fixpoint assoc {V} (j : nat) (c : list (nat * V)) : option V :=
  match c with [] => None | (k, b) :: r => if (k =? j)%nat then Some b else assoc j r end.
(** the belief stored at k / the factor towards j stored at k *)
Definition bel_at (k : Z) (i : inst) : option B := get_at_t k (i_bel i).
Definition ccf_at (j : nat) (k : Z) (i : inst) : option M := match assoc j (i_ccf i) with Some b => get_at_t k b | None => None end.
(** the same content *)
Definition same_inst (i i' : inst) : Prop :=
  i_enabled i = i_enabled i' /\ (forall k, bel_at k i = bel_at k i') /\ (forall j k, ccf_at j k i = ccf_at j k i').
Definition same (d d' : dict) : Prop := Forall2 (fun a b => fst a = fst b /\ same_inst (snd a) (snd b)) d d'.
(** [d'] differs from [d] at time [t] only *)
Definition only_at (t : Z) (i i' : inst) : Prop :=
  i_enabled i = i_enabled i' /\ (forall k, k <> t -> bel_at k i = bel_at k i') /\ (forall j k, k <> t -> ccf_at j k i = ccf_at j k i').
Definition writes_only_at (t : Z) (d d' : dict) : Prop := Forall2 (fun a b => fst a = fst b /\ only_at t (snd a) (snd b)) d d'.

(** ** the contract of the estimators *)
(** every stored time lies in the window [wa, wb] (what the horizon spans); times, instance IDs and factor IDs are unique *)
Definition okb (wa wb : Z) {T} (b : buf T) : Prop := ssorted b /\ forall e, In e b -> wa <= fst e <= wb.
Definition wf_inst (wa wb : Z) (i : inst) : Prop :=
  okb wa wb (i_bel i) /\ (forall j b, In (j, b) (i_ccf i) -> okb wa wb b) /\ NoDup (map fst (i_ccf i)).
Definition wf (wa wb : Z) (d : dict) : Prop := NoDup (map fst d) /\ forall e, In e d -> wf_inst wa wb (snd e).
(** [d'] holds part of what [d] holds *)
Definition part_inst (i' i : inst) : Prop := i_enabled i' = i_enabled i /\
  (forall k b, bel_at k i' = Some b -> bel_at k i = Some b) /\ (forall j k f, ccf_at j k i' = Some f -> ccf_at j k i = Some f).
Definition part_of (d' d : dict) : Prop := Forall2 (fun a b => fst a = fst b /\ part_inst (snd a) (snd b)) d' d.
(** The contract, for contents satisfying [good] (say, of the right dimensions) and measurements satisfying [okm].  Inside the
    window, handling a measurement writes beliefs and factors at the measurement's time only, computes them from the stored
    content, and the result is a processing status (never DISCARED). *)
Record contract (wa wb : Z) (good : dict -> Prop) (okm : meas -> Prop) (deleg : dict -> meas -> dict * status) : Prop := {
  c_part : forall d d', good d -> part_of d' d -> good d';
  c_wf : forall d m, wf wa wb d -> good d -> wa <= m_t m <= wb -> okm m -> wf wa wb (fst (deleg d m)) /\ good (fst (deleg d m));
  c_only : forall d m, wf wa wb d -> good d -> wa <= m_t m <= wb -> okm m -> writes_only_at (m_t m) d (fst (deleg d m));
  c_same : forall d d' m, wf wa wb d -> good d -> wf wa wb d' -> good d' -> wa <= m_t m <= wb -> okm m -> same d d' ->
    same (fst (deleg d m)) (fst (deleg d' m)) /\ snd (deleg d m) = snd (deleg d' m);
  c_disc : forall d m, wf wa wb d -> good d -> wa <= m_t m <= wb -> okm m -> snd (deleg d m) <> DISCARED }.

(** ** order of measurements: by time, and at one instant propagation, private, joint *)
Definition rank (ty : obs_type) : nat := match ty with UNKNOWN => 0 | PROPAGATION => 1 | PRIVATE => 2 | JOINT => 3 end.
Definition mle (a b : meas) : Prop := m_t a < m_t b \/ (m_t a = m_t b /\ (rank (m_ty a) <= rank (m_ty b))%nat).
(** the measurements of one instant and type *)
Definition slot (t : Z) (ty : obs_type) (ms : list meas) : list meas := filter (fun x => (m_t x =? t) && obs_eqb (m_ty x) ty) ms.
(** [s] is the stable sort of [ms] *)
Definition stable_sort (ms s : list meas) : Prop :=
  StronglySorted mle s /\ Permutation ms s /\ forall t ty, slot t ty s = slot t ty ms.

(** ** replaying measurements: (deferring?) instances, measurements, instances after, results, flagged times *)
Definition delegated (deleg : dict -> meas -> dict * status) (d : dict) (m : meas) (d' : dict) (s : status) : Prop :=
  match d_find (m_id m) d with
  | Some i => if i_enabled i then (d', s) = deleg d m else (d', s) = (d, DISCARED)
  | None => (d', s) = (d, DISCARED)
  end.
Inductive replayed (deleg : dict -> meas -> dict * status) : bool -> dict -> list meas -> dict -> list result -> list Z -> Prop :=
| RNil c d : replayed deleg c d [] d [] []
(* before any out-of-order status everything is delegated; so is a propagation afterwards *)
| RDelegate c d m d1 s r d' vec fl : c = false \/ m_ty m = PROPAGATION -> delegated deleg d m d1 s -> s <> OUTOFORDER ->
    replayed deleg c d1 r d' vec fl -> replayed deleg c d (m :: r) d' (Res s (m_t m) :: vec) fl
| ROutOfOrder c d m d1 r d' vec fl : c = false \/ m_ty m = PROPAGATION -> delegated deleg d m d1 OUTOFORDER ->
    replayed deleg true d1 r d' vec fl -> replayed deleg c d (m :: r) d' (Res OUTOFORDER (m_t m) :: vec) (m_t m :: fl)
(* afterwards private and joint measurements are only flagged *)
| RDefer d m r d' vec fl : m_ty m <> PROPAGATION ->
    replayed deleg true d r d' vec fl -> replayed deleg true d (m :: r) d' vec (m_t m :: fl).
End Spec.
