(** Independent specification of the time-indexed buffers: finite maps given pointwise, and lists ordered by
    time.  Nothing here refers to the buffer functions themselves. *)
From Coq Require Import ZArith List.
From Verif Require Import BufModel.
Import ListNotations.
Local Open Scope Z_scope.

(** An abstract last-write-wins map: what is stored at each instant. *)
Definition amap (T : Type) := Z -> option T.

(** One operation on the abstract map, pointwise. *)
Inductive amap_step {T} (m : amap T) : hb_op T -> amap T -> Prop :=
| AInsert t v m' : (forall x, m' x = if Z.eq_dec x t then Some v else m x) -> amap_step m (HInsert t v) m'
| ARemoveAt t m' : (forall x, m' x = if Z.eq_dec x t then None else m x) -> amap_step m (HRemoveAt t) m'
| ARemoveAfter t m' : (forall x, m' x = if Z_lt_dec t x then None else m x) -> amap_step m (HRemoveAfter t) m'
| ARemoveBefore t m' :                                   (* something is stored at or after t *)
    (exists y v, t <= y /\ m y = Some v) ->
    (forall x, m' x = if Z_lt_dec x t then None else m x) -> amap_step m (HRemoveBefore t) m'
| ARemoveBeforeNone t m' :                               (* everything is older than t: no effect *)
    (forall y, t <= y -> m y = None) ->
    (forall x, m' x = m x) -> amap_step m (HRemoveBefore t) m'
| AClear m' : (forall x, m' x = None) -> amap_step m HClear m'.

(** The abstract map after a sequence of operations, starting from the empty map. *)
Inductive amap_run {T} : list (hb_op T) -> amap T -> Prop :=
| ARunNil m : (forall x, m x = None) -> amap_run [] m
| ARunStep ops o m m' : amap_run ops m -> amap_step m o m' -> amap_run (ops ++ [o]) m'.

(** Chronological lists. *)
Definition strictly_chronological {T} (l : list (Z * T)) : Prop :=
  forall i j a b, (i < j)%nat -> nth_error l i = Some a -> nth_error l j = Some b -> fst a < fst b.
Definition chronological {T} (l : list (Z * T)) : Prop :=
  forall i j a b, (i < j)%nat -> nth_error l i = Some a -> nth_error l j = Some b -> fst a <= fst b.

(** The sub-list of elements at one instant / in a closed interval, in list order. *)
Definition elements_at {T} (t : Z) (l : list (Z * T)) : list (Z * T) := filter (fun e => fst e =? t) l.
Definition elements_in {T} (t1 t2 : Z) (l : list (Z * T)) : list (Z * T) :=
  filter (fun e => (t1 <=? fst e) && (fst e <=? t2))%bool l.
