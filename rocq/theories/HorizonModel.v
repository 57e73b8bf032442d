(** Models of the parts of the buffers that compute with time differences in double precision:
    THistoryBuffer::get_closest_t and TTimeHorizonBuffer.
    Sources: /repo/source/ikf/include/ikf/Container/THistoryBuffer.hpp (THB),
             /repo/source/ikf/include/ikf/Container/TTimeHorizonBuffer.hpp (TTH).
    TTimeHorizonBuffer<T, TBuffer> only calls methods THistoryBuffer and TMultiHistoryBuffer share, so one
    model serves both instantiations. *)
From Coq Require Import ZArith List Bool.
From Flocq Require Import IEEE754.BinarySingleNaN.
From Verif Require Import Outcome TimestampModel DoubleModel BufModel.
Local Open Scope Z_scope.
Local Open Scope outcome_scope.

Section Hor.
Context {T : Type}.
Implicit Types (l : buf T).

(** THB 510-539 (and 490-508, which forward to it): get_closest_t; the query timestamp and the keys are
    converted with Timestamp(int64). *)
Definition get_closest_t (k : Z) l : outcome (option (Z * T)) :=
  if empty l then Ok None
  else if exist_at_t k l then Ok (option_map (fun v => (k, v)) (get_at_t k l))
  else if exist_after_t k l && hb_exist_before_t k l then
    match get_before_t k l, get_after_t k l with
    | Some (kb, _), Some (ka, _) =>
        let! d1 := ts_sub (from_stamp_ns k) (from_stamp_ns kb) in
        let! d2 := ts_sub (from_stamp_ns ka) (from_stamp_ns k) in
        if ts_lt d1 d2 then Ok (get_before_t k l) else Ok (get_after_t k l)
    | _, _ => Ok None
    end
  else if exist_after_t k l && negb (hb_exist_before_t k l) then Ok (get_after_t k l)
  else if negb (exist_after_t k l) && hb_exist_before_t k l then Ok (get_before_t k l)
  else Ok None.

(** TTH 32, 41-44: constructor and set_horizon store std::abs(horizon). *)
Definition set_horizon (h : double) : double := Babs h.

(** TTH 46-55: horizon(), the current span in seconds. *)
Definition span_sec l : double :=
  if (1 <? size l)%nat then
    match get_latest_t l, get_oldest_t l with
    | Some a, Some b => d_sub (to_sec (from_stamp_ns a)) (to_sec (from_stamp_ns b))
    | _, _ => d_of_Z 0
    end
  else d_of_Z 0.

(** shared by TTH 60-63 and 69-70: oldest_t(t.to_sec() - max_horizon_); remove_before_t(oldest_t). *)
Definition trim_from (h : double) (t : ts) l : outcome (buf T) :=
  let! o := from_sec (d_sub (to_sec t) h) in
  let! k := stamp_ns o in
  Ok (remove_before_t k l).

(** TTH 57-65: check_horizon. *)
Definition check_horizon (h : double) l : outcome (buf T) :=
  if negb (empty l) && Bltb h (span_sec l) then
    match get_latest_t l with
    | Some a => trim_from h (from_stamp_ns a) l
    | None => Ok l
    end
  else Ok l.

(** TTH 67-72: check_horizon_from_t. *)
Definition check_horizon_from_t (h : double) (t : ts) l : outcome (buf T) :=
  if negb (empty l) then trim_from h t l else Ok l.

(** TTH 74-81: check_horizon_restricted. *)
Definition check_horizon_restricted (h : double) (n : nat) l : outcome (buf T) :=
  if (n <? size l)%nat && Bltb h (span_sec l) then
    match get_latest_t l with
    | Some a => trim_from h (from_stamp_ns a) l
    | None => Ok l
    end
  else Ok l.

(** TTH 35-39: clone copies the horizon and the content. *)
Definition hor_clone (h : double) l : double * buf T := (Babs h, l).
End Hor.

(** The usage pattern of every owner of such a buffer (e.g. IKalmanFilter.cpp 68-71, IDICOHandler.cpp 247-249,
    279-281): insert an element, then check_horizon.  [ins] is hb_insert or mb_insert. *)
Fixpoint hor_run {T} (ins : Z -> T -> buf T -> buf T) (h : double) (l : buf T) (ev : list (Z * T)) : outcome (buf T) :=
  match ev with
  | nil => Ok l
  | cons (k, v) r => let! l' := check_horizon h (ins k v l) in hor_run ins h l' r
  end.
