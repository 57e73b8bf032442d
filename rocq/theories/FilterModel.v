(** Model of the single filter IKalmanFilter: routing, storage, replay and belief lookup.
    Source: /repo/source/ikf/source/Estimator/IKalmanFilter.cpp (IKF).

    Simplifications: a belief is a value of an arbitrary type [B] (the C++ code stores shared pointers; aliasing is
    not modelled); the user's virtual callbacks progapation_measurement / local_private_measurement and
    predict_to are arbitrary functions of the belief history and the measurement; what they do to the belief history
    is an arbitrary sequence of buffer operations (BufModel.hb_op; an in-place correction of a stored belief is an
    insert at its time).  They do not touch the measurement history. *)
From Coq Require Import ZArith List Bool.
From Verif Require Import Outcome TimestampModel DoubleModel BufModel HorizonModel MeasModel.
Import ListNotations.
Local Open Scope Z_scope.
Local Open Scope outcome_scope.

Section Filter.
Context {B P : Type}.
Notation meas := (meas P).
(** callbacks: (operations performed on the belief history, status) *)
Variable prop_cb priv_cb : buf B -> meas -> list (hb_op B) * status.
Variable predict_cb : buf B -> Z -> list (hb_op B) * bool.
Definition apply_ops (b : buf B) (ops : list (hb_op B)) : buf B := fold_left hb_step ops b.

(** IKalmanFilter.hpp 133-137. *)
Record filt := Filt { f_bel : buf B; f_meas : buf meas; f_delayed : bool; f_hor_meas : double }.

(** IKF 299-325: IKalmanFilter::delegate_measurement. *)
Definition delegate (b : buf B) (m : meas) : buf B * result :=
  match m_ty m with
  | PROPAGATION => let (ops, s) := prop_cb b m in (apply_ops b ops, Res s (m_t m))
  | PRIVATE => let (ops, s) := priv_cb b m in (apply_ops b ops, Res s (m_t m))
  | JOINT | UNKNOWN => (b, Res DISCARED (m_t m))
  end.

(** IKF 240-245: insert_measurement. *)
Definition insert_measurement (m : meas) (f : filt) : filt :=
  if f_delayed f then Filt (f_bel f) (mb_insert (m_t m) m (f_meas f)) (f_delayed f) (f_hor_meas f) else f.

(** the loop body shared by IKF 87 and 91 *)
Definition redo_one (s : buf B * list result) (m : meas) : buf B * list result :=
  let (b, vec) := s in let (b', r) := delegate b m in (b', vec ++ [r]).

(** IKF 78-96: redo_updates_after_t.  get_at_t on the multi-buffer yields one (the first) element at t_after. *)
Definition redo_updates_after_t (t : Z) (f : filt) : filt * list result :=
  let b0 := remove_after_t t (f_bel f) in
  let mk b := Filt b (f_meas f) (f_delayed f) (f_hor_meas f) in
  match get_after_t t (f_meas f), get_latest_t (f_meas f) with
  | Some (t_after, _), Some t_last =>
      if t_after =? t_last then
        match get_at_t t_after (f_meas f) with
        | Some m => let (b', vec) := redo_one (b0, []) m in (mk b', vec)
        | None => (mk b0, [])
        end
      else
        let (b', vec) := mb_foreach_between t_after t_last redo_one (b0, []) (f_meas f) in (mk b', vec)
  | _, _ => (mk b0, [])
  end.

(** IKF 59-76: process_measurement. *)
Definition process_measurement (m : meas) (f : filt) : outcome (filt * list result) :=
  let (b1, res) := delegate (f_bel f) m in
  let f1 := Filt b1 (f_meas f) (f_delayed f) (f_hor_meas f) in
  if f_delayed f then
    let (f2, vec) :=
      if is_ooo (r_status res) && exist_after_t (m_t m) (f_meas f1)
      then let (f2, after) := redo_updates_after_t (m_t m) f1 in (f2, res :: after)
      else (f1, [res]) in
    if negb (is_disc (r_status res)) then
      let f3 := insert_measurement m f2 in
      let! h := check_horizon (f_hor_meas f3) (f_meas f3) in
      Ok (Filt (f_bel f3) h (f_delayed f3) (f_hor_meas f3), vec)
    else Ok (f2, vec)
  else Ok (f1, [res]).

(** IKF 39-44: handle_delayed_meas(val). *)
Definition set_delayed (v : bool) (f : filt) : filt :=
  Filt (f_bel f) (if v then f_meas f else []) v (f_hor_meas f).

(** IKF 50-57, 234-238: initialize and reset. *)
Definition reset (f : filt) : filt := Filt [] (f_meas f) (f_delayed f) (f_hor_meas f).
Definition initialize (bel : B) (t : Z) (f : filt) : filt :=
  Filt (hb_insert t bel []) (f_meas f) (f_delayed f) (f_hor_meas f).

(** IKF 98-113: current_t (0 when empty), current_belief. *)
Definition current_t (b : buf B) : Z := match get_latest_t b with Some t => t | None => 0 end.
Definition current_belief (b : buf B) : option B := option_map snd (get_latest b).

(** IKalmanFilter.hpp 33-38: eGetBeliefStrategy; [OTHER] is any other value forced into the enum. *)
Inductive strategy := EXACT | CLOSEST | PREDICT_BELIEF | OTHER.

(** IKF 140-199: get_belief_at_t(t, bel, type); returns the (possibly extended) history and the belief. *)
Definition get_belief_at_t (t : Z) (ty : strategy) (b : buf B) : buf B * option B :=
  if negb (exist_at_t t b) then
    match ty with
    | EXACT => (b, get_at_t t b)
    | CLOSEST =>
        (b, match get_before_t t b with
            | Some (kp, vp) =>
                match get_after_t t b with
                | Some (ka, va) => if (t - kp <=? ka - t) then Some vp else Some va
                | None => Some vp
                end
            | None => option_map snd (get_after_t t b)
            end)
    | PREDICT_BELIEF => let (ops, ok) := predict_cb b t in
        let b' := apply_ops b ops in (b', if ok then get_at_t t b' else None)
    | OTHER => (b, None)
    end
  else (b, get_at_t t b).

(** IKF 123-129 and 224-232: get_belief_at_t(t) returns a null pointer when nothing is stored, which
    get_mean_at_t / get_Sigma_at_t dereference; [field] is mean() or Sigma(). *)
Definition get_field_at_t {V} (field : B -> V) (t : Z) (b : buf B) : outcome V :=
  match get_at_t t b with Some v => Ok (field v) | None => UB NullDeref end.

(** Public calls on a filter. *)
Inductive fop :=
| FProcess (m : meas) | FDelayed (v : bool) | FReset | FInit (bel : B) (t : Z) | FSetBelief (bel : B) (t : Z)
| FGetBelief (t : Z) (ty : strategy).
Definition fstep (f : filt) (o : fop) : outcome filt :=
  match o with
  | FProcess m => omap fst (process_measurement m f)
  | FDelayed v => Ok (set_delayed v f)
  | FReset => Ok (reset f)
  | FInit bel t => Ok (initialize bel t f)
  | FSetBelief bel t => Ok (Filt (hb_insert t bel (f_bel f)) (f_meas f) (f_delayed f) (f_hor_meas f))   (* IKF 201-203 *)
  | FGetBelief t ty => Ok (Filt (fst (get_belief_at_t t ty (f_bel f))) (f_meas f) (f_delayed f) (f_hor_meas f))
  end.
Fixpoint frun (f : filt) (ops : list fop) : outcome filt :=
  match ops with [] => Ok f | o :: r => let! f' := fstep f o in frun f' r end.
(** IKF 28-30: constructor. *)
Definition new_filter (h : double) (delayed : bool) : filt := Filt [] [] delayed (set_horizon h).
End Filter.
Arguments filt : clear implicits.
