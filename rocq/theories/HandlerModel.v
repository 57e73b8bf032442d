(** Model of the central handler IDICOHandler: registry, measurement history, ordering, deferral and replay.
    Source: /repo/source/ikf/source/EstimatorHandler/IDICOHandler.cpp (HDL); the per-instance removal functions are
    IIsolatedKalmanFilter.cpp (IIKF) 133-147 and IKalmanFilter.cpp 115-121, 247-249.

    Simplifications.  id_dict (std::unordered_map) is an association list whose list order is the (unspecified)
    iteration order.  What delegating a measurement to an enabled instance does to the beliefs and cross-covariance
    factors of all instances is an arbitrary function [deleg] (the user's models, private and joint updates), which
    does not touch the handler's own buffers.  Every mutex acquisition succeeds (the failing case is LockModel.v).
    Logging is omitted.  Virtual is_order_violated / discard_measurement are parameters of process_measurement. *)
From Coq Require Import ZArith List Bool Arith.
From Flocq Require Import IEEE754.BinarySingleNaN.
From Verif Require Import Outcome TimestampModel DoubleModel BufModel HorizonModel MeasModel.
Import ListNotations.
Local Open Scope Z_scope.
Local Open Scope outcome_scope.

(** IKalmanFilter.hpp 133-137 and IIsolatedKalmanFilter.hpp: what the handler can see of an instance. *)
Record inst (B M : Type) := Inst { i_enabled : bool; i_bel : buf B; i_ccf : list (nat * buf M) }.
Arguments Inst {B M}. Arguments i_enabled {B M}. Arguments i_bel {B M}. Arguments i_ccf {B M}.
Definition dict (B M : Type) := list (nat * inst B M).

(** IDICOHandler.hpp: id_dict, HistMeas, Hist_OOO_Flag, HistRedoUpdateRequest and their horizons. *)
Record handler (B M P : Type) := Handler {
  h_dict : dict B M; h_meas : buf (meas P); h_ooo : buf bool; h_redo : buf bool;
  h_sec : double; h_max : double; h_ooo_max : double; h_redo_max : double }.
Arguments Handler {B M P}. Arguments h_dict {B M P}. Arguments h_meas {B M P}. Arguments h_ooo {B M P}.
Arguments h_redo {B M P}. Arguments h_sec {B M P}. Arguments h_max {B M P}. Arguments h_ooo_max {B M P}. Arguments h_redo_max {B M P}.

(** 0.25 and 0.5 *)
Definition d_quarter : double := Bdiv mode_NE (d_of_Z 1) (d_of_Z 4).
Definition d_half : double := Bdiv mode_NE (d_of_Z 1) (d_of_Z 2).

Section Hdl.
Context {B M P : Type}.
Notation meas := (meas P). Notation inst := (inst B M). Notation dict := (dict B M). Notation handler := (handler B M P).
Implicit Types (h : handler) (m : meas) (d : dict).

Definition set_dict d (h : handler) : handler := Handler d (h_meas h) (h_ooo h) (h_redo h) (h_sec h) (h_max h) (h_ooo_max h) (h_redo_max h).
Definition set_meas l (h : handler) : handler := Handler (h_dict h) l (h_ooo h) (h_redo h) (h_sec h) (h_max h) (h_ooo_max h) (h_redo_max h).
Definition set_ooo l (h : handler) : handler := Handler (h_dict h) (h_meas h) l (h_redo h) (h_sec h) (h_max h) (h_ooo_max h) (h_redo_max h).
Definition set_redo l (h : handler) : handler := Handler (h_dict h) (h_meas h) (h_ooo h) l (h_sec h) (h_max h) (h_ooo_max h) (h_redo_max h).

(** HDL 17-26: constructor. *)
Definition new_handler (hor : double) : handler :=
  Handler [] [] [] [] hor (set_horizon hor) (set_horizon (d_mul hor d_quarter)) (set_horizon (d_mul hor d_half)).

(** ** Registry *)
(** std::unordered_map::find *)
Fixpoint d_find (id : nat) d : option inst :=
  match d with [] => None | (k, i) :: r => if (k =? id)%nat then Some i else d_find id r end.
(** HDL 58-66, 427-438: exists, get. *)
Definition exists_id (id : nat) h : bool := match d_find id (h_dict h) with Some _ => true | None => false end.
Definition get_inst (id : nat) h : option inst := d_find id (h_dict h).
(** HDL 28-42: add (the instance's own horizon and delayed-handling flag are not part of [inst]). *)
Definition add (id : nat) (i : inst) h : handler * bool :=
  if exists_id id h then (h, false) else (set_dict ((id, i) :: h_dict h) h, true).
(** HDL 44-56: remove; erase by key. *)
Definition remove (id : nat) h : handler * bool :=
  match get_inst id h with
  | Some _ => (set_dict (filter (fun e => negb (fst e =? id)%nat) (h_dict h)) h, true)
  | None => (h, false)
  end.
(** HDL 68-81: get_instance_ids. *)
Definition get_instance_ids h : list nat := map fst (h_dict h).
(** HDL 99-112: set_horizon. *)
Definition h_set_horizon (hor : double) h : handler :=
  Handler (h_dict h) (h_meas h) (h_ooo h) (h_redo h) hor
    (set_horizon hor) (set_horizon (d_mul hor d_half)) (set_horizon (d_mul hor d_half)).
(** HDL 114-125: reset_buffer. *)
Definition reset_buffer h : handler := set_redo [] (set_ooo [] (set_meas [] h)).
(** HDL 440-451, IIKF 40-43: reset. *)
Definition h_reset h : handler := set_dict (map (fun e => (fst e, Inst (i_enabled (snd e)) [] [])) (h_dict h)) h.
(** HDL 127-136: insert_measurement. *)
Definition h_insert m (t : Z) h : handler := set_meas (mb_insert t m (h_meas h)) h.
(** HDL 607-612: schedule_redo_update. *)
Definition schedule_redo (t : Z) (after : bool) h : outcome handler :=
  let! r := check_horizon (h_redo_max h) (hb_insert t after (h_redo h)) in Ok (set_redo r h).

(** ** Belief removal *)
(** IIKF 133-138: remove_after_t. *)
Definition inst_remove_after (t : Z) (i : inst) : inst :=
  Inst (i_enabled i) (remove_after_t t (i_bel i)) (map (fun e => (fst e, remove_after_t t (snd e))) (i_ccf i)).
(** IIKF 140-147: remove_from_t. *)
Definition inst_remove_from (t : Z) (i : inst) : inst :=
  Inst (i_enabled i) (remove_at_t t (remove_after_t t (i_bel i)))
    (map (fun e => (fst e, remove_at_t t (remove_after_t t (snd e)))) (i_ccf i)).
(** HDL 404-416: remove_beliefs_after_t. *)
Definition remove_beliefs_after (t : Z) d : dict :=
  map (fun e => (fst e, if exist_at_t t (i_bel (snd e)) || hb_exist_before_t t (i_bel (snd e))
                        then inst_remove_after t (snd e) else snd e)) d.
(** HDL 418-425: remove_beliefs_from_t. *)
Definition remove_beliefs_from (t : Z) d : dict :=
  map (fun e => (fst e, if hb_exist_before_t t (i_bel (snd e)) then inst_remove_from t (snd e) else snd e)) d.

(** ** Sorting *)
(** HDL 164-187: the three passes insert the elements of one type at their own time. *)
Definition insert_type (ty : obs_type) (ms : buf meas) (l : buf meas) : buf meas :=
  foreach (fun l m => if obs_eqb (m_ty m) ty then mb_insert (m_t m) m l else l) l ms.
(** HDL 155-191: sort_measurements_from_t. *)
Definition sort_from (t : Z) (l : buf meas) : buf meas :=
  match get_latest_t l with
  | Some t_latest =>
      let ms := mb_get_between t t_latest l in
      if negb (empty ms)
      then insert_type JOINT ms (insert_type PRIVATE ms (insert_type PROPAGATION ms (remove_at_t t (remove_after_t t l))))
      else l
  | None => l
  end.

(** ** Ordering *)
(** HDL 569-601: is_order_violated. *)
Definition order_violated m (l : buf meas) : bool :=
  if exist_after_t (m_t m) l then true
  else
    let arr := mb_get_all_at_t (m_t m) l in
    match m_ty m with
    | JOINT => false
    | PROPAGATION => existsb (fun x => obs_eqb (m_ty x) PRIVATE || obs_eqb (m_ty x) JOINT) arr
    | PRIVATE => existsb (fun x => obs_eqb (m_ty x) JOINT) arr
    | UNKNOWN => false
    end.
(** /repo/source/ikf/source/EstimatorHandler/C_IKF_Handler.cpp 183-216: is_order_violated with the RELAXED strategy. *)
Definition order_violated_relaxed m (l : buf meas) : bool :=
  if exist_after_t (m_t m) l then true
  else match m_ty m with
       | PROPAGATION => existsb (fun x => obs_eqb (m_ty x) PRIVATE || obs_eqb (m_ty x) JOINT) (mb_get_all_at_t (m_t m) l)
       | _ => false
       end.

(** ** Delegation and replay *)
Variable deleg : dict -> meas -> dict * status.
(** HDL 287-304: delegate_measurement. *)
Definition h_delegate d m : dict * result :=
  match d_find (m_id m) d with
  | Some i => if i_enabled i then let (d', s) := deleg d m in (d', Res s (m_t m)) else (d, Res DISCARED (m_t m))
  | None => (d, Res DISCARED (m_t m))
  end.
(** HDL 318-341, 367-390: one step of the replay loop on (instances, flags, results). *)
Definition replay_step (s : dict * buf bool * list result) m : dict * buf bool * list result :=
  match s with
  | (d, ooo, vec) =>
      if empty ooo || obs_eqb (m_ty m) PROPAGATION then
        let (d', r) := h_delegate d m in
        (d', if is_ooo (r_status r) then hb_insert (m_t m) true ooo else ooo, vec ++ [r])
      else (d, hb_insert (m_t m) true ooo, vec)
  end.
(** HDL 306-352: redo_updates_from_t. *)
Definition redo_from (t : Z) h : handler * list result :=
  let d0 := remove_beliefs_from t (h_dict h) in
  match get_latest_t (h_meas h) with
  | Some t_last =>
      match (if t =? t_last then fold_left replay_step (mb_get_all_at_t t (h_meas h)) (d0, [], [])
             else mb_foreach_between t t_last replay_step (d0, [], []) (h_meas h)) with
      | (d', ooo, vec) => (set_ooo ooo (set_dict d' h), vec)
      end
  | None => (set_ooo [] (set_dict d0 h), [])
  end.
(** HDL 354-402: redo_updates_after_t. *)
Definition redo_after (t : Z) h : handler * list result :=
  let d0 := remove_beliefs_after t (h_dict h) in
  match get_after_t t (h_meas h), get_latest_t (h_meas h) with
  | Some (t_after, _), Some t_last =>
      match (if t_after =? t_last then fold_left replay_step (mb_get_all_at_t t_after (h_meas h)) (d0, [], [])
             else mb_foreach_between t_after t_last replay_step (d0, [], []) (h_meas h)) with
      | (d', ooo, vec) => (set_ooo ooo (set_dict d' h), vec)
      end
  | _, _ => (set_ooo [] (set_dict d0 h), [])
  end.

(** ** process_measurement, HDL 193-285 *)
(** HDL 200-207: a measurement older than the stored span is refused. *)
Definition too_old m (l : buf meas) : bool :=
  match get_latest_t l with
  | Some t_latest => Bleb (span_sec l) (d_sub (to_sec (from_stamp_ns t_latest)) (to_sec (from_stamp_ns (m_t m))))
  | None => false
  end.
(** HDL 210-236: open redo requests (t_latest is 0 when no measurement is stored). *)
Definition serve_requests h : outcome handler :=
  let t_latest := match get_latest_t (h_meas h) with Some t => t | None => 0 end in
  let! r := check_horizon_from_t (h_redo_max h) (from_stamp_ns t_latest) (h_redo h) in
  match get_oldest r with
  | Some (t_oldest, after) =>
      let h1 := set_redo [] h in
      match get_oldest_t (h_meas h) with
      | Some t_old_meas =>
          if t_old_meas <? t_oldest then
            Ok (fst (if after then redo_after t_oldest h1 else redo_from t_oldest h1))
          else Ok h1
      | None => Ok h1
      end
  | None => Ok (set_redo r h)
  end.
Section Process.
Variable viol : meas -> buf meas -> bool.          (* virtual is_order_violated *)
Variable disc : meas -> handler -> bool.           (* virtual discard_measurement *)
Definition process_gen m h : outcome (handler * list result) :=
  if negb (exists_id (m_id m) h) then Ok (h, [discarded_result])
  else if too_old m (h_meas h) then Ok (h, [discarded_result])
  else
    let! h1 := serve_requests h in
    if disc m h1 then Ok (h1, [discarded_result])
    else
      let v := viol m (h_meas h1) in
      let! flags := check_horizon_from_t (h_ooo_max h1) (from_stamp_ns (m_t m)) (h_ooo h1) in
      let h2 := set_ooo flags h1 in
      let ooo_exists := hb_exist_before_t (m_t m) flags || exist_at_t (m_t m) flags in
      if v || ooo_exists then
        let! l := check_horizon (h_max h2) (mb_insert (m_t m) m (h_meas h2)) in
        let t_start := if ooo_exists then
                         match get_oldest_t flags with
                         | Some t0 => if t0 <? m_t m then t0 else m_t m
                         | None => m_t m
                         end
                       else m_t m in
        let h3 := set_ooo (if ooo_exists then [] else flags) (set_meas l h2) in
        Ok (redo_from t_start (set_meas (sort_from t_start l) h3))
      else
        let (d', r) := h_delegate (h_dict h2) m in
        let h3 := set_ooo (if is_ooo (r_status r) then hb_insert (m_t m) true flags else flags) (set_dict d' h2) in
        if negb (is_disc (r_status r)) then
          let! l := check_horizon (h_max h3) (mb_insert (m_t m) m (h_meas h3)) in
          Ok (set_meas l h3, [r])
        else Ok (h3, [r]).
End Process.
(** HDL 569-605: the base class behaviour. *)
Definition process := process_gen order_violated (fun _ _ => false).

(** Public calls on a handler. *)
Inductive hop :=
| OProcess (m : meas) | OAdd (id : nat) (i : inst) | ORemove (id : nat) | OSetHorizon (x : double) | OResetBuffer
| OReset | OInsert (m : meas) | OSchedule (t : Z) (after : bool) | ORedoAfter (t : Z).
Definition hstep h (o : hop) : outcome handler :=
  match o with
  | OProcess m => omap fst (process m h)
  | OAdd id i => Ok (fst (add id i h))
  | ORemove id => Ok (fst (remove id h))
  | OSetHorizon x => Ok (h_set_horizon x h)
  | OResetBuffer => Ok (reset_buffer h)
  | OReset => Ok (h_reset h)
  | OInsert m => Ok (h_insert m (m_t m) h)
  | OSchedule t after => schedule_redo t after h
  | ORedoAfter t => Ok (fst (redo_after t h))
  end.
Fixpoint hrun h (ops : list hop) : outcome handler :=
  match ops with [] => Ok h | o :: r => let! h' := hstep h o in hrun h' r end.
End Hdl.
