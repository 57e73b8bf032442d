(** Fixed rates and progress reports.
    Sources (under /repo/source/ikf/source/utils): Rate.cpp (RT), ProgressBar.cpp (PB).  Clock readings are nanoseconds (Z). *)
From Coq Require Import ZArith Bool List.
From Flocq Require Import Core IEEE754.BinarySingleNaN.
From Verif Require Import Outcome TimestampModel DoubleModel.
Import ListNotations.
Local Open Scope Z_scope.
Local Open Scope outcome_scope.

(** conversion double -> uint32_t: truncation; undefined when the value does not fit *)
Definition d_to_uint32 (a : double) : outcome Z :=
  if is_finite a && (0 <=? Btrunc a) && (Btrunc a <? 2 ^ 32) then Ok (Btrunc a) else UB FloatToIntRange.
(** RT 44-47: setRate; the value stored in mSleep_ms *)
Definition rate_ms (hz : double) : outcome Z :=
  if Beqb hz (d_of_Z 0) then Ok 0 else d_to_uint32 (Bdiv mode_NE (d_of_Z 1000) hz).
(** the members of Rate (Rate.hpp 52-55); mProcessTime is not initialised *)
Record rate := Rate { r_sleep : Z; r_start : Z; r_process : option Z }.
(** RT 19-23: the constructor, at time [now] *)
Definition rate_new (hz : double) (now : Z) : outcome rate := let! m := rate_ms hz in Ok (Rate m now None).
Definition rate_set (hz : double) (r : rate) : outcome rate := let! m := rate_ms hz in Ok (Rate m (r_start r) (r_process r)).
(** RT 25-37: sleep(), called at time [stop]; [wake] is the time after sleeping.  Returns the milliseconds asked for (0: no call of
    sleep_for) *)
Definition rate_pause (r : rate) (stop : Z) : Z :=
  let sleep_ms := cast_int32 (r_sleep r - Z.quot (stop - r_start r) 1000000) in if 0 <? sleep_ms then sleep_ms else 0.
Definition rate_sleep (stop wake : Z) (r : rate) : rate := Rate (r_sleep r) wake (Some (Z.quot (stop - r_start r) 1000000)).
(** RT 39-42: getProcessTimeMS *)
Definition rate_process (r : rate) : outcome Z := match r_process r with Some p => Ok (cast_int32 p) | None => UB StaleRead end.

(** ** the progress bar *)
(** PB 16-30: the constructor: (numSteps, increment, nextRenderPoint, tick); the bar length and what is shown are arguments of the
    methods below.  Simplification: numSteps < 2^53/100, where the passage through double (ceil and / 100) is exact *)
Record bar := Bar { b_steps : Z; b_inc : Z; b_next : Z; b_tick : Z }.
Definition bar_new (steps perc : Z) : outcome bar :=
  let upd := Z.min 100 (Z.max perc 0) in
  if upd =? 0 then UB DivByZero
  else let inc := ((steps * 100) / upd) / 100 in Ok (Bar steps inc inc 0).
(** PB 84-90: sec_to_HHMMSS of floor(s) *)
Definition hhmmss (s : Z) : outcome (Z * Z * Z) :=
  if in_int32 s then Ok (Z.quot s 3600, Z.quot (Z.rem s 3600) 60, Z.rem s 60) else UB FloatToIntRange.
(** what one call prints *)
Inductive line := Done (t : option (Z * Z * Z)) | Going (filled empty i steps : Z) (t : option ((Z * Z * Z) * (Z * Z * Z))).
(** PB 37-82: update(i) at [ns] nanoseconds after the start; [len] is barCharLen.  Simplification: the first final time is not kept
    for later calls; the remaining time is computed exactly *)
Definition bar_update (len : Z) (showrem showfinal : bool) (ns i : Z) (b : bar) : outcome (bar * option line) :=
  if i <? b_next b then Ok (b, None)
  else
    let b' := Bar (b_steps b) (b_inc b) (Z.min (b_next b + b_inc b) (b_steps b)) (b_tick b) in
    if b_steps b <=? i then
      if showfinal then let! t := hhmmss (ns / 1000000000) in Ok (b', Some (Done (Some t))) else Ok (b', Some (Done None))
    else
      let filled := (i * len) / b_steps b in
      if showrem then
        let! t := hhmmss (ns / 1000000000) in
        let! r := (if i =? 0 then UB FloatToIntRange else hhmmss ((ns * (b_steps b - i)) / (i * 1000000000))) in
        Ok (b', Some (Going filled (len - filled) i (b_steps b) (Some (t, r))))
      else Ok (b', Some (Going filled (len - filled) i (b_steps b) None)).
(** PB 32-35: progress() *)
Definition bar_progress (len : Z) (showrem showfinal : bool) (ns : Z) (b : bar) : outcome (bar * option line) :=
  let tick := Z.min (b_tick b + 1) (b_steps b) in
  bar_update len showrem showfinal ns tick (Bar (b_steps b) (b_inc b) (b_next b) tick).
