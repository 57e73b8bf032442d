(** The trajectories of the example programs.
    Sources: /repo/source/examples/ikf_simple_cmd/include/Trajectory.hpp (TR; the copy in ikf_delay_cmd is identical) and SimInstance.hpp
    (SI; compute_error is the same in SimInstanceDelay.hpp).
    Simplification: doubles are real numbers, sin and cos the exact functions; memory suffices.  Plotting and printing are not modelled. *)
From Coq Require Import Reals ZArith List.
From Verif Require Import Outcome.
Import ListNotations.
Local Open Scope R_scope.
Local Open Scope outcome_scope.

(** conversion double -> size_t: truncation towards zero; undefined when the truncated value does not fit *)
Definition to_size (x : R) : outcome nat :=
  if Rlt_dec (-1) x then if Rlt_dec x (IZR (2 ^ 64)) then Ok (if Rlt_dec x 0 then 0%nat else Z.to_nat (Int_part x))
    else UB FloatToIntRange else UB FloatToIntRange.
(** x / y + 1 converted to size_t; a division by zero gives an infinity or NaN, which does not fit *)
Definition count_of (x y : R) : outcome nat := if Req_EM_T y 0 then UB FloatToIntRange else to_size (x / y + 1).

(** Eigen's linspaced_op on floating-point numbers (setLinSpaced(n, low, high)): element [i] of [n] *)
Definition lin_at (n : nat) (low0 high : R) (i : nat) : R :=
  let one := Nat.eqb n 1 in
  let low := if one then high else low0 in
  let size1 := if one then 1%nat else (n - 1)%nat in
  let step := if one then 0 else (high - low) / INR (n - 1) in
  if Rlt_dec (Rabs high) (Rabs low) then (if Nat.eqb i 0 then low else high - INR (size1 - i) * step)
  else if Nat.eqb i size1 then high else low + INR i * step.
Definition lin_spaced (n : nat) (low high : R) : list R := map (lin_at n low high) (seq 0 n).

(** TR 28-32 *)
Record traj := Traj { p_arr : list R; v_arr : list R; a_arr : list R; t_arr : list R }.
(** TR 34-41: the constructor *)
Definition traj_new (n : nat) : traj := let z := repeat 0 n in Traj z z z z.
(** TR 42-44 *)
Definition traj_size (tr : traj) : nat := length (t_arr tr).
(** TR 113-123: generate_sine *)
Definition generate_sine (dt D omega omega_0 amplitude offset : R) (tr : traj) : outcome traj :=
  let! n := count_of D dt in
  let ts := lin_spaced n 0 D in
  Ok (Traj (map (fun t => sin (t * omega + omega_0) * amplitude + offset) ts)
           (map (fun t => omega * cos (t * omega + omega_0) * amplitude) ts)
           (map (fun t => - omega * omega * sin (omega * t + omega_0) * amplitude) ts) ts).

(** Eigen arrays: coefficient-wise operations assert equal sizes *)
Fixpoint zip (f : R -> R -> R) (a b : list R) : outcome (list R) :=
  match a, b with
  | [], [] => Ok []
  | x :: a', y :: b' => let! r := zip f a' b' in Ok (f x y :: r)
  | _, _ => Abort EigenAssert end.
(** UnivariateNormal::samples (UnivariateNormal.hpp 46-49) with the given standard draws *)
Definition noise (sd : R) (draw : nat -> R) (n : nat) : list R := map (fun i => sd * draw i + 0) (seq 0 n).
(** TR 90-109: generate_noisy_pos, generate_noisy_vel, generate_noisy_acc *)
Definition noisy_pos sd draw (tr : traj) := zip Rplus (noise sd draw (length (t_arr tr))) (p_arr tr).
Definition noisy_vel sd draw (tr : traj) := zip Rplus (noise sd draw (length (t_arr tr))) (v_arr tr).
Definition noisy_acc sd draw (tr : traj) := zip Rplus (noise sd draw (length (t_arr tr))) (a_arr tr).
(** TR 125-133: generate_noisy_rel_pos *)
Definition noisy_rel_pos sd draw (other tr : traj) : outcome (list R) :=
  if negb (Nat.eqb (length (t_arr tr)) (length (t_arr other))) then Abort RTVerificationFailed
  else let! res := zip Rminus (t_arr tr) (t_arr other) in
  if Rlt_dec (fold_right Rplus 0 res) (1 / 10)
  then let! d := zip Rminus (p_arr other) (p_arr tr) in zip Rplus d (noise sd draw (length (t_arr tr)))
  else Abort RTVerificationFailed.
(** TR 137-145: linespace; the loop adds the step once per element *)
Fixpoint line_loop (n : nat) (val step : R) : list R :=
  match n with O => [] | S n' => val :: line_loop n' (val + step) step end.
Definition linespace (start step stop : R) : outcome (list R) :=
  let! n := count_of (stop - start) step in Ok (line_loop n start step).

(** SI 70-88: compute_error: the RMSE of one component over the [n] times of the true trajectory; reading past the end of an array is an
    Eigen assertion *)
Fixpoint sq_errors (n : nat) (truth est : list R) : outcome R :=
  match n with
  | O => Ok 0
  | S n' => let! s := sq_errors n' truth est in
            match nth_error truth n', nth_error est n' with
            | Some x, Some y => Ok (s + (x - y) * (x - y)) | _, _ => Abort EigenAssert end end.
Definition rmse (tr est : traj) (sel : traj -> list R) : outcome R :=
  let! s := sq_errors (length (t_arr tr)) (sel tr) (sel est) in Ok (sqrt (s / INR (length (t_arr tr)))).
