(** Models of small utilities: enumerator names, angle wrapping, quaternions and skew matrices.
    Sources under /repo/source/ikf: source/Estimator/IKalmanFilter.cpp (IK), source/EstimatorHandler/eFusionStrategy.cpp (FS),
    source/EstimatorHandler/C_IKF_Handler.cpp (CH), source/Estimator/ProcessMeasResult_t.cpp (PM),
    source/Measurement/MeasData.cpp (MD), source/utils/math.cpp (MA), include/ikf/utils/QuaternionUtils.hpp (QU).
    Simplification: doubles of MA and QU are real numbers (no rounding, no NaN/infinity). *)
From Coq Require Import String ZArith Reals List Bool.
From Verif Require Import MeasModel.
Import ListNotations.
Local Open Scope string_scope.

(** ** Enumerators and their names *)
(** include/ikf/Estimator/IKalmanFilter.hpp 33-38 *)
Inductive get_belief_strategy := GB_EXACT | GB_CLOSEST | GB_PREDICT_BELIEF.
(** include/ikf/EstimatorHandler/eFusionStrategy.hpp 19-27 *)
Inductive fusion_strategy := FS_UNKNOWN | FS_IKF | FS_DP | FS_C_IKF | FS_DCI_IKF | FS_SKF.
(** include/ikf/EstimatorHandler/C_IKF_Handler.hpp 27-36 *)
Inductive redo_strategy := RD_EXACT | RD_POSTCORRELATED | RD_DISCARD.
Inductive order_strategy := OS_STRICT | OS_RELAXED.

(** IK 490-499: str2eGetBeliefStrategy. *)
Definition str2gbs (s : string) : get_belief_strategy :=
  if s =? "EXACT" then GB_EXACT else if s =? "CLOSEST" then GB_CLOSEST
  else if s =? "PREDICT_BELIEF" then GB_PREDICT_BELIEF else GB_EXACT.
(** IK 501-513: to_string(eGetBeliefStrategy). *)
Definition gbs2str (e : get_belief_strategy) : string :=
  match e with GB_EXACT => "EXACT" | GB_CLOSEST => "CLOSEST" | GB_PREDICT_BELIEF => "PREDICT_BELIEF" end.
(** FS 16-30: to_string(eFusionStrategy); SKF has no case of its own. *)
Definition fs2str (e : fusion_strategy) : string :=
  match e with FS_IKF => "IKF" | FS_DP => "DP" | FS_C_IKF => "C_IKF" | FS_DCI_IKF => "DCI_IKF" | _ => "UNKNOWN" end.
(** FS 32-46: to_eFusionStrategy. *)
Definition str2fs (s : string) : fusion_strategy :=
  if s =? "IKF" then FS_IKF else if s =? "DP" then FS_DP else if s =? "SKF" then FS_SKF
  else if (s =? "C_IKF") || (s =? "CSE_IKF") then FS_C_IKF else if s =? "DCI_IKF" then FS_DCI_IKF else FS_UNKNOWN.
(** CH 26-38: to_string(eRedoUpdateStrategy). *)
Definition redo2str (e : redo_strategy) : string :=
  match e with RD_EXACT => "EXACT" | RD_POSTCORRELATED => "POSTCORRELATED" | RD_DISCARD => "DISCARD" end.
(** CH 40-50: to_string(eOrderStrategy). *)
Definition order2str (e : order_strategy) : string := match e with OS_STRICT => "STRICT" | OS_RELAXED => "STRICT" end.
(** PM 16-30: to_string(eMeasStatus). *)
Definition status2str (s : status) : string :=
  match s with REJECTED => "REJECTED" | PROCESSED => "PROCESSED" | OUTOFORDER => "OUTOFORDER" | DISCARED => "DISCARED" end.
(** MD 16-31: to_string(eObservationType). *)
Definition obs2str (o : obs_type) : string :=
  match o with UNKNOWN => "UNKNOWN" | PROPAGATION => "PROP" | PRIVATE => "PRIV" | JOINT => "JOINT" end.

Local Open Scope R_scope.
(** ** Angles *)
(** C library fmod: x - n*y with n the quotient x/y truncated towards zero. *)
Definition rtrunc (x : R) : Z := if Rle_dec 0 x then (up x - 1)%Z else (- (up (- x) - 1))%Z.
Definition fmod (x y : R) : R := x - IZR (rtrunc (x / y)) * y.
(** MA 65-68: wrapMax. *)
Definition wrapMax (x max : R) : R := fmod (max + fmod x max) max.
(** MA 70: wrapMinMax. *)
Definition wrapMinMax (x min max : R) : R := min + wrapMax (x - min) (max - min).
(** MA 72, 74, 76, 78 (math.h: M_PI = pi, M_2_PI = 2/pi). *)
Definition wrapToPi (x : R) : R := wrapMinMax x (- PI) PI.
Definition wrapTo2Pi (x : R) : R := wrapMinMax x (- (2 / PI)) (2 / PI).
Definition wrapTo180deg (x : R) : R := wrapMinMax x (-180) 180.
Definition wrapTo360deg (x : R) : R := wrapMinMax x (-360) 360.
(** MA 17-23: rad2deg, deg2rad. *)
Definition rad2deg (r : R) : R := r * (180 / PI).
Definition deg2rad (d : R) : R := d * (PI / 180).

(** ** Vectors, matrices and quaternions of fixed size *)
Record vec3 := V3 { vx : R; vy : R; vz : R }.
(** Eigen::Matrix3d as entry function (row, column from 0) *)
Definition mat3 := nat -> nat -> R.
(** MA 25-29: skew. *)
Definition skew (v : vec3) : mat3 := fun i j =>
  match i, j with
  | 0%nat, 0%nat => 0 | 0%nat, 1%nat => - vz v | 0%nat, 2%nat => vy v
  | 1%nat, 0%nat => vz v | 1%nat, 1%nat => 0 | 1%nat, 2%nat => - vx v
  | 2%nat, 0%nat => - vy v | 2%nat, 1%nat => vx v | 2%nat, 2%nat => 0 | _, _ => 0
  end.
(** MA 31-34: skew_inv. *)
Definition skew_inv (m : mat3) : vec3 := V3 (m 2%nat 1%nat) (m 0%nat 2%nat) (m 1%nat 0%nat).
(** Eigen::Quaterniond(w, x, y, z) *)
Record quat := Q4 { qw : R; qx : R; qy : R; qz : R }.
Definition sqnorm3 (v : vec3) : R := vx v * vx v + vy v * vy v + vz v * vz v.
Definition sqnorm4 (q : quat) : R := qw q * qw q + qx q * qx q + qy q * qy q + qz q * qz q.
(** QU 24-38: small_angle_to_quaternion. *)
Definition small_angle_to_quaternion (t : vec3) : quat :=
  let q2 := sqnorm3 t / 4 in
  if Rlt_dec q2 1 then Q4 (sqrt (1 - q2)) (vx t * 0.5) (vy t * 0.5) (vz t * 0.5)
  else let w := 1 / sqrt (1 + q2) in let f := w * 0.5 in Q4 w (vx t * f) (vy t * f) (vz t * f).
(** QU 40-45: theta2quat; Eigen's normalize divides by the norm. *)
Definition theta2quat (t : vec3) : quat :=
  let q := Q4 1 (0.5 * vx t) (0.5 * vy t) (0.5 * vz t) in let n := sqrt (sqnorm4 q) in
  Q4 (qw q / n) (qx q / n) (qy q / n) (qz q / n).
(** QU 47-51: quat2theta. *)
Definition quat2theta (q : quat) : vec3 := V3 (qx q * 2) (qy q * 2) (qz q * 2).
(** MA 36-46: OmegaMat (4x4, rows: scalar first). *)
Definition omega_mat (v : vec3) : nat -> nat -> R := fun i j =>
  match i, j with
  | 0%nat, 0%nat => 0
  | 0%nat, 1%nat => - vx v | 0%nat, 2%nat => - vy v | 0%nat, 3%nat => - vz v
  | 1%nat, 0%nat => vx v | 2%nat, 0%nat => vy v | 3%nat, 0%nat => vz v
  | S i', S j' => - skew v i' j'
  | _, _ => 0
  end.
