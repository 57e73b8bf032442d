(** The estimator shipped with the delay example: a body moving in one dimension, driven by its measured acceleration.
    Source: /repo/source/examples/ikf_delay_cmd/include/LinearIKF_1D_const_acc.hpp (EX).
    The state is (position, velocity).  The handler's calls are those of IsoModel.v.
    Simplifications: dt = t_b.to_sec() - t_a.to_sec() is a parameter; numbers are exact; the partner's ID is given as a number
    (EX 122 parses it with std::stoi, which throws on other text); writing to std::cout is left out; of the result only
    the status is kept. *)
From Coq Require Import ZArith List Bool Arith.
From Flocq Require Import IEEE754.BinarySingleNaN.
From mathcomp Require Import all_ssreflect all_algebra.
From Verif Require Import Outcome DoubleModel BufModel HorizonModel MeasModel HandlerModel DMat KFModel BeliefModel EigenModel CatModel IsoModel.
Set Implicit Arguments. Unset Strict Implicit. Unset Printing Implicit Defensive.
Import GRing.Theory Num.Theory.
Local Open Scope outcome_scope.
Local Open Scope ring_scope.

Section Ex.
Variable F : realFieldType.
Variable junk : forall n, 'M[F]_n -> 'M[F]_n.
Variable garbage : forall m n, 'M[F]_(m, n).
Notation dmat := (dmat F).
Notation belief := (belief F).
Notation dict := (dict belief dmat).
Variable hor : double.
Variable is_psd : dmat -> bool.
Variable nearest : dmat -> dmat.
Variable eps0 : F.
Variable dtf : Z -> Z -> F.                         (* t_a, t_b |-> t_b.to_sec() - t_a.to_sec() *)

(** MeasData: z, R, and the partner's ID in meta_info *)
Record ex_dat := ExDat { x_z : dmat; x_R : dmat; x_peer : nat }.
Notation meas := (meas ex_dat).
(** a 2 x 2, 2 x 1 and 1 x 2 matrix filled row by row (Eigen's comma initialiser) *)
Definition m22 (a b c d : F) : dmat := @DM F 2 2 (\matrix_(i, j) if i == ord0 then (if j == ord0 then a else b) else (if j == ord0 then c else d)).
Definition m21 (a b : F) : dmat := @DM F 2 1 (\matrix_(i, j) if i == ord0 then a else b).
Definition m12 (a b : F) : dmat := @DM F 1 2 (\matrix_(i, j) if j == ord0 then a else b).
(** KalmanFilter.hpp 53-63: the default CorrectionCfg_t: outlier rejection, Joseph's form, stabilisation, 0.997, 1e-16 *)
Definition ex_cfg : corr_cfg F := CorrCfg true true true (Bdiv mode_NE (d_of_Z (Zpos 997)) (d_of_Z (Zpos 1000))) (10%:R^-1 ^+ 16).
(** an Eigen::VectorXd has one column *)
Definition vec_of (A : dmat) : 'cV[F]_(drows A) := \col_i entry A i 0.

(** EX 35-74: progapation_measurement; a missing earlier belief is only logged, then dereferenced (EX 46-65) *)
Definition ex_propagate (m : meas) (d : dict) : outcome (dict * status) :=
  at_inst (m_id m) d (fun i =>
    match get_before_t (m_t m) (i_bel i) with
    | None => UB NullDeref
    | Some (ta, ba) =>
        let dt := dtf ta (m_t m) in
        let Phi := m22 1 dt 0 1 in
        let G := m21 (2%:R^-1 * dt * dt) dt in
        let Q0 := dscale (10%:R^-1 ^+ 6) (deye F 2 2) in
        let! pm := dmul Phi (b_mean ba) in
        let! gz := dmul G (x_z (m_dat m)) in
        let! mb := dadd pm gz in
        let! gr := dmul G (x_R (m_dat m)) in
        let! grg := dmul gr (dtr G) in
        let! Q := dadd grg Q0 in
        let! (i', _) := iso_propagate_bel hor ba mb Phi Q ta (m_t m) i in
        Ok (d_upd (m_id m) i' d, PROCESSED)
    end).
(** EX 148: predict_to returns false *)
Notation nopredict := (fun (_ : nat) (_ : Z) i => Ok (i, false)).
Notation observe := (apply_observation_r junk is_psd nearest nopredict eps0).
(** EX 75-107: local_private_measurement, the branch compiled (EX 97-98); without a belief the default status REJECTED *)
Definition ex_private (m : meas) (d : dict) : outcome (dict * status) :=
  at_inst (m_id m) d (fun i =>
    match get_at_t (m_t m) (i_bel i) with
    | None => Ok (d, REJECTED)
    | Some ba =>
        let H := m12 1 0 in
        let! hm := dmul H (b_mean ba) in
        let! r := dsub (x_z (m_dat m)) hm in
        let! (d', ok) := observe [:: (m_id m, H)] (x_R (m_dat m)) r (m_t m) ex_cfg d in
        Ok (d', if ok then PROCESSED else REJECTED)
    end).
(** EX 111-144: local_joint_measurement, the branch compiled (EX 131-138); std::map's initialiser list keeps the first element
    of a repeated key; get_belief_at_t(t) returns null when there is none *)
Definition ex_joint (m : meas) (d : dict) : outcome (dict * status) :=
  let J := x_peer (m_dat m) in
  let HI := m12 (-1) 0 in
  let HJ := m12 1 0 in
  let dH := smap_insert J HJ (smap_insert (m_id m) HI nil) in
  let bel id := at_inst id d (fun i => match get_at_t (m_t m) (i_bel i) with Some b => Ok b | None => UB NullDeref end) in
  let! bi := bel (m_id m) in
  let! bj := bel J in
  let! H := horcat garbage HI HJ in
  let! v := vertcat_vec garbage (vec_of (b_mean bi)) (vec_of (b_mean bj)) in
  let! zest := dmul H v in
  let! r := dsub (x_z (m_dat m)) zest in
  let! (d', ok) := observe dH (x_R (m_dat m)) r (m_t m) ex_cfg d in
  Ok (d', if ok then PROCESSED else REJECTED).
(** IIsolatedKalmanFilter.cpp 205-221, IKalmanFilter.cpp 297-324: delegate_measurement *)
Definition ex (d : dict) (m : meas) : outcome (dict * status) :=
  match m_ty m with
  | PROPAGATION => ex_propagate m d
  | PRIVATE => ex_private m d
  | JOINT => ex_joint m d
  | UNKNOWN => Ok (d, DISCARED)
  end.
(** the handler model takes a total function: [fallback] stands for a call that does not return normally *)
Definition ex_with (fallback : dict -> meas -> dict * status) (d : dict) (m : meas) : dict * status :=
  match ex d m with Ok r => r | _ => fallback d m end.
End Ex.
Arguments ExDat {F}.
