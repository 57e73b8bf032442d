(** A user's estimator on top of IIsolatedKalmanFilter, and how the handler delegates measurements to it.
    Sources: /repo/source/ikf/source/Estimator/IIsolatedKalmanFilter.cpp (IIKF) 205-221 and IKalmanFilter.cpp (IKF) 297-324
    delegate_measurement; the three measurement methods follow /repo/source/examples/ikf_delay_cmd/include/
    LinearIKF_1D_const_acc.hpp (EX).  The user's dynamics and measurement models are arbitrary functions.
    Simplifications: the default status REJECTED of ProcessMeasResult_t is returned when there is no belief to start from
    (EX goes on with a null pointer in the propagation); the private and joint methods use the library's calls that
    take the measurement z (EX computes the residual itself and calls the residual variant); predict_to returns false (EX
    148). *)
From Coq Require Import ZArith List Bool Arith.
From mathcomp Require Import all_ssreflect all_algebra.
From Verif Require Import Outcome DoubleModel BufModel HorizonModel MeasModel HandlerModel DMat KFModel BeliefModel IsoModel.
Set Implicit Arguments. Unset Strict Implicit. Unset Printing Implicit Defensive.
Import GRing.Theory Num.Theory.
Local Open Scope outcome_scope.

Section Est.
Variable F : realFieldType.
Variable junk : forall n, 'M[F]_n -> 'M[F]_n.
Notation dmat := (dmat F).
Notation belief := (belief F).
Notation inst := (inst belief dmat).
Notation dict := (dict belief dmat).
Variable P : Type.                                  (* z, R and meta information of a measurement *)
Notation meas := (meas P).
Variable hor : double.
Variable is_psd : dmat -> bool.
Variable nearest : dmat -> dmat.
Variable eps0 : F.

(** what the user supplies: the propagated mean, Phi and Q between two times; H, R and z of a private measurement; the
    measurement matrices by participant, z and R of a joint one; the correction configuration *)
Record models := Models {
  u_prop : nat -> P -> Z -> Z -> dmat -> dmat * dmat * dmat;
  u_priv : nat -> P -> dmat * dmat * dmat;
  u_joint : nat -> P -> list (nat * dmat) * dmat * dmat;
  u_cfg : corr_cfg F }.
Variable u : models.

(** EX 35-74: progapation_measurement; PROCESSED whatever apply_propagation returns *)
Definition est_propagate (m : meas) (d : dict) : outcome (dict * status) :=
  at_inst (m_id m) d (fun i =>
    match get_before_t (m_t m) (i_bel i) with
    | Some (ta, ba) =>
        let '(mb, Phi, Q) := u_prop u (m_id m) (m_dat m) ta (m_t m) (b_mean ba) in
        let! (i', _) := iso_propagate_bel hor ba mb Phi Q ta (m_t m) i in
        Ok (d_upd (m_id m) i' d, PROCESSED)
    | None => Ok (d, REJECTED)
    end).
(** EX 75-107: local_private_measurement *)
Definition est_private (m : meas) (d : dict) : outcome (dict * status) :=
  at_inst (m_id m) d (fun i =>
    let '(H, R, z) := u_priv u (m_id m) (m_dat m) in
    let! (i', ok) := iso_private junk H R z (m_t m) (u_cfg u) i in
    Ok (d_upd (m_id m) i' d, if ok then PROCESSED else REJECTED)).
(** EX 111-144: local_joint_measurement *)
Definition est_joint (m : meas) (d : dict) : outcome (dict * status) :=
  let '(dH, z, R) := u_joint u (m_id m) (m_dat m) in
  let! (d', ok) := apply_observation_z junk is_psd nearest (fun _ _ i => Ok (i, false)) eps0 dH z R (m_t m) (u_cfg u) d in
  Ok (d', if ok then PROCESSED else REJECTED).
(** IIKF 205-221, IKF 297-324: delegate_measurement *)
Definition est (d : dict) (m : meas) : outcome (dict * status) :=
  match m_ty m with
  | PROPAGATION => est_propagate m d
  | PRIVATE => est_private m d
  | JOINT => est_joint m d
  | UNKNOWN => Ok (d, DISCARED)
  end.
(** the handler model takes a total function: [fallback] stands for a call that does not return normally (it is never
    consulted: Props_Est.v) *)
Definition deleg_with (fallback : dict -> meas -> dict * status) (d : dict) (m : meas) : dict * status :=
  match est d m with Ok r => r | _ => fallback d m end.
End Est.
