(** Models of the Kalman filter primitives.
    Sources: /repo/source/ikf/source/Estimator/KalmanFilter.cpp (KF),
             /repo/source/ikf/source/Estimator/NormalizedInnovationSquared.cpp (NIS),
             /repo/source/ikf/source/utils/eigen_utils.cpp (EU). *)
From Coq Require Import ZArith.
From Flocq Require Import IEEE754.BinarySingleNaN.
From mathcomp Require Import all_ssreflect all_algebra.
From Verif Require Import Outcome DoubleModel Chi2Model DMat.
Set Implicit Arguments. Unset Strict Implicit. Unset Printing Implicit Defensive.
Import GRing.Theory Num.Theory.
Local Open Scope ring_scope.
Local Open Scope outcome_scope.

Section KF.
Variable F : realFieldType.
(** what Eigen's inverse() yields for singular matrices *)
Variable junk : forall n, 'M[F]_n -> 'M[F]_n.
Notation dmat := (dmat F).
Notation dinv := (dinv junk).

Definition half : F := 2%:R^-1.

(** EU 168-171: stabilize_covariance. *)
Definition stabilize_covariance (Sigma : dmat) (eps : F) : outcome dmat :=
  let I := dscale eps (deye F (drows Sigma) (dcols Sigma)) in
  let! s := dadd Sigma (dtr Sigma) in
  dadd (dscale half s) I.

(** EU 173-175: symmetrize_covariance. *)
Definition symmetrize_covariance (Sigma : dmat) : outcome dmat :=
  let! s := dadd Sigma (dtr Sigma) in
  Ok (dscale half s).

(** KF 76-82: check_dim(mean, Sigma). *)
Definition check_dim_mean (mean Sigma : dmat) : bool :=
  ~~ [|| dcols mean != 1%N, drows mean != drows Sigma | drows Sigma != dcols Sigma].

(** KF 84-93: check_dim(Sigma, Phi). *)
Definition check_dim_phi (Sigma Phi : dmat) : bool :=
  ~~ ((drows Sigma != drows Phi) || (drows Sigma != dcols Phi)).

(** KF 95-103: check_dim(Sigma, Phi, Q). *)
Definition check_dim_phi_q (Sigma Phi Q : dmat) : bool :=
  check_dim_phi Sigma Phi && ~~ ((drows Sigma != drows Q) || (drows Sigma != dcols Q)).

(** KF 105-124: check_dim(H, R, r, Sigma). *)
Definition check_dim_meas (H R r Sigma : dmat) : bool :=
  [&& ~~ (dcols H != drows Sigma), ~~ (drows H != drows r),
      ~~ ((dcols r != 1%N) || (drows r != drows H)) & ~~ ((drows H != drows R) || (drows H != dcols R))].

(** KF 26-38: covariance_propagation; the default eps of stabilize_covariance (eigen_utils.hpp) is [eps]. *)
Definition covariance_propagation (Sigma Phi Q : dmat) (stab : bool) (eps : F) : outcome dmat :=
  if check_dim_phi_q Sigma Phi Q then
    if stab then
      let! s := stabilize_covariance Sigma eps in
      let! a := dmul Phi s in
      let! b := dmul a (dtr Phi) in
      let! q := stabilize_covariance Q eps in
      let! c := dadd b q in
      stabilize_covariance c eps
    else
      let! a := dmul Phi Sigma in
      let! b := dmul a (dtr Phi) in
      dadd b Q
  else Ok (dempty F).

(** NIS 23-31: check_dim. *)
Definition nis_check_dim (r Sigma : dmat) : bool := ~~ ((dcols r != 1%N) || (drows r != drows Sigma)).

(** NIS 33-40: NIS(Sigma, r); s(0,0) of the 1x1 product. *)
Definition NIS (Sigma r : dmat) : outcome F :=
  if nis_check_dim r Sigma then
    let! i := dinv Sigma in
    let! a := dmul (dtr r) i in
    let! s := dmul a r in
    Ok (entry s 0 0)
  else Ok 0.

(** chi2inv's result as a field element (units of 1e-5 in the table model). *)
Definition threshold (p : double) (df : nat) : outcome F :=
  omap (fun z => Z2F F z / 100000%:R) (chi2inv p df).

(** NIS 54-63: check_NIS(S, r, confidence). *)
Definition check_NIS (Sm r : dmat) (conf : double) : outcome bool :=
  if Bltb (d_of_Z 0) conf then
    let! s := NIS Sm r in
    let! thr := threshold conf (drows r) in
    Ok (~~ (thr < s))
  else Ok true.

(** NIS 42-52: check_NIS(H, R, r, Sigma, confidence). *)
Definition check_NIS_full (H R r Sigma : dmat) (conf : double) : outcome bool :=
  let! a := dmul H Sigma in
  let! b := dmul a (dtr H) in
  let! Sm := dadd b R in
  let! Sm := symmetrize_covariance Sm in
  let! s := NIS Sm r in
  let! thr := threshold conf (drows r) in
  Ok (~~ (thr < s)).

(** KalmanFilter.hpp 49-57: CorrectionCfg_t (the iteration fields are used by the iterated update only). *)
Record corr_cfg := CorrCfg {
  use_outlier_rejection : bool; use_Josephs_form : bool; nummerical_stabilization : bool;
  confidence_interval : double; cfg_eps : F }.

(** KalmanFilter.hpp 43-48: CorrectionResult_t. *)
Record corr_result := CorrRes { Sigma_apos : dmat; delta_mean : dmat; res_U : dmat; rejected : bool }.
Definition corr_default := CorrRes (dempty F) (@DM F 0 1 0) (dempty F) true.

(** KF 40-74: correction_step. *)
Definition correction_step (H R r Sigma : dmat) (cfg : corr_cfg) : outcome corr_result :=
  if check_dim_meas H R r Sigma then
    let dim := drows Sigma in
    let! a := dmul H Sigma in
    let! b := dmul a (dtr H) in
    let! Sm := dadd b R in
    let! Sm := stabilize_covariance Sm (cfg_eps cfg) in
    let! rej := (if use_outlier_rejection cfg
                 then omap negb (check_NIS Sm r (confidence_interval cfg)) else Ok false) in
    let! p := dmul Sigma (dtr H) in
    let! Si := dinv Sm in
    let! K := dmul p Si in
    let! delta := dmul K r in
    let! KH := dmul K H in
    let! U := dsub (deye F dim dim) KH in
    let! Sp := (if use_Josephs_form cfg then
                  let! u := dmul U Sigma in
                  let! v := dmul u (dtr U) in
                  let! w := dmul K R in
                  let! x := dmul w (dtr K) in
                  dadd v x
                else dmul U Sigma) in
    let! Sp := (if nummerical_stabilization cfg then stabilize_covariance Sp (cfg_eps cfg) else Ok Sp) in
    let! Sp := symmetrize_covariance Sp in
    Ok (CorrRes Sp delta U rej)
  else Ok corr_default.

(** KF 126-162: covariance_intersection_correction. *)
Definition covariance_intersection_correction (H_ii H_jj R r Sigma_ii Sigma_jj : dmat) (omega_i : F)
    (cfg : corr_cfg) : outcome corr_result :=
  if check_dim_meas H_ii R r Sigma_ii && check_dim_meas H_jj R r Sigma_jj then
    let omega_j := 1 - omega_i in
    let! a := dmul (dscale (omega_j^-1) H_jj) Sigma_jj in
    let! b := dmul a (dtr H_jj) in
    let! Sm := dadd b R in
    let! Sm := stabilize_covariance Sm (cfg_eps cfg) in
    let! rej := (if use_outlier_rejection cfg
                 then omap negb (check_NIS Sm r (confidence_interval cfg)) else Ok false) in
    let! Si := dinv Sm in
    let! c := dmul (dscale ((omega_i ^+ 2)^-1) Sigma_ii) (dtr H_ii) in
    let! c := dmul c Si in
    let! c := dmul c H_ii in
    let! c := dmul c Sigma_ii in
    let! Sp := dsub (dscale (omega_i^-1) Sigma_ii) c in
    let! d := dmul (dscale (omega_i^-1) Sigma_ii) (dtr H_ii) in
    let! d := dmul d Si in
    let! d := dmul d r in
    let! Sp := (if nummerical_stabilization cfg then stabilize_covariance Sp (cfg_eps cfg) else Ok Sp) in
    Ok (CorrRes Sp d (dempty F) rej)
  else Ok corr_default.
End KF.
Arguments CorrCfg {F}.
