(** Covariance repair (eigen_utils.cpp, abbreviated EU; eigen_utils.hpp, EUH).

    Simplification: Eigen::EigenSolver is a parameter [eig] giving the real parts of its eigenvectors() and
    eigenvalues(); utils::is_positive_semidefinite (EU 33-39, Eigen's LDLT and isApprox) is the parameter [is_psd].
    What the theorems need of either is a hypothesis about the matrix at hand.  Exact arithmetic as everywhere. *)
From Coq Require Import ZArith List.
From mathcomp Require Import all_ssreflect all_algebra.
From Verif Require Import Outcome DMat KFModel.
Set Implicit Arguments. Unset Strict Implicit. Unset Printing Implicit Defensive.
Import GRing.Theory Num.Theory.
Local Open Scope outcome_scope.
Local Open Scope ring_scope.

Section Repair.
Variable F : realFieldType.
Variable junk : forall n, 'M[F]_n -> 'M[F]_n.
Notation dmat := (dmat F).
Variable eig : dmat -> dmat * dmat.
Variable is_psd : dmat -> bool.

(** v.asDiagonal() of an n x 1 vector, as the n x n factor it is multiplied as. *)
Definition ddiag (v : dmat) : dmat := @DM F (drows v) (drows v) (\matrix_(i, j) (entry v i 0 *+ (i == j))).

(** EU 251-257: the scan for a negative eigenvalue. *)
Definition negative_eigenvalues (D : dmat) : bool := List.existsb (fun k => entry D k 0 < 0) (List.seq 0 (drows D)).

(** EU 263-268: D_corrected. *)
Definition corrected (D : dmat) (eps : F) : dmat :=
  @DM F (drows D) 1 (\matrix_(k, _) if entry D k 0 < 0 then eps else entry D k 0).

(** EU 236-272: nearest_covariance. *)
Definition nearest_covariance (Sigma : dmat) (eps : F) : outcome dmat :=
  let! S0 := symmetrize_covariance Sigma in
  let V := fst (eig S0) in
  let D := snd (eig S0) in
  if negative_eigenvalues D then
    let! a := dmul V (ddiag (corrected D eps)) in
    let! i := dinv junk V in
    dmul a i
  else Ok Sigma.

(** EU 274-283: correct_covariance; [eps0] is the default of stabilize_covariance (EUH 235), [eps] the literal 1e-6.
    Returns the new value of the reference argument and the bool. *)
Definition correct_covariance (eps0 eps : F) (Sigma : dmat) : outcome (dmat * bool) :=
  let! S0 := stabilize_covariance Sigma eps0 in
  if is_psd S0 then Ok (S0, true)
  else let! S1 := nearest_covariance S0 eps in Ok (S1, is_psd S1).

(** the function the handlers call as nearest_covariance(_, 1e-6): the value on the square matrices they pass *)
Definition nearest_of (eps : F) (Sigma : dmat) : dmat :=
  match nearest_covariance Sigma eps with Ok B => B | _ => Sigma end.
End Repair.
