(** Specification: the chi-square distribution with k >= 1 degrees of freedom (textbook density and its distribution
    function).  Nothing here refers to the model. *)
From Coq Require Import Reals.
From Coquelicot Require Import Coquelicot.
Local Open Scope R_scope.

(** Gamma(k/2) for k >= 1: Gamma(1/2) = sqrt(pi), Gamma(1) = 1, Gamma(k/2 + 1) = k/2 Gamma(k/2) *)
Fixpoint gamma_half (k : nat) : R :=
  match k with
  | O => 0
  | 1%nat => sqrt PI
  | 2%nat => 1
  | S (S j) => INR j / 2 * gamma_half j
  end.
(** density for x > 0 *)
Definition chi2_density (k : nat) (x : R) : R := Rpower x (INR k / 2 - 1) * exp (- x / 2) / (Rpower 2 (INR k / 2) * gamma_half k).
(** F is the distribution function with k degrees of freedom *)
Definition chi2_cdf (k : nat) (F : R -> R) : Prop :=
  (forall x, x <= 0 -> F x = 0) /\ (forall x, continuous F x) /\ (forall x, 0 < x -> is_derive F x (chi2_density k x)).
