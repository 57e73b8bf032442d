(** Two accessors on matrices.  Sources under /repo/source/ikf: source/Estimator/IIsolatedKalmanFilter.cpp (IIKF),
    source/Measurement/MeasData.cpp (MD). *)
From Coq Require Import ZArith List Bool.
From mathcomp Require Import all_ssreflect all_algebra.
From Verif Require Import Outcome BufModel DMat IsoModel.
Set Implicit Arguments. Unset Strict Implicit. Unset Printing Implicit Defensive.
Import GRing.Theory Num.Theory.
Local Open Scope ring_scope.

Section Acc.
Variable F : realFieldType.
Notation dmat := (dmat F).
(** IIKF 86-89: get_CrossCovFact_at_t(t, ID_J, FCC) *)
Definition ccf_get_bool (j : nat) (t : Z) (c : list (nat * buf dmat)) : bool * dmat :=
  let X := ccf_get j t c in ((0 < dsize X)%N, X).
(** the sum of the squares of all entries: R.norm() squared *)
Definition sum_sq (R : dmat) : F := \sum_(i < drows R) \sum_(j < dcols R) dmx R i j ^+ 2.
(** MD 33-38: has_meas_noise.  R.norm() > 1e-11 is compared through squares (norm() is the non-negative root of sum_sq), in exact
    arithmetic *)
Definition has_meas_noise (R : dmat) : bool := (dsize R != 0%N) && ((10%:R ^+ 11)^-1 ^+ 2 < sum_sq R).
End Acc.
