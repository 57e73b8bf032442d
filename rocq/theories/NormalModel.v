(** Normally distributed samples.
    Sources (under /repo/source/ikf/include/ikf/utils): MultivariateNormal.hpp (MVN), UnivariateNormal.hpp (UVN), rand_op.hpp.

    Simplification: exact arithmetic.  Eigen's LLT and SelfAdjointEigenSolver and std::sqrt are parameters; both decompositions
    get the whole matrix here and return None when info() is not Success.  The standard normal numbers still to come from the
    generator are a function of their position (RandModel.v has the generator).  A generator expression is not repeatable, so
    Eigen evaluates it once, column by column. *)
From Coq Require Import ZArith List.
From mathcomp Require Import all_ssreflect all_algebra.
From Verif Require Import Outcome DMat RepairModel ConvModel.
Set Implicit Arguments. Unset Strict Implicit. Unset Printing Implicit Defensive.
Import GRing.Theory Num.Theory.
Local Open Scope outcome_scope.
Local Open Scope ring_scope.

Section Normal.
Variable F : realFieldType.
Notation dmat := (dmat F).
Variable llt : dmat -> option dmat.             (* matrixL() *)
Variable eigh : dmat -> option (dmat * dmat).   (* eigenvectors(), eigenvalues() *)
Variable sqrt : F -> F.

(** MVN 63-65: the members *)
Record normal := Normal { nd_mean : dmat; nd_Sigma : dmat; nd_Tf : dmat }.
(** MVN 81: setMean *)
Definition set_mean (m : dmat) (d : normal) : normal := Normal m (nd_Sigma d) (nd_Tf d).
(** MVN 105: eigenvalues().cwiseMax(0).cwiseSqrt() *)
Definition roots (D : dmat) : dmat := @DM F (drows D) 1 (\matrix_(k, _) sqrt (Num.max (entry D k 0) 0)).
(** MVN 83-110: setCovar; the bool is false if std::runtime_error is thrown *)
Definition set_covar (S : dmat) (use_cholesky : bool) (d : normal) : outcome (normal * bool) :=
  let d := Normal (nd_mean d) S (nd_Tf d) in
  if drows S != dcols S then Abort EigenAssert
  else if use_cholesky then
    match llt S with
    | Some L => Ok (Normal (nd_mean d) (nd_Sigma d) L, true)
    | None => Ok (d, false)
    end
  else
    match eigh S with
    | Some (V, D) => let! T := dmul V (ddiag (roots D)) in Ok (Normal (nd_mean d) (nd_Sigma d) T, true)
    | None => Ok (d, false)
    end.
(** MVN 68-73: the constructor; None: an exception, no object *)
Definition new_normal (m S : dmat) (use_cholesky : bool) : outcome (option normal) :=
  let! (d, ok) := set_covar S use_cholesky (set_mean m (Normal (dempty F) (dempty F) (dempty F))) in
  Ok (if ok then Some d else None).
(** MVN 76: getCovar *)
Definition get_covar (d : normal) : dmat := nd_Sigma d.
(** the expression M.colwise() + v *)
Definition plus_cols (M v : dmat) : outcome dmat :=
  if (drows v == drows M) && (dcols v == 1%N) then Ok (@DM F (drows M) (dcols M) (\matrix_(i, j) (dmx M i j + entry v i 0)))
  else Abort EigenAssert.
(** MVN 112-118: samples(nn); [xi] are the generator's numbers, [p] of which have been drawn.  Returns the number drawn
    afterwards *)
Definition samples (xi : nat -> F) (p nn : nat) (d : normal) : outcome (dmat * nat) :=
  let n := drows (nd_Sigma d) in
  let! X := dmul (nd_Tf d) (@DM F n nn (\matrix_(i, j) xi (p + j * n + i)%N)) in
  let! Y := plus_cols X (nd_mean d) in
  Ok (Y, (p + nn * n)%N).

(** UVN 25-31, 37-38: members, constructor and setters; setCovar sets the standard deviation *)
Record uni := Uni { u_mean : F; u_std : F }.
Definition u_set_mean (m : F) (u : uni) : uni := Uni m (u_std u).
Definition u_set_covar (s : F) (u : uni) : uni := Uni (u_mean u) s.
(** UVN 40-45: samples(nn) *)
Definition u_samples (xi : nat -> F) (p nn : nat) (u : uni) : list F * nat :=
  (List.map (fun j => u_std u * xi (p + j)%N + u_mean u) (List.seq 0 nn), (p + nn)%N).
End Normal.
