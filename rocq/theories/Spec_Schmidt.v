(** Vocabulary for the Schmidt-Kalman update: rows of the stacked state that belong to essential participants. *)
From Coq Require Import ZArith List.
From mathcomp Require Import all_ssreflect all_algebra.
From Verif Require Import DMat BeliefModel.
Set Implicit Arguments. Unset Strict Implicit. Unset Printing Implicit Defensive.
Local Open Scope ring_scope.

Section Spec.
Variable F : realFieldType.
(** does row i of the stacked state belong to an essential participant? *)
Fixpoint ess_row (bs : list (nat * belief F)) (i : nat) : bool :=
  match bs with
  | nil => false
  | (_, b) :: r => if (i < drows (b_Sigma b))%N then b_ess b else ess_row r (i - drows (b_Sigma b))
  end.
(** the Schmidt gain: rows of the gain K for essential participants, zero for the others *)
Definition schmidt (bs : list (nat * belief F)) n m (K : 'M[F]_(n, m)) : 'M[F]_(n, m) :=
  \matrix_(i, j) if ess_row bs i then K i j else 0.
End Spec.
