(** Independent vocabulary for covariance repair. *)
From mathcomp Require Import all_ssreflect all_algebra.
Set Implicit Arguments. Unset Strict Implicit. Unset Printing Implicit Defensive.
Local Open Scope ring_scope.

Section Spec.
Variable F : realFieldType.
(** the columns of V are linearly independent eigenvectors of A, with eigenvalues D *)
Definition eigenvectors n (A V : 'M[F]_n) (D : 'cV[F]_n) : Prop :=
  V \in unitmx /\ forall k, A *m col k V = D k 0 *: col k V.
(** negative eigenvalues replaced by eps *)
Definition clipped n (eps : F) (D : 'cV[F]_n) : 'cV[F]_n := \col_k (if D k 0 < 0 then eps else D k 0).
(** the mean of some samples and their unbiased covariance, component by component *)
Definition mean_of n (xs : seq 'cV[F]_n) (i : 'I_n) : F := (\sum_(x <- xs) x i 0) / (size xs)%:R.
Definition covariance_of n (xs : seq 'cV[F]_n) (i j : 'I_n) : F :=
  (\sum_(x <- xs) (x i 0 - mean_of xs i) * (x j 0 - mean_of xs j)) / ((size xs)%:R - 1).
End Spec.
