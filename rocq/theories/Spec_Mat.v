(** Independent vocabulary for matrices: symmetry, definiteness, and the textbook Kalman update. *)
From mathcomp Require Import all_ssreflect all_algebra.
Set Implicit Arguments. Unset Strict Implicit. Unset Printing Implicit Defensive.
Local Open Scope ring_scope.

Section Spec.
Variable F : realFieldType.

(** the quadratic form x^T A x *)
Definition quad n (A : 'M[F]_n) (x : 'cV[F]_n) : F := (x^T *m A *m x) 0 0.
Definition symmetric n (A : 'M[F]_n) : Prop := A^T = A.
Definition psd n (A : 'M[F]_n) : Prop := forall x, 0 <= quad A x.
Definition pd n (A : 'M[F]_n) : Prop := forall x, x != 0 -> 0 < quad A x.
(** a valid covariance *)
Definition covariance n (A : 'M[F]_n) : Prop := symmetric A /\ psd A.

(** innovation covariance and error covariance of the linear estimator with gain L *)
Definition innov n m (H : 'M[F]_(m, n)) (R : 'M[F]_m) (Sigma : 'M[F]_n) : 'M[F]_m := H *m Sigma *m H^T + R.
Definition gain_cov n m (H : 'M[F]_(m, n)) (R : 'M[F]_m) (Sigma : 'M[F]_n) (L : 'M[F]_(n, m)) : 'M[F]_n :=
  (1%:M - L *m H) *m Sigma *m (1%:M - L *m H)^T + L *m R *m L^T.
End Spec.
