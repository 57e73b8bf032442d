(** Independent vocabulary for random samples: expectations and independent standard numbers, as far as second moments go. *)
From mathcomp Require Import all_ssreflect all_algebra.
Set Implicit Arguments. Unset Strict Implicit. Unset Printing Implicit Defensive.
Local Open Scope ring_scope.

Section Spec.
Variable F : realFieldType.
Variable Omega : Type.
(** an expectation: linear, constants have themselves as mean *)
Record expectation (E : (Omega -> F) -> F) : Prop := {
  e_ext : forall f g, f =1 g -> E f = E g;
  e_const : forall c, E (fun _ => c) = c;
  e_add : forall f g, E (fun w => f w + g w) = E f + E g;
  e_scale : forall c f, E (fun w => c * f w) = c * E f }.
(** the first q numbers have mean zero and variance one and are uncorrelated *)
Definition standard (E : (Omega -> F) -> F) (q : nat) (xi : nat -> Omega -> F) : Prop :=
  (forall k, (k < q)%N -> E (xi k) = 0) /\ forall k l, (k < q)%N -> (l < q)%N -> E (fun w => xi k w * xi l w) = (k == l)%:R.
Definition covariance_rv (E : (Omega -> F) -> F) (f g : Omega -> F) : F := E (fun w => (f w - E f) * (g w - E g)).
End Spec.
(** the symmetric matrix with the lower triangle of A: all that the decompositions of a self-adjoint matrix read *)
Definition lower_sym (F : realFieldType) n (A : 'M[F]_n) : 'M[F]_n := \matrix_(i, j) if (j <= i)%N then A i j else A j i.
