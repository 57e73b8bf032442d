(** Outcomes of a C++ computation.

    [Ok v]      the call returns normally with [v];
    [UB r]      the execution reaches undefined behaviour (reason [r]): signed overflow, division by
                zero, dereferencing an end iterator or a null pointer, an out-of-range float-to-int cast,
                unlocking a mutex one does not own;
    [Abort r]   a failed Eigen assertion or a C++ exception.  Eigen's assertions are active unless NDEBUG or
                EIGEN_NO_DEBUG is defined; the project's build files define neither, but a build with
                CMAKE_BUILD_TYPE=Release does, and then [Abort EigenAssert] stands for undefined behaviour
                (an out-of-bounds access) instead of an abort.  Either way the call does not return normally
                with a meaningful value, which is what the theorems use. *)
From Coq Require Import ZArith.

Inductive ub_reason :=
| SignedOverflow | DivByZero | EndIterDeref | NullDeref | FloatToIntRange | UnlockNotOwned | StaleRead.

Inductive abort_reason :=
| EigenAssert | OutOfRangeException | RTVerificationFailed.

Inductive outcome (A : Type) : Type :=
| Ok (a : A)
| UB (r : ub_reason)
| Abort (r : abort_reason).
Arguments Ok {A} _.
Arguments UB {A} _.
Arguments Abort {A} _.

Definition obind {A B} (o : outcome A) (f : A -> outcome B) : outcome B :=
  match o with Ok a => f a | UB r => UB r | Abort r => Abort r end.

Definition omap {A B} (f : A -> B) (o : outcome A) : outcome B :=
  match o with Ok a => Ok (f a) | UB r => UB r | Abort r => Abort r end.

Definition is_ok {A} (o : outcome A) : bool := match o with Ok _ => true | _ => false end.

Declare Scope outcome_scope.
Delimit Scope outcome_scope with outcome.
Notation "'let!' x ':=' e 'in' k" := (obind e (fun x => k)) (at level 200, x pattern, e at level 100, k at level 200) : outcome_scope.
