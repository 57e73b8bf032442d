(** A network of isolated filters: who is registered, each one's mean, covariance and time, and all cross-covariances; and what
    each call of the unbuffered API is meant to do to it. *)
From Coq Require Import ZArith.
From mathcomp Require Import all_ssreflect all_algebra.
From Verif Require Import Spec_Mat.
Set Implicit Arguments. Unset Strict Implicit. Unset Printing Implicit Defensive.
Local Open Scope ring_scope.

Section Spec.
Variable F : realFieldType.
(** state dimension of the filter with a given ID *)
Variable dim : nat -> nat.

Record net := Net { live : nat -> Prop; time : nat -> Z; mean : forall i, 'cV[F]_(dim i); cov : forall i j, 'M[F]_(dim i, dim j) }.

(** the Kalman measurement update of (x, P), with [eps] added to the diagonals of the innovation and of the result; if the
    innovation covariance is singular the gain is arbitrary *)
Definition measured n m (eps : F) (H : 'M[F]_(m, n)) (R : 'M[F]_m) (z : 'cV[F]_m) (x : 'cV[F]_n) (P : 'M[F]_n) (x' : 'cV[F]_n) (P' : 'M[F]_n) : Prop :=
  exists K : 'M[F]_(n, m),
    (innov H R P + eps%:M \in unitmx -> K = P *m H^T *m invmx (innov H R P + eps%:M)) /\
    x' = x + K *m (z - H *m x) /\ P' = gain_cov H R P K + eps%:M.

(** registration, means, times, covariances and pairwise cross-covariances of the filters in [A] are those before *)
Definition same (A : nat -> Prop) (n n' : net) : Prop :=
  (forall k, A k -> mean n' k = mean n k /\ time n' k = time n k) /\
  (forall k l, A k -> A l -> cov n' k l = cov n k l).
(** the cross-covariances of [i] with the filters in [A] are multiplied by [L] from i's side *)
Definition carried (A : nat -> Prop) (i : nat) (L : 'M[F]_(dim i)) (n n' : net) : Prop :=
  forall k, A k -> cov n' i k = L *m cov n i k /\ cov n' k i = cov n k i *m L^T.
(** the factor of [1, EQ 26]: P' P^-1 (arbitrary for a singular P) *)
Definition luft n (P P' L : 'M[F]_n) : Prop := P \in unitmx -> L = P' *m invmx P.

Section Steps.
Variables (eps eps0 : F) (n n' : net).
Definition same_live := forall k, live n' k <-> live n k.
Definition but (i : nat) : nat -> Prop := fun k => live n k /\ k <> i.

Definition added (i : nat) (x : 'cV[F]_(dim i)) (P : 'M[F]_(dim i)) (t : Z) : Prop :=
  (forall k, live n' k <-> live n k \/ k = i) /\
  mean n' i = x /\ time n' i = t /\ cov n' i i = P /\
  (forall k, but i k -> cov n' i k = 0 /\ cov n' k i = 0) /\ same (but i) n n'.
Definition removed (i : nat) : Prop := (forall k, live n' k <-> but i k) /\ same (but i) n n'.
(** the belief is replaced; the correlations stay *)
Definition replaced (i : nat) (x : 'cV[F]_(dim i)) (P : 'M[F]_(dim i)) (t : Z) : Prop :=
  same_live /\ mean n' i = x /\ time n' i = t /\ cov n' i i = P /\ carried (but i) (1%:M : 'M_(dim i)) n n' /\ same (but i) n n'.
Definition propagated (i : nat) (Phi Q : 'M[F]_(dim i)) (drift : 'cV[F]_(dim i)) (t : Z) : Prop :=
  same_live /\ mean n' i = Phi *m mean n i + drift /\ time n' i = t /\ cov n' i i = Phi *m cov n i i *m Phi^T + Q /\
  carried (but i) Phi n n' /\ same (but i) n n'.
Definition privately_updated (i m : nat) (H : 'M[F]_(m, dim i)) (R : 'M[F]_m) (z : 'cV[F]_m) : Prop :=
  same_live /\ measured eps H R z (mean n i) (cov n i i) (mean n' i) (cov n' i i) /\ time n' i = time n i /\
  (exists L, luft (cov n i i) (cov n' i i) L /\ carried (but i) L n n') /\ same (but i) n n'.
(** the pair (i, j) is updated as one filter with the stacked mean and covariance *)
Definition jointly_updated (i j m : nat) (Hi : 'M[F]_(m, dim i)) (Hj : 'M[F]_(m, dim j)) (R : 'M[F]_m) (z : 'cV[F]_m) : Prop :=
  same_live /\
  measured eps (row_mx Hi Hj) R z
    (col_mx (mean n i) (mean n j)) (block_mx (cov n i i) (cov n i j) (cov n j i) (cov n j j) + eps0%:M)
    (col_mx (mean n' i) (mean n' j)) (block_mx (cov n' i i) (cov n' i j) (cov n' j i) (cov n' j j)) /\
  time n' i = time n i /\ time n' j = time n j /\
  (exists Li, luft (cov n i i) (cov n' i i) Li /\ carried (fun k => but i k /\ k <> j) Li n n') /\
  (exists Lj, luft (cov n j j) (cov n' j j) Lj /\ carried (fun k => but i k /\ k <> j) Lj n n') /\
  same (fun k => but i k /\ k <> j) n n'.
Definition nothing : Prop := same_live /\ same (live n) n n'.
End Steps.

(** ** calls and histories *)
Inductive call :=
| CAdd (i : nat) (x : 'cV[F]_(dim i)) (P : 'M[F]_(dim i)) (t : Z)
| CRemove (i : nat)
| CSet (i : nat) (x : 'cV[F]_(dim i)) (P : 'M[F]_(dim i)) (t : Z)
| CProp (i : nat) (Phi Q : 'M[F]_(dim i)) (t : Z)
| CPropU (i : nat) (Phi Q : 'M[F]_(dim i)) (t : Z) (G : 'M[F]_(dim i, 1)) (u var : F)
| CPriv (i m : nat) (H : 'M[F]_(m, dim i)) (R : 'M[F]_m) (z : 'cV[F]_m)
| CJoint (i j m : nat) (Hi : 'M[F]_(m, dim i)) (Hj : 'M[F]_(m, dim j)) (R : 'M[F]_m) (z : 'cV[F]_m).
(** covariance arguments are symmetric and a joint update names two different filters *)
Definition sane (c : call) : Prop :=
  match c with
  | CAdd _ _ P _ | CSet _ _ P _ => symmetric P
  | CProp _ _ Q _ | CPropU _ _ Q _ _ _ _ => symmetric Q
  | CPriv _ _ _ R _ => symmetric R
  | CJoint i j _ _ _ R _ => symmetric R /\ i <> j
  | CRemove _ => True
  end.
(** the innovation gate: for an invertible innovation covariance the measurement passes iff its normalised innovation squared is
    at most the threshold for its dimension *)
Definition gate m n (eps : F) (thr : nat -> F) (H : 'M[F]_(m, n)) (R : 'M[F]_m) (z : 'cV[F]_m) (x : 'cV[F]_n) (P : 'M[F]_n) (yes : bool) : Prop :=
  innov H R P + eps%:M \in unitmx -> yes = (quad (invmx (innov H R P + eps%:M)) (z - H *m x) <= thr m).
Definition gate_of (eps eps0 : F) (thr : nat -> F) (c : call) (n : net) (yes : bool) : Prop :=
  match c with
  | CPriv i m H R z => gate eps thr H R z (mean n i) (cov n i i) yes
  | CJoint i j m Hi Hj R z => gate eps thr (row_mx Hi Hj) R z (col_mx (mean n i) (mean n j))
                                (block_mx (cov n i i) (cov n i j) (cov n j i) (cov n j j) + eps0%:M) yes
  | CAdd i _ _ _ => yes = true <-> ~ live n i
  | CRemove i => yes = true <-> live n i
  | CSet _ _ _ _ => yes = true
  | CProp i _ _ t | CPropU i _ _ t _ _ _ => yes = Z.ltb (time n i) t
  end.
(** the filters a call goes through must be registered (a null pointer otherwise) *)
Definition uses (c : call) (i : nat) : Prop :=
  match c with
  | CAdd _ _ _ _ | CRemove _ => False
  | CSet k _ _ _ | CProp k _ _ _ | CPropU k _ _ _ _ _ _ | CPriv k _ _ _ _ => i = k
  | CJoint k l _ _ _ _ _ => i = k \/ i = l
  end.
(** what the call does when it returns [true]; when it returns [false] it does nothing *)
Definition effect (eps eps0 : F) (c : call) (n n' : net) : Prop :=
  match c with
  | CAdd i x P t => added n n' x P t
  | CRemove i => removed n n' i
  | CSet i x P t => replaced n n' x P t
  | CProp i Phi Q t => propagated n n' Phi Q 0 t
  | CPropU i Phi Q t G u v => propagated n n' Phi (v *: (G *m G^T) + Q) (u *: G) t
  | CPriv i m H R z => privately_updated eps n n' H R z
  | CJoint i j m Hi Hj R z => time n i = time n j /\ jointly_updated eps eps0 n n' Hi Hj R z
  end.
End Spec.
