(** Dynamically sized matrices (Eigen::MatrixXd / VectorXd) over an ordered field.

    A value carries its run-time dimensions.  Every operation checks dimensions as Eigen's run-time
    assertions do; a violated check is [Abort EigenAssert] (see Outcome.v for builds with NDEBUG).
    Simplification: entries are elements of an arbitrary ordered field, i.e. exact arithmetic instead of
    floating point. *)
From Coq Require Import ZArith.
From mathcomp Require Import all_ssreflect all_algebra.
From Verif Require Import Outcome.
Set Implicit Arguments. Unset Strict Implicit. Unset Printing Implicit Defensive.
Import GRing.Theory Num.Theory.
Local Open Scope ring_scope.

Section DMat.
Variable F : realFieldType.

Record dmat := DM { drows : nat; dcols : nat; dmx : 'M[F]_(drows, dcols) }.

(** MatrixXd() : empty matrix. *)
Definition dempty : dmat := @DM 0 0 0.
(** A.size(). *)
Definition dsize (A : dmat) : nat := (drows A * dcols A)%N.
(** MatrixXd::Zero(m,n), MatrixXd::Identity(m,n) (ones on the main diagonal also if not square). *)
Definition dzero (m n : nat) : dmat := @DM m n 0.
Definition deye (m n : nat) : dmat := @DM m n (\matrix_(i, j) (nat_of_ord i == nat_of_ord j)%:R).
(** A.transpose(), c * A. *)
Definition dtr (A : dmat) : dmat := DM (dmx A)^T.
Definition dscale (c : F) (A : dmat) : dmat := DM (c *: dmx A).

(** A + B, A - B: equal dimensions required. *)
Definition dzip (f : forall m n, 'M[F]_(m, n) -> 'M[F]_(m, n) -> 'M[F]_(m, n)) (A B : dmat) : outcome dmat :=
  match drows B =P drows A, dcols B =P dcols A with
  | ReflectT e1, ReflectT e2 => Ok (DM (f _ _ (dmx A) (castmx (e1, e2) (dmx B))))
  | _, _ => Abort EigenAssert
  end.
Definition dadd := dzip (fun m n (A B : 'M[F]_(m, n)) => A + B).
Definition dsub := dzip (fun m n (A B : 'M[F]_(m, n)) => A - B).

(** A * B: inner dimensions must agree. *)
Definition dmul (A B : dmat) : outcome dmat :=
  match drows B =P dcols A with
  | ReflectT e => Ok (DM (dmx A *m castmx (e, erefl) (dmx B)))
  | _ => Abort EigenAssert
  end.

(** A.inverse(): asserts a square matrix.  [junk] stands for whatever Eigen computes for a singular matrix. *)
Variable junk : forall n, 'M[F]_n -> 'M[F]_n.
Definition inv_or_junk n (A : 'M[F]_n) : 'M[F]_n := if A \in unitmx then invmx A else junk A.
Definition dinv (A : dmat) : outcome dmat :=
  match dcols A =P drows A with
  | ReflectT e => Ok (DM (inv_or_junk (castmx (erefl, e) (dmx A))))
  | _ => Abort EigenAssert
  end.

(** A.block(i,j,p,q) as an rvalue: the block must lie inside. *)
Definition entry (A : dmat) (i j : nat) : F :=
  match insub i : option 'I_(drows A), insub j : option 'I_(dcols A) with
  | Some i', Some j' => dmx A i' j'
  | _, _ => 0
  end.
Definition dblock (A : dmat) (i j p q : nat) : outcome dmat :=
  if (i + p <= drows A)%N && (j + q <= dcols A)%N
  then Ok (@DM p q (\matrix_(a < p, b < q) entry A (i + a) (j + b)))
  else Abort EigenAssert.
(** A.block(i,j,p,q) = B: the block must lie inside and B must be p x q. *)
Definition dset_block (A : dmat) (i j p q : nat) (B : dmat) : outcome dmat :=
  if [&& (i + p <= drows A)%N, (j + q <= dcols A)%N, drows B == p & dcols B == q]
  then Ok (@DM (drows A) (dcols A)
        (\matrix_(a < drows A, b < dcols A)
           if [&& (i <= a)%N, (a < i + p)%N, (j <= b)%N & (b < j + q)%N]
           then entry B (a - i) (b - j) else dmx A a b))
  else Abort EigenAssert.

(** ** Computation rules on matching dimensions *)
Lemma dzip_ok f m n (A B : 'M[F]_(m, n)) : dzip f (DM A) (DM B) = Ok (DM (f m n A B)).
Proof. by rewrite /dzip /=; case: eqP => // e1; case: eqP => // e2; rewrite castmx_id. Qed.
Lemma dadd_ok m n (A B : 'M[F]_(m, n)) : dadd (DM A) (DM B) = Ok (DM (A + B)).
Proof. exact: dzip_ok. Qed.
Lemma dsub_ok m n (A B : 'M[F]_(m, n)) : dsub (DM A) (DM B) = Ok (DM (A - B)).
Proof. exact: dzip_ok. Qed.
Lemma dmul_ok m n p (A : 'M[F]_(m, n)) (B : 'M[F]_(n, p)) : dmul (DM A) (DM B) = Ok (DM (A *m B)).
Proof. by rewrite /dmul /=; case: eqP => // e; rewrite castmx_id. Qed.
Lemma dinv_ok n (A : 'M[F]_n) : dinv (DM A) = Ok (DM (inv_or_junk A)).
Proof. by rewrite /dinv /=; case: eqP => // e; rewrite castmx_id. Qed.
Lemma dinv_bad m n (A : 'M[F]_(m, n)) : n <> m -> dinv (DM A) = Abort EigenAssert.
Proof. by move=> N; rewrite /dinv /=; case: eqP. Qed.
Lemma dmul_bad m n p q (A : 'M[F]_(m, n)) (B : 'M[F]_(p, q)) : p <> n -> dmul (DM A) (DM B) = Abort EigenAssert.
Proof. by move=> N; rewrite /dmul /=; case: eqP. Qed.
Lemma deye_square n : deye n n = DM (1%:M : 'M[F]_n).
Proof. by congr DM; apply/matrixP => i j; rewrite !mxE. Qed.

Lemma DM_inj m n (A B : 'M[F]_(m, n)) : DM A = DM B -> A = B.
Proof.
move=> E.
have: (fun X : dmat => match drows X =P m, dcols X =P n with
  | ReflectT e1, ReflectT e2 => castmx (e1, e2) (dmx X) | _, _ => A end) (DM A) =
  (fun X : dmat => match drows X =P m, dcols X =P n with
  | ReflectT e1, ReflectT e2 => castmx (e1, e2) (dmx X) | _, _ => A end) (DM B) by rewrite E.
by rewrite /=; case: eqP => // e1; case: eqP => // e2; rewrite !castmx_id.
Qed.

Lemma entryE m n (A : 'M[F]_(m, n)) (i : 'I_m) (j : 'I_n) : entry (DM A) i j = A i j.
Proof. by rewrite /entry /= !valK. Qed.

(** every matrix is the pack of its own content *)
Lemma DM_eta (A : dmat) : A = DM (dmx A).
Proof. by case: A. Qed.

(** two packed matrices are equal when dimensions and all entries agree *)
Lemma dmat_eq (A B : dmat) : drows A = drows B -> dcols A = dcols B ->
  (forall i j, (i < drows A)%N -> (j < dcols A)%N -> entry A i j = entry B i j) -> A = B.
Proof.
case: A => m n A; case: B => m' n' B /= em en; subst m' n' => H; congr DM.
apply/matrixP => i j; have := H i j (ltn_ord i) (ltn_ord j).
by rewrite !entryE.
Qed.
End DMat.
Arguments DM {F drows dcols} dmx.

(** Injection of Coq integers (thresholds, constants) into the field. *)
Definition Z2F (F : realFieldType) (z : Z) : F :=
  match z with
  | Z0 => 0
  | Zpos p => (Pos.to_nat p)%:R
  | Zneg p => - (Pos.to_nat p)%:R
  end.
