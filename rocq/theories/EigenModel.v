(** Models of the matrix utilities.
    Sources under /repo/source/ikf: source/utils/eigen_utils.cpp (EU), source/utils/math.cpp (MA),
    source/Measurement/MeasData.cpp (MD).  RTV_EXPECT_TRUE_THROW throws std::runtime_error (include/ikf/utils/RTVerification.hpp). *)
From Coq Require Import ZArith.
From mathcomp Require Import all_ssreflect all_algebra.
From Verif Require Import Outcome DMat.
Set Implicit Arguments. Unset Strict Implicit. Unset Printing Implicit Defensive.
Import GRing.Theory Num.Theory.
Local Open Scope ring_scope.
Local Open Scope outcome_scope.

Section Eigen.
Variable F : realFieldType.
Notation dmat := (dmat F).
(** content of a freshly allocated matrix *)
Variable garbage : forall m n, 'M[F]_(m, n).

Definition throw_unless (b : bool) : outcome unit := if b then Ok tt else Abort RTVerificationFailed.

(** Eigen's C << A, B, ...; (Eigen/src/Core/CommaInitializer.h): state = matrix, current row, current column, height of the
    current block row.  Assertions as there. *)
Record comma := Comma { cm_mx : dmat; cm_row : nat; cm_col : nat; cm_h : nat }.
Definition comma_first (C A : dmat) : outcome comma :=
  if (drows A <= drows C)%N && (dcols A <= dcols C)%N then
    let! C' := dset_block C 0 0 (drows A) (dcols A) A in Ok (Comma C' 0 (dcols A) (drows A))
  else Abort EigenAssert.
Definition comma_next (s : comma) (A : dmat) : outcome comma :=
  let C := cm_mx s in
  let wrap := (cm_col s == dcols C) && ((dcols A != 0%N) || (drows A != cm_h s)) in
  let row := if wrap then (cm_row s + cm_h s)%N else cm_row s in
  let col := if wrap then 0%N else cm_col s in
  let h := if wrap then drows A else cm_h s in
  if (wrap ==> (row + h <= drows C)%N) && (col + dcols A <= dcols C)%N && (h == drows A) then
    let! C' := dset_block C row col (drows A) (dcols A) A in Ok (Comma C' row (col + dcols A) h)
  else Abort EigenAssert.
Definition comma_end (s : comma) : outcome dmat :=
  if (((cm_row s + cm_h s)%N == drows (cm_mx s)) || (dcols (cm_mx s) == 0%N)) && (cm_col s == dcols (cm_mx s)) then Ok (cm_mx s)
  else Abort EigenAssert.
Definition dfresh (m n : nat) : dmat := DM (garbage m n).

(** EU 41-55: horcat(H_II, H_JJ). *)
Definition horcat (A B : dmat) : outcome dmat :=
  if dsize A == 0%N then Ok B else if dsize B == 0%N then Ok A else
  let! _ := throw_unless (drows A == drows B) in
  let C := dfresh (drows A) (dcols A + dcols B) in
  let! C := dset_block C 0 0 (drows C) (dcols A) A in
  dset_block C 0 (dcols C - dcols B) (drows C) (dcols B) B.

(** EU 80-94: vertcat(H_II, H_JJ). *)
Definition vertcat (A B : dmat) : outcome dmat :=
  if dsize A == 0%N then Ok B else if dsize B == 0%N then Ok A else
  let! _ := throw_unless (dcols A == dcols B) in
  let C := dfresh (drows A + drows B) (dcols B) in
  let! s := comma_first C A in
  let! s := comma_next s B in
  comma_end s.

(** EU 285-292: blkdiag. *)
Definition blkdiag (A B : dmat) : outcome dmat :=
  let C := dzero F (drows A + drows B) (dcols A + dcols B) in
  let! C := dset_block C 0 0 (drows A) (dcols B) A in
  dset_block C (drows A) (dcols B) (drows B) (dcols B) B.

(** EU 224-234: stack_Sigma(Sigma_II, Sigma_JJ, Sigma_IJ). *)
Definition stack2 (Sii Sjj Sij : dmat) : outcome dmat :=
  let! _ := throw_unless (dsize Sij != 0%N) in
  let! _ := throw_unless ((drows Sii == drows Sij) && (dcols Sij == dcols Sjj)) in
  let C := dfresh (drows Sii + drows Sjj) (dcols Sii + dcols Sjj) in
  let! s := comma_first C Sii in
  let! s := comma_next s Sij in
  let! s := comma_next s (dtr Sij) in
  let! s := comma_next s Sjj in
  comma_end s.

(** EU 213-222: split_Sigma for two blocks: (Sigma_II, Sigma_JJ, Sigma_IJ). *)
Definition split2 (S : dmat) (di dj : nat) : outcome (dmat * dmat * dmat) :=
  let! _ := throw_unless ((0 < di)%N && (0 < dj)%N) in
  let! _ := throw_unless ((drows S == (di + dj)%N) && (dcols S == (di + dj)%N)) in
  let! sii := dblock S 0 0 di di in
  let! sjj := dblock S (drows S - dj) (dcols S - dj) dj dj in
  let! sij := dblock S 0 (dcols S - dj) di dj in
  Ok (sii, sjj, sij).

(** EU 197-211: split_Sigma for three blocks: (II, JJ, KK, IJ, IK, JK). *)
Definition split3 (S : dmat) (di dj dk : nat) : outcome (dmat * dmat * dmat * (dmat * dmat * dmat)) :=
  let! _ := throw_unless [&& (0 < di)%N, (0 < dj)%N & (0 < dk)%N] in
  let! _ := throw_unless ((drows S == (di + dj + dk)%N) && (dcols S == (di + dj + dk)%N)) in
  let! sii := dblock S 0 0 di di in
  let! sjj := dblock S di di dj dj in
  let! sij := dblock S 0 di di dj in
  let! sik := dblock S 0 (dcols S - dk) di dk in
  let! sjk := dblock S di (di + dj) dj dk in
  let! skk := dblock S (drows S - dk) (dcols S - dk) dk dk in
  Ok (sii, sjj, skk, (sij, sik, sjk)).

(** EU 24-27: negative_diag. *)
Definition negative_diag (A : dmat) : bool := [exists i : 'I_(minn (drows A) (dcols A)), entry A i i < 0].

(** MD 40-47: get_R; R.asDiagonal() of a column vector. *)
Definition get_R (R : dmat) : dmat :=
  if dcols R == 1%N then @DM F (drows R) (drows R) (\matrix_(i, j) if i == j then entry R i 0 else 0) else R.

(** MD 69-83: lin_interpolate on the numerical fields: times in seconds (to_sec is exact here), value z and noise R.
    A zero time difference divides by zero (the C++ result is NaN/inf): modelled as [None]. *)
Record mdata := MData { md_t : F; md_z : dmat; md_R : dmat }.
Definition lin_interpolate (a c : mdata) (tb : F) : outcome (option mdata) :=
  let dt_ac := md_t c - md_t a in
  let dt_ab := tb - md_t a in
  if dt_ac == 0 then Ok None else
  let ratio := dt_ab / dt_ac in
  let! dz := dsub (md_z c) (md_z a) in
  let! z := dadd (md_z a) (dscale ratio dz) in
  let! dR := dsub (md_R c) (md_R a) in
  let! R := dadd (md_R a) (dscale ratio dR) in
  Ok (Some (MData tb z R)).

(** MA 48-63: MatExp(A, order); [div] is a 32-bit int, overflow is undefined behaviour.  The loop counter runs 1..order. *)
Fixpoint mat_exp_loop (todo : nat) (k : Z) (div : Z) (acc a_loop A : 'M[F]_4) : outcome 'M[F]_4 :=
  match todo with
  | O => Ok acc
  | S n => let div' := Z.mul div k in
           if Z.leb div' (Zpos 2147483647) then mat_exp_loop n (Z.succ k) div' (acc + (Z2F F div')^-1 *: a_loop) (a_loop *m A) A
           else UB SignedOverflow
  end.
Definition mat_exp (A : 'M[F]_4) (order : nat) : outcome 'M[F]_4 := mat_exp_loop order (Zpos 1) (Zpos 1) 1%:M A A.
End Eigen.
