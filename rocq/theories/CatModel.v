(** Models of the remaining concatenation utilities.
    Source: /repo/source/ikf/source/utils/eigen_utils.cpp (EU); horcat and vertcat of two matrices are in EigenModel.v. *)
From mathcomp Require Import all_ssreflect all_algebra.
From Verif Require Import Outcome DMat EigenModel.
Set Implicit Arguments. Unset Strict Implicit. Unset Printing Implicit Defensive.
Local Open Scope ring_scope.
Local Open Scope outcome_scope.
Section Cat.
Variable F : realFieldType.
Notation dmat := (dmat F).
Variable garbage : forall m n, 'M[F]_(m, n).
(** EU 57-65: horcat(H_II, H_JJ, H_KK) *)
Definition horcat3 (A B C : dmat) : outcome dmat :=
  let! _ := throw_unless ((drows A == drows B) && (drows A == drows C)) in
  let X := dfresh garbage (drows A) (dcols A + dcols B + dcols C) in
  let! X := dset_block X 0 0 (drows X) (dcols A) A in
  let! X := dset_block X 0 (dcols A) (drows X) (dcols B) B in
  dset_block X 0 (dcols X - dcols C) (drows X) (dcols C) C.
(** EU 68-77: horcat(H_II, H_JJ, H_KK, H_LL) *)
Definition horcat4 (A B C D : dmat) : outcome dmat :=
  let! _ := throw_unless [&& drows A == drows B, drows A == drows C & drows A == drows D] in
  let X := dfresh garbage (drows A) (dcols A + dcols B + dcols C + dcols D) in
  let! X := dset_block X 0 0 (drows X) (dcols A) A in
  let! X := dset_block X 0 (dcols A) (drows X) (dcols B) B in
  let! X := dset_block X 0 (dcols A + dcols B) (drows X) (dcols C) C in
  dset_block X 0 (dcols X - dcols D) (drows X) (dcols D) D.
(** EU 96-104: vertcat(H_II, H_JJ, H_KK) *)
Definition vertcat3 (A B C : dmat) : outcome dmat :=
  let! _ := throw_unless ((dcols A == dcols B) && (dcols A == dcols C)) in
  let! s := comma_first (dfresh garbage (drows A + drows B + drows C) (dcols B)) A in
  let! s := comma_next s B in
  let! s := comma_next s C in
  comma_end s.
(** EU 106-115: vertcat(H_II, H_JJ, H_KK, H_LL) *)
Definition vertcat4 (A B C D : dmat) : outcome dmat :=
  let! _ := throw_unless [&& dcols A == dcols B, dcols A == dcols C & dcols A == dcols D] in
  let! s := comma_first (dfresh garbage (drows A + drows B + drows C + drows D) (dcols B)) A in
  let! s := comma_next s B in
  let! s := comma_next s C in
  let! s := comma_next s D in
  comma_end s.
(** Eigen::VectorXd(rows, cols) asserts that cols is 1 *)
Definition vec_fresh (m n : nat) : outcome dmat := if n == 1%N then Ok (dfresh garbage m 1) else Abort EigenAssert.
(** EU 118-132: vertcat_vec(v_II, v_JJ); Eigen::VectorXd has one column *)
Definition vertcat_vec m n (a : 'cV[F]_m) (b : 'cV[F]_n) : outcome dmat :=
  if m == 0%N then Ok (DM b) else if n == 0%N then Ok (DM a) else
  let! X := vec_fresh (m + n) 1 in
  let! s := comma_first X (DM a) in
  let! s := comma_next s (DM b) in
  comma_end s.
(** EU 134-141: vertcat_vec(v_II, v_JJ, v_KK) *)
Definition vertcat_vec3 m n o (a : 'cV[F]_m) (b : 'cV[F]_n) (c : 'cV[F]_o) : outcome dmat :=
  let! X := vec_fresh (m + n + o) 1 in
  let! s := comma_first X (DM a) in
  let! s := comma_next s (DM b) in
  let! s := comma_next s (DM c) in
  comma_end s.
(** EU 142-156: horcat_vec(v_II, v_JJ) *)
Definition horcat_vec m n (a : 'cV[F]_m) (b : 'cV[F]_n) : outcome dmat :=
  if m == 0%N then Ok (DM b) else if n == 0%N then Ok (DM a) else
  let! _ := throw_unless (m == n) in
  let! X := vec_fresh m (1 + 1) in
  let! s := comma_first X (DM a) in
  let! s := comma_next s (DM b) in
  comma_end s.
(** EU 158-165: horcat_vec(v_II, v_JJ, v_KK) *)
Definition horcat_vec3 m n o (a : 'cV[F]_m) (b : 'cV[F]_n) (c : 'cV[F]_o) : outcome dmat :=
  let! _ := throw_unless (m == n) in
  let! _ := throw_unless (m == o) in
  let! X := vec_fresh m (1 + 1 + 1) in
  let! s := comma_first X (DM a) in
  let! s := comma_next s (DM b) in
  let! s := comma_next s (DM c) in
  comma_end s.
End Cat.
