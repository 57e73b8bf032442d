(** Conversions, sample statistics and the four-way split of the Eigen utilities.
    Sources under /repo/source/ikf: include/ikf/utils/eigen_utils.hpp (EUH), source/utils/eigen_utils.cpp (EU).

    Simplification: scalars are elements of an ordered field (casts between scalar types are the identity); std::vector is a
    list, vector::at an access that throws std::out_of_range; a division by zero of samples (0/0 in C++, NaN) yields the
    arbitrary matrix [nan]; [garbage] is the content of uninitialised storage. *)
From Coq Require Import ZArith List.
From mathcomp Require Import all_ssreflect all_algebra.
From Verif Require Import Outcome DMat EigenModel IsoModel.
Set Implicit Arguments. Unset Strict Implicit. Unset Printing Implicit Defensive.
Import GRing.Theory Num.Theory.
Local Open Scope ring_scope.
Local Open Scope outcome_scope.

Section Conv.
Variable F : realFieldType.
Notation dmat := (dmat F).
Variable garbage : forall m n, 'M[F]_(m, n).
Variable nan : forall n, 'M[F]_n.

(** std::vector::at *)
Definition vat {A} (l : list A) (i : nat) : outcome A :=
  match List.nth_error l i with Some x => Ok x | None => Abort OutOfRangeException end.
(** m(r, c) as an rvalue, m(r, c) = x *)
Definition dget (M : dmat) (r c : nat) : outcome F :=
  if (r < drows M)%N && (c < dcols M)%N then Ok (entry M r c) else Abort EigenAssert.
Definition dput (M : dmat) (r c : nat) (x : F) : outcome dmat := dset_block M r c 1 1 (DM (x%:M : 'M[F]_1)).
(** v.at(i) = x, m[i][j] = x *)
Fixpoint lput {A} (l : list A) (i : nat) (x : A) : list A :=
  match l, i with
  | nil, _ => nil
  | _ :: r, O => x :: r
  | y :: r, S i => y :: lput r i x
  end.

(** EUH 29-47: to_vector of a column array (both overloads). *)
Definition to_vector_col (v : dmat) : outcome (list F) :=
  ofold (fun l i => let! x := dget v i 0 in Ok (lput l i x)) (List.repeat 0 (drows v)) (List.seq 0 (drows v)).
(** EUH 49-67: to_vector of a row array (both overloads). *)
Definition to_vector_row (v : dmat) : outcome (list F) :=
  ofold (fun l i => let! x := dget v 0 i in Ok (lput l i x)) (List.repeat 0 (dcols v)) (List.seq 0 (dcols v)).
(** EUH 69-78: from_vector. *)
Definition from_vector (l : list F) : outcome dmat :=
  ofold (fun v i => let! x := vat l i in dput v i 0 x) (dfresh garbage (List.length l) 1) (List.seq 0 (List.length l)).
(** EUH 80-97: toEigenMatrix. *)
Definition toEigenMatrix (m : list (list F)) : outcome dmat :=
  let rows := List.length m in
  let cols := match m with nil => 1%N | r :: _ => List.length r end in
  ofold (fun M r => ofold (fun M c => let! row := vat m r in let! x := vat row c in dput M r c x) M (List.seq 0 cols))
    (dfresh garbage rows cols) (List.seq 0 rows).
(** EUH 176-185: fromEigenMatrix.  m[i] stays a row of the right length, so its indexing never goes wrong. *)
Definition fromEigenMatrix (M : dmat) : outcome (list (list F)) :=
  ofold (fun m i => ofold (fun m j => let! x := dget M i j in Ok (lput m i (lput (List.nth i m nil) j x))) m
                      (List.seq 0 (List.length (List.nth 0 m nil))))
    (List.repeat (List.repeat 0 (dcols M)) (drows M)) (List.seq 0 (drows M)).
(** EUH 99-110: toEigenColMatrix. *)
Definition fill_cols dim (l : list 'cV[F]_dim) (M : dmat) : outcome dmat :=
  ofold (fun M c => let! v := vat l c in dset_block M 0 c dim 1 (DM v)) M (List.seq 0 (List.length l)).
Definition toEigenColMatrix dim (l : list 'cV[F]_dim) : outcome dmat := fill_cols l (dfresh garbage dim (List.length l)).
(** EUH 112-123: toEigenRowMatrix; the loop runs over [cols], which is the dimension of the vectors. *)
Definition toEigenRowMatrix dim (l : list 'cV[F]_dim) : outcome dmat :=
  let rows := List.length l in
  let cols := dim in
  ofold (fun M c => let! v := vat l c in dset_block M c 0 1 cols (dtr (DM v))) (dfresh garbage rows cols) (List.seq 0 cols).

(** EUH 125-173: quaternions (a default constructed one is uninitialised). *)
Record quat := Quat { q_w : F; q_x : F; q_y : F; q_z : F }.
Definition quat_fresh : quat := Quat (garbage 4 1 0 0) (garbage 4 1 (lift 0 0) 0) (garbage 4 1 (lift 0 (lift 0 0)) 0) (garbage 4 1 (lift 0 (lift 0 (lift 0 0))) 0).
(** EUH 125-153: toEigenQuat of a run-time sized matrix or vector (a failed conversion only prints). *)
Definition toEigenQuat (m : dmat) : quat :=
  if (drows m == 4%N) && (dcols m == 1%N) then Quat (entry m 0 0) (entry m 1 0) (entry m 2 0) (entry m 3 0) else quat_fresh.
(** EUH 165-173: fromEigenQuat. *)
Definition fromEigenQuat (q : quat) : outcome dmat :=
  let! v := dput (dfresh garbage 4 1) 0 0 (q_w q) in
  let! v := dput v 1 0 (q_x q) in
  let! v := dput v 2 0 (q_y q) in
  dput v 3 0 (q_z q).

(** M.rowwise().mean(): asserts a non-empty matrix. *)
Definition row_mean (M : dmat) : outcome dmat :=
  if (drows M == 0%N) || (dcols M == 0%N) then Abort EigenAssert
  else Ok (@DM F (drows M) 1 (\col_i ((\sum_j dmx M i j) / (dcols M)%:R))).
(** M.colwise() - mu. *)
Definition minus_cols (M mu : dmat) : outcome dmat :=
  if (drows mu == drows M) && (dcols mu == 1%N) then Ok (@DM F (drows M) (dcols M) (\matrix_(i, j) (dmx M i j - entry mu i 0)))
  else Abort EigenAssert.
Definition over_samples (Q : dmat) (m : nat) : dmat := if m == 1%N then DM (nan (drows Q)) else dscale ((m - 1)%N%:R^-1) Q.
(** EUH 289-295: calc_cov_mean; (covariance, mean). *)
Definition calc_cov_mean (M : dmat) : outcome (dmat * dmat) :=
  let! mu := row_mean M in
  let! C := minus_cols M mu in
  let! Q := dmul C (dtr C) in
  Ok (over_samples Q (dcols M), mu).
(** EUH 242-254: sample_covariance. *)
Definition sample_covariance dim (buf : list 'cV[F]_dim) : outcome dmat :=
  if (0 < List.length buf)%N then
    let! M := fill_cols buf (dzero F dim (List.length buf)) in
    let! mu := row_mean M in
    let! C := minus_cols M mu in
    let! Q := dmul C (dtr C) in
    Ok (over_samples Q (List.length buf))
  else Ok (DM (garbage dim dim)).

(** EU 177-195: split_Sigma for four blocks: ((II, JJ, KK, LL), (IJ, IK, JK), (IL, JL, KL)); no check of the dimensions. *)
Definition split4 (S : dmat) (di dj dk dl : nat) : outcome ((dmat * dmat * dmat * dmat) * (dmat * dmat * dmat) * (dmat * dmat * dmat)) :=
  let! sii := dblock S 0 0 di di in
  let! sjj := dblock S di di dj dj in
  let! skk := dblock S (di + dj) (di + dj) dk dk in
  let! sll := (if (dl <= drows S)%N && (dl <= dcols S)%N then dblock S (drows S - dl) (dcols S - dl) dl dl else Abort EigenAssert) in
  let! sij := dblock S 0 di di dj in
  let! sik := dblock S 0 (di + dj) di dk in
  let! sil := (if (dl <= dcols S)%N then dblock S 0 (dcols S - dl) di dl else Abort EigenAssert) in
  let! sjk := dblock S di (di + dj) dj dk in
  let! sjl := dblock S di (di + dj + dk) dj dl in
  let! skl := dblock S (di + dj) (di + dj + dk) dk dl in
  Ok (sii, sjj, skk, sll, (sij, sik, sjk), (sil, sjl, skl)).
End Conv.
