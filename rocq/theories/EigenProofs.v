(** Facts about blocks and the comma initialiser. *)
From Coq Require Import ZArith.
From mathcomp Require Import all_ssreflect all_algebra.
From Verif Require Import Outcome DMat EigenModel.
Set Implicit Arguments. Unset Strict Implicit. Unset Printing Implicit Defensive.
Import GRing.Theory Num.Theory.
Local Open Scope ring_scope.
Local Open Scope outcome_scope.

Lemma Ok_inj (T : Type) (a b : T) : Ok a = Ok b -> a = b. Proof. by case. Qed.
Section Facts.
Variable F : realFieldType.
Notation dmat := (dmat F).

Lemma entry_in m n (A : 'M[F]_(m, n)) i j (Hi : (i < m)%N) (Hj : (j < n)%N) : entry (DM A) i j = A (Ordinal Hi) (Ordinal Hj).
Proof. exact: (entryE A (Ordinal Hi) (Ordinal Hj)). Qed.

Lemma entry_mk m n (f : nat -> nat -> F) i j : (i < m)%N -> (j < n)%N ->
  entry (DM (\matrix_(a < m, b < n) f a b)) i j = f i j.
Proof. by move=> Hi Hj; rewrite (entry_in _ Hi Hj) mxE. Qed.

(** assigning a block *)
Lemma set_block_ok (A B : dmat) i j p q : (i + p <= drows A)%N -> (j + q <= dcols A)%N -> drows B = p -> dcols B = q ->
  exists C, dset_block A i j p q B = Ok C /\ drows C = drows A /\ dcols C = dcols A /\
    forall a b, (a < drows A)%N -> (b < dcols A)%N ->
      entry C a b = if [&& (i <= a)%N, (a < i + p)%N, (j <= b)%N & (b < j + q)%N] then entry B (a - i) (b - j) else entry A a b.
Proof.
move=> H1 H2 H3 H4; rewrite /dset_block H1 H2 H3 H4 !eqxx /=.
eexists; split; [by [] | split; [by [] | split => //=]] => a b Ha Hb.
rewrite (entry_in _ Ha Hb) mxE /=.
by case: ifP => // _; case: A Ha Hb {H1 H2} => m n A /= Ha Hb; rewrite (entry_in _ Ha Hb).
Qed.
Lemma set_block_bad (A B : dmat) i j p q : (drows B != p) || (dcols B != q) -> dset_block A i j p q B = Abort EigenAssert.
Proof. by rewrite /dset_block; case: (drows B == p) => /=; case: (dcols B == q) => //=; rewrite ?andbF. Qed.

(** entries of a block matrix *)
Lemma entry_block m1 m2 n1 n2 (A : 'M[F]_(m1, n1)) B (C : 'M[F]_(m2, n1)) D i j : (i < m1 + m2)%N -> (j < n1 + n2)%N ->
  entry (DM (block_mx A B C D)) i j =
    if (i < m1)%N then (if (j < n1)%N then entry (DM A) i j else entry (DM (B : 'M_(m1, n2))) i (j - n1))
    else (if (j < n1)%N then entry (DM C) (i - m1) j else entry (DM (D : 'M_(m2, n2))) (i - m1) (j - n1)).
Proof.
move=> Hi Hj; rewrite (entry_in _ Hi Hj) !mxE /=.
case: splitP => i' /= Ei; rewrite !mxE; case: splitP => j' /= Ej.
- by rewrite Ei Ej !ltn_ord entryE.
- by rewrite Ei Ej ltn_ord ltnNge leq_addr /= addKn entryE.
- by rewrite Ei Ej ltn_ord ltnNge leq_addr /= addKn entryE.
- by rewrite Ei Ej !ltnNge !leq_addr /= !addKn entryE.
Qed.

Lemma dblock_ok (A : dmat) i j p q : (i + p <= drows A)%N -> (j + q <= dcols A)%N ->
  dblock A i j p q = Ok (DM (\matrix_(a < p, b < q) entry A (i + a) (j + b))).
Proof. by rewrite /dblock => -> ->. Qed.
Lemma block_eq (A B : dmat) i j p q : (i + p <= drows A)%N -> (j + q <= dcols A)%N -> drows B = p -> dcols B = q ->
  (forall a b, (a < p)%N -> (b < q)%N -> entry A (i + a) (j + b) = entry B a b) -> dblock A i j p q = Ok B.
Proof.
move=> H1 H2 H3 H4 H; rewrite dblock_ok //; congr Ok; apply: dmat_eq => //= a b Ha Hb.
by rewrite (@entry_mk _ _ (fun a b => entry A (i + a) (j + b))) // H.
Qed.
Lemma comma_same (s : comma F) (A : dmat) : cm_col s != dcols (cm_mx s) -> (cm_col s + dcols A <= dcols (cm_mx s))%N -> cm_h s = drows A ->
  comma_next s A = let! C := dset_block (cm_mx s) (cm_row s) (cm_col s) (drows A) (dcols A) A in Ok (Comma C (cm_row s) (cm_col s + dcols A) (cm_h s)).
Proof. by rewrite /comma_next => /negPf -> /= -> ->; rewrite eqxx. Qed.
Lemma comma_wrap (s : comma F) (A : dmat) : cm_col s = dcols (cm_mx s) -> (0 < dcols A)%N -> (cm_row s + cm_h s + drows A <= drows (cm_mx s))%N ->
  (dcols A <= dcols (cm_mx s))%N ->
  comma_next s A = let! C := dset_block (cm_mx s) (cm_row s + cm_h s) 0 (drows A) (dcols A) A in Ok (Comma C (cm_row s + cm_h s) (dcols A) (drows A)).
Proof. by rewrite /comma_next => -> H H1 H2; rewrite eqxx -lt0n H /= H1 add0n H2 eqxx. Qed.
End Facts.
