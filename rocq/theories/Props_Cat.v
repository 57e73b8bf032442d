(** C54, concatenation: horcat and vertcat put their arguments side by side and on top of each other. *)
From Coq Require Import ZArith.
From mathcomp Require Import all_ssreflect all_algebra.
From Verif Require Import Outcome DMat EigenModel EigenProofs CatModel.
Set Implicit Arguments. Unset Strict Implicit. Unset Printing Implicit Defensive.
Import GRing.Theory Num.Theory.
Local Open Scope ring_scope.
Local Open Scope outcome_scope.
Section Cat.
Variable F : realFieldType.
Variable g : forall m n, 'M[F]_(m, n).
Lemma entry_row m p q (A : 'M[F]_(m, p)) (B : 'M[F]_(m, q)) i j : (i < m)%N -> (j < p + q)%N ->
  entry (DM (row_mx A B)) i j = if (j < p)%N then entry (DM A) i j else entry (DM B) i (j - p).
Proof.
move=> Hi Hj; rewrite (entry_in _ Hi Hj) mxE; case: split_ordP => k Ek; have {}Ek := f_equal val Ek; rewrite /= in Ek; rewrite Ek.
  by rewrite ltn_ord (entry_in _ Hi (ltn_ord k)); congr (A _ _); apply: val_inj.
by rewrite ltnNge leq_addr /= addKn (entry_in _ Hi (ltn_ord k)); congr (B _ _); apply: val_inj.
Qed.
Lemma entry_col m n p (A : 'M[F]_(m, p)) (B : 'M[F]_(n, p)) i j : (i < m + n)%N -> (j < p)%N ->
  entry (DM (col_mx A B)) i j = if (i < m)%N then entry (DM A) i j else entry (DM B) (i - m) j.
Proof.
move=> Hi Hj; rewrite (entry_in _ Hi Hj) mxE; case: split_ordP => k Ek; have {}Ek := f_equal val Ek; rewrite /= in Ek; rewrite Ek.
  by rewrite ltn_ord (entry_in _ (ltn_ord k) Hj); congr (A _ _); apply: val_inj.
by rewrite ltnNge leq_addr /= addKn (entry_in _ (ltn_ord k) Hj); congr (B _ _); apply: val_inj.
Qed.
(** two blocks; an empty argument is skipped *)
Theorem C54_horcat : forall m p q (A : 'M[F]_(m, p)) (B : 'M[F]_(m, q)), (0 < m)%N -> (0 < p)%N -> (0 < q)%N ->
  horcat g (DM A) (DM B) = Ok (DM (row_mx A B)).
Proof.
move=> m p q A B m0 p0 q0; rewrite /horcat /dsize /= !muln_eq0 !eqn0Ngt m0 p0 q0 /= eqxx /=.
have [||||C1 [-> [R1 [D1 E1]]]] := @set_block_ok F (dfresh g m (p + q)) (DM A) 0 0 m p => //=; try by rewrite add0n leq_addr.
rewrite D1 R1 /= addnK.
have [||||C2 [-> [R2 [D2 E2]]]] := @set_block_ok F C1 (DM B) 0 p m q => //=; try by rewrite ?R1 ?D1.
congr Ok; apply: dmat_eq; rewrite ?R2 ?R1 ?D2 ?D1 //= => i j Hi Hj.
by rewrite E2 ?R1 ?D1 // E1 // entry_row // !add0n !subn0 /= Hi Hj; case: ltnP.
Qed.
Theorem C54_vertcat : forall m n p (A : 'M[F]_(m, p)) (B : 'M[F]_(n, p)), (0 < m)%N -> (0 < n)%N -> (0 < p)%N ->
  vertcat g (DM A) (DM B) = Ok (DM (col_mx A B)).
Proof.
move=> m n p A B m0 n0 p0; rewrite /vertcat /dsize /= !muln_eq0 !eqn0Ngt m0 n0 p0 /= eqxx /=.
rewrite /comma_first /= leq_addr leqnn /=.
have [||||C1 [-> [R1 [D1 E1]]]] := @set_block_ok F (dfresh g (m + n) p) (DM A) 0 0 m p => //=; try by rewrite add0n leq_addr.
cbn [obind]; rewrite comma_wrap //= ?D1 ?R1 ?leqnn //= add0n.
have [||||C2 [-> [R2 [D2 E2]]]] := @set_block_ok F C1 (DM B) m 0 n p => //=; try by rewrite ?R1 ?D1.
rewrite /= /comma_end /= R2 R1 D2 D1 /= !eqxx /=; congr Ok; apply: dmat_eq; rewrite ?R2 ?R1 ?D2 ?D1 //= => i j Hi Hj.
by rewrite E2 ?R1 ?D1 // E1 // entry_col // !add0n !subn0 /= Hi Hj; case: ltnP.
Qed.
Theorem C54_empty_skipped : forall (A B : dmat F), dsize A = 0%N ->
  horcat g A B = Ok B /\ vertcat g A B = Ok B /\ (dsize B <> 0%N -> horcat g B A = Ok B /\ vertcat g B A = Ok B).
Proof.
move=> A B E; rewrite /horcat /vertcat E eqxx; split=> //; split=> // /eqP/negPf -> //.
Qed.
Theorem C54_mismatch_throws : forall (A B : dmat F), dsize A <> 0%N -> dsize B <> 0%N ->
  (drows A <> drows B -> horcat g A B = Abort RTVerificationFailed) /\ (dcols A <> dcols B -> vertcat g A B = Abort RTVerificationFailed).
Proof.
by move=> A B /eqP/negPf sA /eqP/negPf sB; rewrite /horcat /vertcat sA sB; split=> /eqP/negPf ->.
Qed.
(** three and four blocks; here blocks may be empty in the direction of concatenation *)
Theorem C54_horcat3 : forall m p q r (A : 'M[F]_(m, p)) (B : 'M[F]_(m, q)) (C : 'M[F]_(m, r)),
  horcat3 g (DM A) (DM B) (DM C) = Ok (DM (row_mx A (row_mx B C))).
Proof.
move=> m p q r A B C; rewrite /horcat3 /= !eqxx /=.
have [||||C1 [-> [R1 [D1 E1]]]] := @set_block_ok F (dfresh g m (p + q + r)) (DM A) 0 0 m p => //=; try by rewrite add0n -addnA leq_addr.
rewrite R1 /=; have [||||C2 [-> [R2 [D2 E2]]]] := @set_block_ok F C1 (DM B) 0 p m q => //=; try by rewrite ?R1 ?D1 //= leq_addr.
rewrite /= R2 D2 R1 D1 /= addnK; have [||||C3 [-> [R3 [D3 E3]]]] := @set_block_ok F C2 (DM C) 0 (p + q) m r => //=; try by rewrite ?R2 ?D2 ?R1 ?D1.
congr Ok; apply: dmat_eq; rewrite ?R3 ?R2 ?R1 ?D3 ?D2 ?D1 //= ?addnA // => i j Hi Hj.
rewrite E3 ?R2 ?D2 ?R1 ?D1 // E2 ?R1 ?D1 // E1 // entry_row ?addnA // !add0n !subn0 /= Hi Hj.
case: (ltnP j p) => Lp; first by rewrite [(p + q <= j)%N]leqNgt (leq_trans Lp (leq_addr _ _)) /=.
rewrite entry_row //; last by rewrite ltn_subLR // addnA.
rewrite ltn_subLR // leqNgt; case: (ltnP j (p + q)) => L //=; by rewrite subnDA.
Qed.
Theorem C54_vertcat3 : forall m n o p (A : 'M[F]_(m, p)) (B : 'M[F]_(n, p)) (C : 'M[F]_(o, p)), (0 < p)%N ->
  vertcat3 g (DM A) (DM B) (DM C) = Ok (DM (col_mx A (col_mx B C))).
Proof.
move=> m n o p A B C p0; rewrite /vertcat3 /= !eqxx /= /comma_first /= -addnA leq_addr leqnn /=.
have [||||C1 [-> [R1 [D1 E1]]]] := @set_block_ok F (dfresh g (m + (n + o)) p) (DM A) 0 0 m p => //=; try by rewrite add0n leq_addr.
cbn [obind]; rewrite comma_wrap //= ?D1 ?R1 ?leqnn //= ?add0n ?leq_add2l ?leq_addr //.
have [||||C2 [-> [R2 [D2 E2]]]] := @set_block_ok F C1 (DM B) m 0 n p => //=; try by rewrite ?R1 ?D1 //= leq_add2l leq_addr.
cbn [obind]; rewrite comma_wrap //= ?D2 ?R2 ?D1 ?R1 ?leqnn //= ?addnA //.
have [||||C3 [-> [R3 [D3 E3]]]] := @set_block_ok F C2 (DM C) (m + n) 0 o p => //=; try by rewrite ?R2 ?D2 ?R1 ?D1 //= addnA.
rewrite /= /comma_end /= R3 R2 R1 D3 D2 D1 /=; have -> : (m + n + o == m + (n + o))%N by rewrite addnA.
rewrite eqxx /=; congr Ok; apply: dmat_eq; rewrite ?R3 ?R2 ?R1 ?D3 ?D2 ?D1 //= => i j Hi Hj.
rewrite E3 ?R2 ?D2 ?R1 ?D1 // E2 ?R1 ?D1 // E1 // entry_col // !add0n !subn0 /= Hj.
have Hi' := Hi; rewrite addnA in Hi'; rewrite Hi' !andbT.
case: (ltnP i m) => Lm; first by rewrite [(m + n <= i)%N]leqNgt (leq_trans Lm (leq_addr _ _)) /= ?andbF.
rewrite entry_col //; last by rewrite ltn_subLR.
rewrite ltn_subLR // leqNgt; case: (ltnP i (m + n)) => L //=; by rewrite subnDA.
Qed.
Theorem C54_horcat4 : forall m p q r s (A : 'M[F]_(m, p)) (B : 'M[F]_(m, q)) (C : 'M[F]_(m, r)) (D : 'M[F]_(m, s)),
  horcat4 g (DM A) (DM B) (DM C) (DM D) = Ok (DM (row_mx A (row_mx B (row_mx C D)))).
Proof.
move=> m p q r s A B C D; rewrite /horcat4 /= !eqxx /=.
have [||||C1 [-> [R1 [D1 E1]]]] := @set_block_ok F (dfresh g m (p + q + r + s)) (DM A) 0 0 m p => //=; try by rewrite add0n -!addnA leq_addr.
rewrite R1 /=; have [||||C2 [-> [R2 [D2 E2]]]] := @set_block_ok F C1 (DM B) 0 p m q => //=; try by rewrite ?R1 ?D1 //= -addnA leq_addr.
rewrite /= R2 R1 /=; have [||||C3 [-> [R3 [D3 E3]]]] := @set_block_ok F C2 (DM C) 0 (p + q) m r => //=; try by rewrite ?R2 ?D2 ?R1 ?D1 //= leq_addr.
rewrite /= R3 D3 R2 D2 R1 D1 /= addnK; have [||||C4 [-> [R4 [D4 E4]]]] := @set_block_ok F C3 (DM D) 0 (p + q + r) m s => //=; try by rewrite ?R3 ?D3 ?R2 ?D2 ?R1 ?D1.
congr Ok; apply: dmat_eq; rewrite ?R4 ?R3 ?R2 ?R1 ?D4 ?D3 ?D2 ?D1 //= ?addnA // => i j Hi Hj.
rewrite E4 ?R3 ?D3 ?R2 ?D2 ?R1 ?D1 // E3 ?R2 ?D2 ?R1 ?D1 // E2 ?R1 ?D1 // E1 // entry_row ?addnA // !add0n !subn0 /= Hi Hj.
case: (ltnP j p) => Lp.
  by rewrite [(p + q <= j)%N]leqNgt (leq_trans Lp (leq_addr _ _)) [(p + q + r <= j)%N]leqNgt (leq_trans Lp) //= -addnA leq_addr.
rewrite entry_row //; last by rewrite ltn_subLR // !addnA.
rewrite ltn_subLR //; case: (ltnP j (p + q)) => L.
  by rewrite [(p + q + r <= j)%N]leqNgt (leq_trans L) ?leq_addr //=.
rewrite -subnDA entry_row //; last by rewrite ltn_subLR // addnA.
rewrite ltn_subLR //; case: (ltnP j (p + q + r)) => L3 //=; by rewrite subnDA.
Qed.
Theorem C54_vertcat4 : forall m n o k p (A : 'M[F]_(m, p)) (B : 'M[F]_(n, p)) (C : 'M[F]_(o, p)) (D : 'M[F]_(k, p)), (0 < p)%N ->
  vertcat4 g (DM A) (DM B) (DM C) (DM D) = Ok (DM (col_mx A (col_mx B (col_mx C D)))).
Proof.
move=> m n o k p A B C D p0; rewrite /vertcat4 /= !eqxx /= /comma_first /= -!addnA leq_addr leqnn /=.
have [||||C1 [-> [R1 [D1 E1]]]] := @set_block_ok F (dfresh g (m + (n + (o + k))) p) (DM A) 0 0 m p => //=; try by rewrite add0n leq_addr.
cbn [obind]; rewrite comma_wrap //= ?D1 ?R1 ?leqnn //= ?add0n ?leq_add2l ?leq_addr //.
have [||||C2 [-> [R2 [D2 E2]]]] := @set_block_ok F C1 (DM B) m 0 n p => //=; try by rewrite ?R1 ?D1 //= leq_add2l leq_addr.
cbn [obind]; rewrite comma_wrap //= ?D2 ?R2 ?D1 ?R1 ?leqnn //= -?addnA ?leq_add2l ?leq_addr //.
have [||||C3 [-> [R3 [D3 E3]]]] := @set_block_ok F C2 (DM C) (m + n) 0 o p => //=; try by rewrite ?R2 ?D2 ?R1 ?D1 //= -addnA !leq_add2l leq_addr.
cbn [obind]; rewrite comma_wrap //= ?D3 ?R3 ?D2 ?R2 ?D1 ?R1 ?leqnn //= -?addnA //.
have [||||C4 [-> [R4 [D4 E4]]]] := @set_block_ok F C3 (DM D) (m + (n + o)) 0 k p => //=; try by rewrite ?R3 ?D3 ?R2 ?D2 ?R1 ?D1 //= -!addnA.
rewrite /= /comma_end /= R4 R3 R2 R1 D4 D3 D2 D1 /=; have -> : (m + (n + o) + k == m + (n + (o + k)))%N by rewrite -!addnA.
rewrite eqxx /=; congr Ok; apply: dmat_eq; rewrite ?R4 ?R3 ?R2 ?R1 ?D4 ?D3 ?D2 ?D1 //= => i j Hi Hj.
rewrite E4 ?R3 ?D3 ?R2 ?D2 ?R1 ?D1 // E3 ?R2 ?D2 ?R1 ?D1 // E2 ?R1 ?D1 // E1 // entry_col // !add0n !subn0 /= Hj -!addnA Hi !andbT.
case: (ltnP i m) => Lm.
  by rewrite [(m + n <= i)%N]leqNgt (leq_trans Lm (leq_addr _ _)) [(m + (n + o) <= i)%N]leqNgt (leq_trans Lm (leq_addr _ _)) /=.
rewrite entry_col //; last by rewrite ltn_subLR.
rewrite ltn_subLR //; case: (ltnP i (m + n)) => L /=.
  by rewrite [(m + (n + o) <= i)%N]leqNgt addnA (leq_trans L (leq_addr _ _)) /=.
rewrite -subnDA entry_col //; last by rewrite ltn_subLR // -!addnA.
rewrite ltn_subLR // -!addnA; case: (ltnP i (m + (n + o))) => L3 //=; by rewrite addnA subnDA.
Qed.
(** vectors: vertcat_vec appends, horcat_vec cannot work *)
Theorem C54_vertcat_vec : forall m n (a : 'cV[F]_m) (b : 'cV[F]_n), (0 < m)%N -> (0 < n)%N -> vertcat_vec g a b = Ok (DM (col_mx a b)).
Proof.
move=> m n a b m0 n0; have := C54_vertcat a b m0 n0 (isT : (0 < 1)%N).
by rewrite /vertcat /vertcat_vec /dsize /= !muln1 !eqn0Ngt m0 n0.
Qed.
Theorem C54_horcat_vec_aborts : forall m n o (a : 'cV[F]_m) (b : 'cV[F]_n) (c : 'cV[F]_o),
  (m = n -> (0 < m)%N -> horcat_vec g a b = Abort EigenAssert) /\ (m = n -> m = o -> horcat_vec3 g a b c = Abort EigenAssert).
Proof.
by move=> m n o a b c; split=> [E m0|E E2]; subst; rewrite /horcat_vec /horcat_vec3 /= ?eqn0Ngt ?m0 ?eqxx.
Qed.
Theorem C54_vertcat_vec3 : forall m n o (a : 'cV[F]_m) (b : 'cV[F]_n) (c : 'cV[F]_o), vertcat_vec3 g a b c = Ok (DM (col_mx a (col_mx b c))).
Proof. by move=> m n o a b c; have := C54_vertcat3 a b c (isT : (0 < 1)%N); rewrite /vertcat3 /vertcat_vec3 /=. Qed.
(** an empty vector is neutral for both; vectors of different lengths are not put side by side *)
Theorem C54_vec_empty : forall m n (a : 'cV[F]_m) (b : 'cV[F]_n),
  (m = 0%N -> vertcat_vec g a b = Ok (DM b) /\ horcat_vec g a b = Ok (DM b)) /\
  ((0 < m)%N -> n = 0%N -> vertcat_vec g a b = Ok (DM a) /\ horcat_vec g a b = Ok (DM a)) /\
  ((0 < m)%N -> (0 < n)%N -> m <> n -> horcat_vec g a b = Abort RTVerificationFailed).
Proof.
move=> m n a b; rewrite /vertcat_vec /horcat_vec; split; first by case: (m == 0%N) / eqP.
split=> [m0|m0 n0 N]; first by rewrite eqn0Ngt m0 /=; case: (n == 0%N) / eqP.
by rewrite !eqn0Ngt m0 n0 /=; move/eqP/negbTE: N => ->.
Qed.
End Cat.
Example C54_cat_example : exists A B : dmat rat_realFieldType, dsize A <> 0%N /\ dsize B <> 0%N /\ drows A = drows B /\ dcols A <> dcols B.
Proof. by exists (dzero _ 2 3), (dzero _ 2 1). Qed.
Print Assumptions C54_horcat. Print Assumptions C54_vertcat. Print Assumptions C54_horcat3. Print Assumptions C54_vertcat3. Print Assumptions C54_horcat4. Print Assumptions C54_vertcat4. Print Assumptions C54_horcat_vec_aborts. Print Assumptions C54_vec_empty.
