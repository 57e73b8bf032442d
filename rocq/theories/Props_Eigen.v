(** Properties C54 (block-diagonal assembly), C38 (two blocks: stack and split), C55 (interpolation), C62 (matrix exponential). *)
From Coq Require Import ZArith.
From mathcomp Require Import all_ssreflect all_algebra.
From Verif Require Import Outcome DMat EigenModel EigenProofs.
Set Implicit Arguments. Unset Strict Implicit. Unset Printing Implicit Defensive.
Import Order.Theory GRing.Theory Num.Theory.
Local Open Scope ring_scope.
Local Open Scope outcome_scope.

(** ** C54 *)
(** equal column counts: the block-diagonal matrix *)
Theorem C54_blkdiag : forall (F : realFieldType) m n p (A : 'M[F]_(m, p)) (B : 'M[F]_(n, p)),
  blkdiag (DM A) (DM B) = Ok (DM (block_mx A 0 0 B)).
Proof.
move=> F m n p A B; rewrite /blkdiag /=.
have [||||C [-> [RC [CC EC]]]] := @set_block_ok F (dzero F (m + n) (p + p)) (DM A) 0 0 m p => //=; try by rewrite ?add0n leq_addr.
have [||||D [-> [RD [CD ED]]]] := @set_block_ok F C (DM B) m p n p => //=; try by rewrite ?RC ?CC.
congr Ok; apply: dmat_eq; rewrite ?RD ?CD ?RC ?CC //= => i j Hi Hj.
rewrite ED ?RC ?CC // EC //= (entry_block _ _ _ _ Hi Hj).
have Z a b c d : entry (DM (0 : 'M[F]_(a, b))) c d = 0.
  by rewrite /entry /=; case: insub => // ?; case: insub => // ?; rewrite mxE.
rewrite !add0n !subn0 /=; case: (ltnP i m) => Im; case: (ltnP j p) => Jp //=.
- by rewrite !Z.
- by rewrite ?andbF /= !Z.
- by rewrite Hi Hj.
Qed.
(** different column counts: a failed Eigen assertion, for any two such matrices *)
Theorem C54_different_columns_abort : forall (F : realFieldType) (A B : dmat F), dcols A <> dcols B -> blkdiag A B = Abort EigenAssert.
Proof.
by move=> F A B N; rewrite /blkdiag set_block_bad //; apply/orP; right; apply/eqP.
Qed.
Example C54_example : exists A B : dmat rat_realFieldType, dcols A <> dcols B /\ drows A = dcols A /\ drows B = dcols B.
Proof. by exists (deye _ 2 2), (deye _ 3 3). Qed.

(** ** C38, two participants *)
Theorem C38_stack2 : forall (F : realFieldType) garbage m n (Sii : 'M[F]_m) (Sij : 'M[F]_(m, n)) (Sjj : 'M[F]_n),
  (0 < m)%N -> (0 < n)%N ->
  stack2 garbage (DM Sii) (DM Sjj) (DM Sij) = Ok (DM (block_mx Sii Sij Sij^T Sjj)).
Proof.
move=> F g m n Sii Sij Sjj m0 n0; rewrite /stack2 /dsize /= muln_eq0 !eqn0Ngt m0 n0 /= !eqxx /=.
rewrite /comma_first /= !leq_addr /=.
have [||||C1 [-> [R1 [D1 E1]]]] := @set_block_ok F (dfresh g (m + n) (m + n)) (DM Sii) 0 0 m m => //=; try by rewrite add0n leq_addr.
cbn [obind].
have Nm : m != (m + n)%N by rewrite -{1}[m]addn0 eqn_add2l eq_sym -lt0n.
rewrite comma_same //= ?D1 //.
have [||||C2 [-> [R2 [D2 E2]]]] := @set_block_ok F C1 (DM Sij) 0 m m n => //=; try by rewrite ?R1 ?D1 ?add0n ?leq_addr.
cbn [obind]; rewrite comma_wrap //= ?D2 ?D1 ?R2 ?R1 ?leq_addr //= add0n.
have [||||C3 [-> [R3 [D3 E3]]]] := @set_block_ok F C2 (dtr (DM Sij)) m 0 n m => //=; try by rewrite ?R2 ?R1 ?D2 ?D1 ?add0n ?leq_addr.
cbn [obind]; rewrite comma_same //= ?D3 ?D2 ?D1 //.
have [||||C4 [-> [R4 [D4 E4]]]] := @set_block_ok F C3 (DM Sjj) m m n n => //=; try by rewrite ?R3 ?R2 ?R1 ?D3 ?D2 ?D1.
rewrite /= /comma_end /= R4 R3 R2 R1 D4 D3 D2 D1 /= !eqxx /=; congr Ok.
apply: dmat_eq; rewrite ?R4 ?R3 ?R2 ?R1 ?D4 ?D3 ?D2 ?D1 //= => i j Hi Hj.
rewrite E4 ?R3 ?R2 ?R1 ?D3 ?D2 ?D1 // E3 ?R2 ?R1 ?D2 ?D1 // E2 ?R1 ?D1 // E1 // (entry_block _ _ _ _ Hi Hj) !add0n !subn0 /= Hi Hj.
by case: (ltnP i m) => Im; case: (ltnP j m) => Jm //=; rewrite ?andbF.
Qed.
(** the result is symmetric when the diagonal blocks are *)
Theorem C38_stack2_symmetric : forall (F : realFieldType) garbage m n (Sii : 'M[F]_m) (Sij : 'M[F]_(m, n)) (Sjj : 'M[F]_n) S,
  (0 < m)%N -> (0 < n)%N -> Sii^T = Sii -> Sjj^T = Sjj ->
  stack2 garbage (DM Sii) (DM Sjj) (DM Sij) = Ok (DM S) -> S^T = S :> 'M[F]_(m + n).
Proof.
by move=> F g m n Sii Sij Sjj S m0 n0 hi hj; rewrite C38_stack2 // => E; have := DM_inj (Ok_inj E) => <-; rewrite tr_block_mx hi hj trmxK.
Qed.
(** splitting: the blocks of any square matrix of matching size *)
Theorem C38_split2 : forall (F : realFieldType) m n (A : 'M[F]_m) B C (D : 'M[F]_n), (0 < m)%N -> (0 < n)%N ->
  split2 (DM (block_mx A B C D)) m n = Ok (DM A, DM D, DM (B : 'M[F]_(m, n))).
Proof.
move=> F m n A B C D m0 n0; rewrite /split2 /= m0 n0 /= !eqxx /= addnK.
rewrite (@block_eq F _ (DM A)) //=; try by rewrite add0n leq_addr.
  rewrite (@block_eq F _ (DM D)) //=.
    rewrite (@block_eq F _ (DM (B : 'M[F]_(m, n)))) //=; try by rewrite add0n leq_addr.
    move=> a b Ha Hb; rewrite (entry_block _ _ _ _) ?ltn_add2l ?ltn_addr //.
    by rewrite add0n Ha ltnNge leq_addr /= addKn.
  move=> a b Ha Hb; rewrite (entry_block _ _ _ _) ?ltn_add2l //.
  by rewrite !ltnNge !leq_addr /= !addKn.
move=> a b Ha Hb; rewrite !add0n (entry_block _ _ _ _) ?ltn_addr //.
by rewrite Ha Hb.
Qed.
(** hence the two are inverse: split after stack ... *)
Theorem C38_split_stack : forall (F : realFieldType) garbage m n (Sii : 'M[F]_m) (Sij : 'M[F]_(m, n)) (Sjj : 'M[F]_n) S,
  (0 < m)%N -> (0 < n)%N -> stack2 garbage (DM Sii) (DM Sjj) (DM Sij) = Ok S -> split2 S m n = Ok (DM Sii, DM Sjj, DM Sij).
Proof. by move=> F g m n Sii Sij Sjj S m0 n0; rewrite C38_stack2 // => -[<-]; rewrite C38_split2. Qed.
(** ... and stack after split of a symmetric matrix *)
Theorem C38_stack_split : forall (F : realFieldType) garbage m n (S : 'M[F]_(m + n)), (0 < m)%N -> (0 < n)%N -> S^T = S ->
  exists Sii Sjj Sij, split2 (DM S) m n = Ok (Sii, Sjj, Sij) /\ stack2 garbage Sii Sjj Sij = Ok (DM S).
Proof.
move=> F g m n S m0 n0 sym; exists (DM (ulsubmx S)), (DM (drsubmx S)), (DM (ursubmx S)).
have E : dlsubmx S = (ursubmx S)^T by rewrite trmx_ursub sym.
by split; [rewrite -{1}[S]submxK C38_split2 | rewrite C38_stack2 // -E submxK].
Qed.
(** three participants: the blocks of a 3x3 block matrix *)
Theorem C38_split3 : forall (F : realFieldType) m n p (A : 'M[F]_m) B C (D : 'M[F]_n) E1 E2 G1 G2 (K : 'M[F]_p),
  (0 < m)%N -> (0 < n)%N -> (0 < p)%N ->
  split3 (DM (block_mx (block_mx A B C D) (col_mx E1 E2) (row_mx G1 G2) K)) m n p
  = Ok (DM A, DM D, DM K, (DM (B : 'M[F]_(m, n)), DM (E1 : 'M[F]_(m, p)), DM (E2 : 'M[F]_(n, p)))).
Proof.
move=> F m n p A B C D E1 E2 G1 G2 K m0 n0 p0; rewrite /split3 /= m0 n0 p0 /= !eqxx /= addnK.
have H1 a : (a < m -> a < m + n + p)%N by move=> L; rewrite -addnA ltn_addr.
have H2 a : (a < n -> m + a < m + n + p)%N by move=> L; rewrite -addnA ltn_add2l ltn_addr.
have H3 a : (a < p -> m + n + a < m + n + p)%N by move=> L; rewrite ltn_add2l.
have L1 a : (a < m -> a < m + n)%N by move=> L; rewrite ltn_addr.
have L2 a : (a < n -> m + a < m + n)%N by move=> L; rewrite ltn_add2l.
have EC (a b : nat) : (a < m + n)%N -> (b < p)%N -> entry (DM (col_mx E1 E2)) a b = if (a < m)%N then entry (DM E1) a b else entry (DM E2) (a - m) b.
  move=> Ha Hb; rewrite (entry_in _ Ha Hb) mxE /=; case: splitP => x /= Ex; rewrite Ex ?ltn_ord.
  - by rewrite -(entryE E1 x (Ordinal Hb)).
  - by rewrite ltnNge leq_addr /= addKn -(entryE E2 x (Ordinal Hb)).
have D0 : (0 + m <= m + n + p)%N by rewrite add0n -addnA leq_addr.
have Dm : (m + n <= m + n + p)%N by rewrite leq_addr.
have Dp : (m + n + p <= m + n + p)%N by [].
set S := DM (block_mx _ _ _ _).
have -> : dblock S 0 0 m m = Ok (DM A).
  apply: block_eq => //= a b Ha Hb. rewrite /S !add0n (entry_block _ _ _ _) ?H1 //. 
  by rewrite !L1 // (entry_block _ _ _ _) ?L1 // Ha Hb.
have -> : dblock S m m n n = Ok (DM D).
  by apply: block_eq => //= a b Ha Hb; rewrite /S (entry_block _ _ _ _) ?H2 // !L2 // (entry_block _ _ _ _) ?L2 // !ltnNge !leq_addr /= !addKn.
have -> : dblock S 0 m m n = Ok (DM (B : 'M[F]_(m, n))).
  by apply: block_eq => //= a b Ha Hb; rewrite /S add0n (entry_block _ _ _ _) ?(H1 _ Ha) ?(H2 _ Hb) // (L1 _ Ha) (L2 _ Hb) (entry_block _ _ _ _) ?(L1 _ Ha) ?(L2 _ Hb) // Ha ltnNge leq_addr /= addKn.
have -> : dblock S 0 (m + n) m p = Ok (DM (E1 : 'M[F]_(m, p))).
  by apply: block_eq => //= a b Ha Hb; rewrite /S add0n (entry_block _ _ _ _) ?(H1 _ Ha) ?(H3 _ Hb) // (L1 _ Ha) ltnNge leq_addr /= addKn EC ?(L1 _ Ha) // Ha.
have -> : dblock S m (m + n) n p = Ok (DM (E2 : 'M[F]_(n, p))).
  by apply: block_eq => //= a b Ha Hb; rewrite /S (entry_block _ _ _ _) ?(H2 _ Ha) ?(H3 _ Hb) // (L2 _ Ha) ltnNge leq_addr /= addKn EC ?(L2 _ Ha) // ltnNge leq_addr /= addKn.
have -> // : dblock S (m + n) (m + n) p p = Ok (DM K).
by apply: block_eq => //= a b Ha Hb; rewrite /S (entry_block _ _ _ _) ?H3 // !ltnNge !leq_addr /= !addKn.
Qed.

(** ** C55: linear interpolation between two measurements *)
(** the first/last instant give back the first/last measurement *)
Theorem C55_endpoints : forall (F : realFieldType) n p q (ta tc : F) (za zc : 'cV[F]_n) (Ra Rc : 'M[F]_(p, q)), ta <> tc ->
  lin_interpolate (MData ta (DM za) (DM Ra)) (MData tc (DM zc) (DM Rc)) ta = Ok (Some (MData ta (DM za) (DM Ra))) /\
  lin_interpolate (MData ta (DM za) (DM Ra)) (MData tc (DM zc) (DM Rc)) tc = Ok (Some (MData tc (DM zc) (DM Rc))).
Proof.
move=> F n p q ta tc za zc Ra Rc N; rewrite /lin_interpolate /= subr_eq0 eq_sym.
move/eqP/negPf: (N) => ->; rewrite !dsub_ok /= !dadd_ok /= subrr mul0r !scale0r !addr0.
have U : tc - ta != 0 by rewrite subr_eq0 eq_sym; apply/eqP.
by rewrite divff // !scale1r ![_ + (_ - _)]addrC !subrK.
Qed.
(** in between, every component of z and R lies between the components at the ends, on the straight line *)
Theorem C55_between : forall (F : realFieldType) n p q (ta tb tc : F) (za zc : 'cV[F]_n) (Ra Rc : 'M[F]_(p, q)),
  ta < tc -> ta <= tb -> tb <= tc ->
  exists (zb : 'cV[F]_n) (Rb : 'M[F]_(p, q)),
    lin_interpolate (MData ta (DM za) (DM Ra)) (MData tc (DM zc) (DM Rc)) tb = Ok (Some (MData tb (DM zb) (DM Rb))) /\
    (forall i, (tc - ta) * zb i 0 = (tc - tb) * za i 0 + (tb - ta) * zc i 0) /\
    (forall i j, (tc - ta) * Rb i j = (tc - tb) * Ra i j + (tb - ta) * Rc i j) /\
    (forall i, Num.min (za i 0) (zc i 0) <= zb i 0 <= Num.max (za i 0) (zc i 0)) /\
    (forall i j, Num.min (Ra i j) (Rc i j) <= Rb i j <= Num.max (Ra i j) (Rc i j)).
Proof.
move=> F n p q ta tb tc za zc Ra Rc Lac Lab Lbc; rewrite /lin_interpolate /=.
have P : 0 < tc - ta by rewrite subr_gt0.
have U : tc - ta != 0 by rewrite gt_eqF.
rewrite (negPf U) !dsub_ok /= !dadd_ok /=.
set r := (tb - ta) / (tc - ta).
have r0 : 0 <= r by rewrite divr_ge0 ?subr_ge0 // ltW.
have r1 : r <= 1 by rewrite ler_pdivr_mulr // mul1r ler_sub.
have line x y : (tc - ta) * (x + r * (y - x)) = (tc - tb) * x + (tb - ta) * y.
  have E : (tc - ta) * r = tb - ta by rewrite mulrC /r divfK.
  rewrite mulrDr mulrA E mulrBr addrCA -mulrBl [RHS]addrC; congr (_ + _ * _).
  by rewrite opprB addrA subrK.
have btw x y : Num.min x y <= x + r * (y - x) <= Num.max x y.
  case: (lerP x y) => L.
    rewrite ler_addl mulr_ge0 ?subr_ge0 //= -[X in _ <= X](subrK x) addrC ler_add2r.
    by rewrite -[X in _ <= X]mul1r ler_wpmul2r ?subr_ge0.
  have N : y - x <= 0 by rewrite subr_le0 ltW.
  apply/andP; split; last by rewrite ger_addl mulr_ge0_le0.
  by rewrite -ler_subl_addl -[X in X <= _]mul1r ler_wnmul2r.
exists (za + r *: (zc - za)), (Ra + r *: (Rc - Ra)).
by split=> //; split; [|split; [|split]] => *; rewrite !mxE ?line ?btw.
Qed.
(** equal times: the interpolation divides by zero *)
Theorem C55_equal_times_undefined : forall (F : realFieldType) (a c : mdata F) tb, md_t a = md_t c -> lin_interpolate a c tb = Ok None.
Proof. by move=> F a c tb E; rewrite /lin_interpolate E subrr eqxx. Qed.
Example C55_example : lin_interpolate (MData 1 (DM (const_mx 2%:R : 'cV[rat_realFieldType]_2)) (DM (1%:M : 'M_2))) (MData 3%:R (DM (const_mx 6%:R : 'cV_2)) (DM (3%:R%:M : 'M_2))) 2%:R
  = Ok (Some (MData 2%:R (DM (const_mx 4%:R : 'cV_2)) (DM (2%:R%:M : 'M_2)))).
Proof.
rewrite /lin_interpolate [md_t _]/= [md_t (MData 1 _ _)]/=; case: eqP => [//|_]; rewrite /= !dsub_ok /= !dadd_ok /=.
have E1 : const_mx 2%:R + ((2%:R - 1) / (3%:R - 1)) *: (const_mx 6%:R - const_mx 2%:R) = const_mx 4%:R :> 'cV[rat_realFieldType]_2.
  by apply/matrixP => i j; rewrite !mxE.
have E2 : 1%:M + ((2%:R - 1) / (3%:R - 1)) *: (3%:R%:M - 1%:M) = 2%:R%:M :> 'M[rat_realFieldType]_2.
  by apply/matrixP => i j; rewrite !mxE; case: (i == j).
by rewrite E1 E2.
Qed.

(** ** C63: the noise matrix of a measurement *)
(** a column vector of variances is turned into the diagonal matrix, any other shape is used as it is *)
Theorem C63_get_R_vector : forall (F : realFieldType) n (v : 'cV[F]_n), get_R (DM v) = DM (diag_mx v^T).
Proof.
move=> F n v; rewrite /get_R /=; congr DM; apply/matrixP => i j; rewrite !mxE.
case: (eqVneq i j) => _; rewrite ?mulr1n ?mulr0n //.
by rewrite -(entryE v i 0).
Qed.
Theorem C63_get_R_matrix : forall (F : realFieldType) m n (R : 'M[F]_(m, n)), n <> 1%N -> get_R (DM R) = DM R.
Proof. by move=> F m n R; rewrite /get_R /= => /eqP/negPf ->. Qed.

(** ** C62: the truncated matrix exponential *)
Definition taylor (F : realFieldType) (A : 'M[F]_4) (n : nat) : 'M[F]_4 := \sum_(k < n.+1) (k`!%:R^-1 : F) *: A ^+ k.
Lemma Z2F_nat (F : realFieldType) n : Z2F F (Z.of_nat n) = n%:R.
Proof. by case: n => //= n; rewrite SuccNat2Pos.id_succ. Qed.
Fixpoint zfact (k : nat) : Z := if k is n.+1 then Z.mul (zfact n) (Z.of_nat k) else Zpos 1.
Lemma zfactE k : Z.of_nat k`! = zfact k.
Proof. by elim: k => [//|n IH]; rewrite factS mulnC -multE Nat2Z.inj_mul IH. Qed.
Lemma zfact_small k : (k <= 12)%N -> Z.leb (zfact k) (Zpos 2147483647).
Proof. by do 13 (case: k => [|k]; first by vm_compute). Qed.
Lemma mat_exp_loop_ok (F : realFieldType) (A : 'M[F]_4) todo : forall k acc, (todo + k <= 12)%N -> acc = taylor A k ->
  mat_exp_loop todo (Z.of_nat k.+1) (Z.of_nat k`!) acc (A ^+ k.+1) A = Ok (taylor A (todo + k)).
Proof.
elim: todo => [|n IH] k acc L E; first by rewrite E.
have M : Z.mul (Z.of_nat k`!) (Z.of_nat k.+1) = Z.of_nat (k.+1)`! by rewrite factS mulnC -multE Nat2Z.inj_mul.
have B : Z.leb (Z.of_nat (k.+1)`!) (Zpos 2147483647).
  by rewrite zfactE zfact_small //; apply: leq_trans L; rewrite addSn ltnS leq_addl.
rewrite /mat_exp_loop -/(@mat_exp_loop F) M B -Nat2Z.inj_succ.
have -> : A ^+ k.+1 *m A = A ^+ k.+2 by rewrite [RHS]exprSr.
have L' : (n + k.+1 <= 12)%N by rewrite addnS -addSn.
rewrite (IH k.+1 _ L') ?addnS ?addSn //.
by rewrite E /taylor [RHS]big_ord_recr /= Z2F_nat.
Qed.
(** up to order 12 MatExp is the Taylor polynomial of the exponential, e.g. with the default order 4 *)
Theorem C62_mat_exp_taylor : forall (F : realFieldType) (A : 'M[F]_4) n, (n <= 12)%N -> mat_exp A n = Ok (taylor A n).
Proof.
move=> F A n L; rewrite /mat_exp -[Zpos 1]/(Z.of_nat 1) -{2}[1%N]/(0`!) -{2}[A]expr1 mat_exp_loop_ok ?addn0 //.
by rewrite /taylor big_ord_recl big_ord0 addr0 fact0 invr1 scale1r expr0.
Qed.
(** from order 13 on the 32-bit factorial overflows *)
Lemma mat_exp_loop_ub (F : realFieldType) (A : 'M[F]_4) todo : forall k acc p, (k <= 12)%N -> (12 < todo + k)%N ->
  mat_exp_loop todo (Z.of_nat k.+1) (zfact k) acc p A = UB SignedOverflow.
Proof.
elim: todo => [|n IH] k acc p K L; first by move: L; rewrite add0n ltnNge K.
have M : Z.mul (zfact k) (Z.of_nat k.+1) = zfact k.+1 by [].
rewrite /mat_exp_loop -/(@mat_exp_loop F) M -Nat2Z.inj_succ.
move: K; rewrite leq_eqVlt => /orP[/eqP->|K].
  by rewrite (_ : Z.leb (zfact 13) (Zpos 2147483647) = false) //; vm_compute.
by rewrite zfact_small // IH // addnS.
Qed.
Theorem C62_mat_exp_overflow : forall (F : realFieldType) (A : 'M[F]_4) n, (12 < n)%N -> mat_exp A n = UB SignedOverflow.
Proof. by move=> F A n L; apply: (@mat_exp_loop_ub F A n 0); rewrite ?addn0. Qed.

Print Assumptions C54_blkdiag.
Print Assumptions C54_different_columns_abort.
Print Assumptions C38_stack2.
Print Assumptions C38_stack2_symmetric.
Print Assumptions C38_split2.
Print Assumptions C38_split_stack.
Print Assumptions C38_stack_split.
Print Assumptions C38_split3.
Print Assumptions C55_endpoints.
Print Assumptions C55_between.
Print Assumptions C55_equal_times_undefined.
Print Assumptions C63_get_R_vector.
Print Assumptions C63_get_R_matrix.
Print Assumptions C62_mat_exp_taylor.
Print Assumptions C62_mat_exp_overflow.
