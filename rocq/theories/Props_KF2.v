(** Properties C26, C29, C59 (exact criteria): a covariance that is not square is never accepted silently, and the
    exact condition under which covariance intersection returns a valid covariance. *)
From Coq Require Import ZArith.
From Flocq Require Import IEEE754.BinarySingleNaN.
From mathcomp Require Import all_ssreflect all_algebra.
From Verif Require Import Outcome DoubleModel Chi2Model Props_Chi2 DMat KFModel Spec_Mat KFProofs Props_KF.
Set Implicit Arguments. Unset Strict Implicit. Unset Printing Implicit Defensive.
Import Order.Theory GRing.Theory Num.Theory.
Local Open Scope ring_scope.

Section NonSquare.
Variable F : realFieldType.
Variable junk : forall n, 'M[F]_n -> 'M[F]_n.

Lemma dadd_bad m n p q (A : 'M[F]_(m, n)) (B : 'M[F]_(p, q)) : (p, q) <> (m, n) -> dadd (DM A) (DM B) = Abort EigenAssert.
Proof.
move=> N; rewrite /dadd /dzip /=; case: eqP => // e1; case: eqP => // e2.
by case: N; rewrite e1 e2.
Qed.

(** every covariance matrix that is not square but has the right number of rows passes the dimension check and
    then trips the matrix library's assertion *)
Theorem C26_nonsquare : forall (Sigma Phi Q : dmat F) stab eps, drows Sigma <> dcols Sigma ->
  drows Phi = drows Sigma /\ dcols Phi = drows Sigma /\ drows Q = drows Sigma /\ dcols Q = drows Sigma ->
  covariance_propagation Sigma Phi Q stab eps = Abort EigenAssert.
Proof.
move=> [n k Sigma] [a b Phi] [c d Q] stab eps /= ns [ea [eb [ec ed]]]; subst a b c d.
rewrite /covariance_propagation /check_dim_phi_q /check_dim_phi /= !eqxx /=; case: stab.
  by rewrite /stabilize_covariance /dtr /= dadd_bad //= => -[].
by rewrite dmul_ok /= /dtr /= dmul_bad.
Qed.

Theorem C29_nonsquare : forall (H R r Sigma : dmat F) cfg, drows Sigma <> dcols Sigma ->
  dcols H = drows Sigma /\ drows r = drows H /\ dcols r = 1%N /\ drows R = drows H /\ dcols R = drows H ->
  correction_step junk H R r Sigma cfg = Abort EigenAssert.
Proof.
move=> [a b H] [c d R] [e f r] [n k Sigma] cfg /= ns [eb [ee [ef [ec ed]]]]; subst b e f c d.
rewrite /correction_step /check_dim_meas /= !eqxx /= dmul_ok /= /dtr /= dmul_bad //.
Qed.
End NonSquare.

Section Schur.
Variable F : realFieldType.

Lemma cross_entry m n (x : 'cV[F]_m) (B : 'M[F]_(m, n)) (y : 'cV[F]_n) : (y^T *m B^T *m x) 0 0 = (x^T *m B *m y) 0 0.
Proof.
have -> : y^T *m B^T *m x = (x^T *m B *m y)^T by rewrite [RHS]trmx_mul [(x^T *m B)^T]trmx_mul trmxK mulmxA.
by rewrite mxE.
Qed.
Lemma quad_block m n (A : 'M[F]_m) (B : 'M[F]_(m, n)) (S' : 'M[F]_n) x y :
  quad (block_mx A B B^T S') (col_mx x y) = quad A x + quad S' y + ((x^T *m B *m y) 0 0 *+ 2).
Proof.
rewrite /quad tr_col_mx mul_row_block mul_row_col !mulmxDl.
have mD : forall (P Q : 'M[F]_1), (P + Q) 0 0 = P 0 0 + Q 0 0 by move=> P Q; rewrite !mxE.
by rewrite !mD cross_entry mulr2n addrACA [RHS]addrACA [_ + quad S' y]addrC /quad; rewrite -!addrA; congr (_ + _); rewrite addrC -!addrA; congr (_ + _); rewrite addrC.
Qed.
(** Schur complement *)
Lemma schur m n (A : 'M[F]_m) (B : 'M[F]_(m, n)) (S' : 'M[F]_n) : symmetric S' -> pd S' ->
  (psd (block_mx A B B^T S') <-> psd (A - B *m invmx S' *m B^T)).
Proof.
move=> sS pS; have uS := pd_unit pS.
have E x y : quad (block_mx A B B^T S') (col_mx x y) =
  quad (A - B *m invmx S' *m B^T) x + quad S' (y + invmx S' *m B^T *m x).
  set z := invmx S' *m B^T *m x.
  have zT : z^T *m S' = x^T *m B by rewrite /z !trmx_mul trmxK trmx_inv sS !mulmxA mulmxKV.
  have Sz : S' *m z = B^T *m x by rewrite /z !mulmxA mulmxV // mul1mx.
  have mD : forall (P Q : 'M[F]_1), (P + Q) 0 0 = P 0 0 + Q 0 0 by move=> P Q; rewrite !mxE.
  have E1 : quad S' (y + z) = quad S' y + (x^T *m B *m y) 0 0 *+ 2 + (x^T *m B *m z) 0 0.
    have tD : (y + z)^T = y^T + z^T by rewrite linearD.
    rewrite /quad tD !mulmxDl !mulmxDr !mD zT -[y^T *m S' *m z]mulmxA Sz mulmxA cross_entry mulr2n -!addrA.
    by [].
  have E2 : quad (B *m invmx S' *m B^T) x = (x^T *m B *m z) 0 0 by rewrite /quad /z !mulmxA.
  rewrite quad_block E1 quadD quadN E2 -!addrA; congr (_ + _).
  by rewrite [RHS]addrC -!addrA subrr addr0.
split=> [P x|P v].
- by have := P (col_mx x (- (invmx S' *m B^T *m x))); rewrite E addNr {2}/quad mulmx0 mxE addr0.
- rewrite -[v]vsubmxK E; apply: addr_ge0; first exact: P.
  exact: pd_psd.
Qed.
End Schur.

(** ** C59 *)
Section CI.
Variable F : realFieldType.
Variable junk : forall n, 'M[F]_n -> 'M[F]_n.

(** The covariance returned is valid exactly when the joint covariance of the (inflated) local error and of the
    innovation that the code pretends to have - with the remote part of the innovation covariance only - is one. *)
Theorem C59_ci_valid_iff : forall ni nj m (Hi : 'M[F]_(m, ni)) (Hj : 'M[F]_(m, nj)) (R : 'M[F]_m) (r : 'cV[F]_m)
    (Si : 'M[F]_ni) (Sj : 'M[F]_nj) (w : F) cfg res,
  covariance_intersection_correction junk (DM Hi) (DM Hj) (DM R) (DM r) (DM Si) (DM Sj) w cfg = Ok res ->
  0 < w < 1 -> 0 <= cfg_eps cfg -> covariance Si -> covariance Sj -> symmetric R -> pd R ->
  let eps := if nummerical_stabilization cfg then cfg_eps cfg else 0 in
  let S' := (1 - w)^-1 *: (Hj *m Sj *m Hj^T) + R + (cfg_eps cfg)%:M in
  exists P : 'M[F]_ni, Sigma_apos res = DM P /\ symmetric P /\
    (psd P <-> psd (block_mx (w^-1 *: Si + eps%:M) (w^-1 *: (Si *m Hi^T)) (w^-1 *: (Hi *m Si)) S')).
Proof.
move=> ni nj m Hi Hj R r Si Sj w cfg res; rewrite ci_ok; case: ci_gate => //= rej [<-] /= /andP[w0 w1] e [sS pS] [sj pj] sR pR.
set eps := if _ then _ else _; set S' := _ + (cfg_eps cfg)%:M.
exists (ci_final junk Hi Hj R Si Sj w cfg); split=> //.
have sX : symmetric ((1 - w)^-1 *: (Hj *m Sj *m Hj^T) + R).
  by apply: symD => //; rewrite /symmetric linearZ /=; congr (_ *: _); exact: sym_congr.
have ES : ci_S Hj R Sj w cfg = S' by rewrite /ci_S symm_id.
have pX : pd ((1 - w)^-1 *: (Hj *m Sj *m Hj^T) + R).
  by apply: pd_psdD => //; apply: psdZ; [rewrite invr_ge0 subr_ge0 ltW|apply: psd_congr].
have pC : pd S' by move=> x x0; rewrite /S' quadD; apply: ltr_paddr; [exact: psd_scalar|exact: pX].
have sC : symmetric S' by rewrite /S'; apply: symD => //; exact: sym_scalar.
have EP : ci_P junk Hi Hj R Si Sj w cfg = w^-1 *: Si - w^-1 *: (Si *m Hi^T) *m invmx S' *m (w^-1 *: (Si *m Hi^T))^T.
  rewrite /ci_P ES /inv_or_junk (pd_unit pC); congr (_ - _).
  rewrite linearZ /= -!scalemxAl -scalemxAr scalerA -invrM ?unitfE ?gt_eqF // expr2; congr (_ *: _).
  by rewrite trmx_mul trmxK sS !mulmxA.
have sP : symmetric (ci_P junk Hi Hj R Si Sj w cfg).
  rewrite EP /symmetric linearB /= linearZ /= sS; congr (_ - _).
  by rewrite !trmx_mul trmxK trmx_inv sC !mulmxA.
have EF : ci_final junk Hi Hj R Si Sj w cfg = w^-1 *: Si + eps%:M - w^-1 *: (Si *m Hi^T) *m invmx S' *m (w^-1 *: (Si *m Hi^T))^T.
  rewrite /ci_final /eps; case: nummerical_stabilization; last by rewrite EP raddf0 addr0.
  by rewrite symm_id // EP addrAC.
split.
  rewrite EF /symmetric linearB /= linearD /= linearZ /= sS tr_scalar_mx; congr (_ - _).
  by rewrite !trmx_mul trmxK trmx_inv sC !mulmxA.
rewrite EF -(schur _ _ sC pC).
by have -> : w^-1 *: (Hi *m Si) = (w^-1 *: (Si *m Hi^T))^T by rewrite linearZ /= trmx_mul trmxK sS.
Qed.
End CI.
Example C59_iff_example : 0 < (1 / 2%:R : rat) < 1 /\ covariance (1%:M : 'M[rat]_2) /\ pd (1%:M : 'M[rat]_1).
Proof.
split; first by []. split; first by split; [exact: sym_scalar|exact: psd_scalar].
by apply: pd_scalar.
Qed.
Print Assumptions C26_nonsquare.
Print Assumptions C29_nonsquare.
Print Assumptions C59_ci_valid_iff.
