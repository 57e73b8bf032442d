(** Proofs about the Kalman filter primitives. *)
From Coq Require Import ZArith.
From Flocq Require Import IEEE754.BinarySingleNaN.
From mathcomp Require Import all_ssreflect all_algebra.
From Verif Require Import Outcome DoubleModel Chi2Model DMat KFModel Spec_Mat.
Set Implicit Arguments. Unset Strict Implicit. Unset Printing Implicit Defensive.
Import Order.Theory GRing.Theory Num.Theory.
Local Open Scope ring_scope.
Local Open Scope outcome_scope.

Section Mat.
Variable F : realFieldType.

Lemma quadD n (A B : 'M[F]_n) x : quad (A + B) x = quad A x + quad B x.
Proof. by rewrite /quad mulmxDr mulmxDl mxE. Qed.
Lemma quadN n (A : 'M[F]_n) x : quad (- A) x = - quad A x.
Proof. by rewrite /quad mulmxN mulNmx mxE. Qed.
Lemma quadZ n c (A : 'M[F]_n) x : quad (c *: A) x = c * quad A x.
Proof. by rewrite /quad -scalemxAr -scalemxAl mxE. Qed.
Lemma quadT n (A : 'M[F]_n) x : quad A^T x = quad A x.
Proof.
have E : x^T *m A^T *m x = (x^T *m A *m x)^T by rewrite !trmx_mul trmxK mulmxA.
by rewrite /quad E mxE.
Qed.
Lemma quad_congr n m (A : 'M[F]_n) (B : 'M[F]_(m, n)) x : quad (B *m A *m B^T) x = quad A (B^T *m x).
Proof. by rewrite /quad trmx_mul trmxK !mulmxA. Qed.
Lemma quad1 n (x : 'cV[F]_n) : quad 1%:M x = \sum_i x i 0 ^+ 2.
Proof. by rewrite /quad mulmx1 mxE; apply: eq_bigr => i _; rewrite mxE expr2. Qed.

Lemma psd1 n : psd (1%:M : 'M[F]_n).
Proof. by move=> x; rewrite quad1; apply: sumr_ge0 => i _; apply: sqr_ge0. Qed.
Lemma psd_scalar n (c : F) : 0 <= c -> psd (c%:M : 'M[F]_n).
Proof. by move=> c0 x; rewrite -scalemx1 quadZ; apply: mulr_ge0 => //; apply: psd1. Qed.
Lemma psdD n (A B : 'M[F]_n) : psd A -> psd B -> psd (A + B).
Proof. by move=> a b x; rewrite quadD; apply: addr_ge0. Qed.
Lemma psdZ n c (A : 'M[F]_n) : 0 <= c -> psd A -> psd (c *: A).
Proof. by move=> c0 a x; rewrite quadZ; apply: mulr_ge0. Qed.
Lemma psdT n (A : 'M[F]_n) : psd A -> psd A^T.
Proof. by move=> a x; rewrite quadT. Qed.
Lemma psd_congr n m (A : 'M[F]_n) (B : 'M[F]_(m, n)) : psd A -> psd (B *m A *m B^T).
Proof. by move=> a x; rewrite quad_congr. Qed.
Lemma psd0 n : psd (0 : 'M[F]_n).
Proof. by move=> x; rewrite /quad mulmx0 mul0mx mxE. Qed.

Lemma sym_congr n m (A : 'M[F]_n) (B : 'M[F]_(m, n)) : symmetric A -> symmetric (B *m A *m B^T).
Proof. by rewrite /symmetric => a; rewrite !trmx_mul trmxK a mulmxA. Qed.
Lemma symD n (A B : 'M[F]_n) : symmetric A -> symmetric B -> symmetric (A + B).
Proof. by rewrite /symmetric => a b; rewrite linearD /= a b. Qed.

Lemma pd_psd n (A : 'M[F]_n) : pd A -> psd A.
Proof.
move=> p x; case: (altP (x =P 0)) => [->|/p/ltW //].
by rewrite /quad mulmx0 mxE.
Qed.
Lemma pd_unit n (A : 'M[F]_n) : pd A -> A \in unitmx.
Proof.
move=> p; rewrite -row_free_unit -kermx_eq0; apply/eqP/row_matrixP => i; rewrite row0.
have: row i (kermx A) *m A = 0 by apply/sub_kermxP; exact: row_sub.
set v := row i _ => vA; apply/eqP; apply: contraT => v0.
have := p v^T; rewrite /quad trmxK vA mul0mx mxE ltxx.
by rewrite -(inj_eq (can_inj (@trmxK _ _ _))) trmxK trmx0 v0 => /(_ isT).
Qed.
Lemma pd_psdD n (A B : 'M[F]_n) : psd A -> pd B -> pd (A + B).
Proof. by move=> a b x x0; rewrite quadD; apply: ltr_paddl; [exact: a|exact: b]. Qed.

(** symmetrisation and stabilisation *)
Definition symm n (A : 'M[F]_n) : 'M[F]_n := half F *: (A + A^T).

Lemma half_ge0 : 0 <= half F. Proof. by rewrite /half invr_ge0 ler0n. Qed.
Lemma half2 : half F + half F = 1.
Proof. by rewrite -mulr2n -mulr_natr /half mulVf // pnatr_eq0. Qed.
Lemma symm_sym n (A : 'M[F]_n) : symmetric (symm A).
Proof. by rewrite /symmetric /symm linearZ /= linearD /= trmxK [A^T + _]addrC. Qed.
Lemma symm_id n (A : 'M[F]_n) : symmetric A -> symm A = A.
Proof. by rewrite /symmetric /symm => ->; rewrite scalerDr -scalerDl half2 scale1r. Qed.
Lemma symm_psd n (A : 'M[F]_n) : psd A -> psd (symm A).
Proof. by move=> a; apply: psdZ; [exact: half_ge0|apply: psdD => //; apply: psdT]. Qed.
Lemma quad_symm n (A : 'M[F]_n) x : quad (symm A) x = quad A x.
Proof. by rewrite quadZ quadD quadT -[quad A x + _]mulr2n -mulr_natl mulrA /half mulVf ?mul1r // pnatr_eq0. Qed.

Lemma stabilize_ok n (A : 'M[F]_n) eps : stabilize_covariance (DM A) eps = Ok (DM (symm A + eps%:M)).
Proof.
by rewrite /stabilize_covariance /= /dtr /= dadd_ok /= deye_square /dscale /= dadd_ok scalemx1.
Qed.
Lemma symmetrize_ok n (A : 'M[F]_n) : symmetrize_covariance (DM A) = Ok (DM (symm A)).
Proof. by rewrite /symmetrize_covariance /dtr /= dadd_ok. Qed.

Lemma stab_sym n (A : 'M[F]_n) eps : symmetric (symm A + eps%:M).
Proof. by apply: symD; [exact: symm_sym|rewrite /symmetric tr_scalar_mx]. Qed.
Lemma stab_psd n (A : 'M[F]_n) eps : 0 <= eps -> psd A -> psd (symm A + eps%:M).
Proof. by move=> e a; apply: psdD; [exact: symm_psd|exact: psd_scalar]. Qed.

(** ** The optimal gain *)
Section Gain.
Variables (n m : nat) (H : 'M[F]_(m, n)) (R : 'M[F]_m) (Sigma : 'M[F]_n).
Hypothesis (symS : symmetric Sigma) (symR : symmetric R).
Let S := innov H R Sigma.
Hypothesis (unitS : S \in unitmx).
Let K := Sigma *m H^T *m invmx S.

Lemma innov_sym : symmetric S.
Proof. by apply: symD => //; apply: sym_congr. Qed.
Lemma KS : K *m S = Sigma *m H^T.
Proof. by rewrite /K mulmxKV. Qed.
Lemma SKt : S *m K^T = H *m Sigma.
Proof. by rewrite -[S]innov_sym -trmx_mul KS trmx_mul trmxK symS. Qed.

Lemma gain_cov_expand L :
  gain_cov H R Sigma L = Sigma - L *m (S *m K^T) - K *m S *m L^T + L *m S *m L^T.
Proof.
rewrite /gain_cov SKt KS linearB /= trmx1 trmx_mul [(1%:M - L *m H) *m Sigma]mulmxBl mul1mx mulmxBr mulmx1 mulmxBl.
rewrite /S /innov mulmxDr mulmxDl !mulmxA.
by rewrite opprD opprK !addrA.
Qed.

Lemma gain_cov_opt L : gain_cov H R Sigma L = Sigma - K *m S *m K^T + (L - K) *m S *m (L - K)^T.
Proof.
rewrite gain_cov_expand linearB /= !mulmxBl !mulmxBr !mulmxA.
rewrite -!addrA; congr (_ + _).
rewrite !opprD !opprK !addrA addrC !addrA.
have E : forall a b c d : 'M[F]_n, a - b - c = - d + a - b - c + d.
  by move=> a b c d; rewrite [- d + a]addrC -!addrA; congr (_ + _); rewrite !addrA [- d - b]addrC -!addrA; congr (_ + _); rewrite !addrA [- d - c]addrC -addrA addNr addr0.
by rewrite [LHS](E _ _ _ (K *m S *m K^T)).
Qed.

Lemma gain_cov_K : gain_cov H R Sigma K = Sigma - K *m S *m K^T.
Proof. by rewrite gain_cov_opt subrr mul0mx mul0mx addr0. Qed.
Lemma standard_form : (1%:M - K *m H) *m Sigma = Sigma - K *m S *m K^T.
Proof. by rewrite mulmxBl mul1mx -!mulmxA SKt. Qed.
Lemma joseph_standard : gain_cov H R Sigma K = (1%:M - K *m H) *m Sigma.
Proof. by rewrite gain_cov_K standard_form. Qed.
Lemma standard_sym : symmetric ((1%:M - K *m H) *m Sigma).
Proof.
have E : (K *m S *m K^T)^T = K *m S *m K^T by rewrite [LHS]trmx_mul trmxK [(K *m S)^T]trmx_mul innov_sym mulmxA.
by rewrite standard_form /symmetric linearB /= symS E.
Qed.

Lemma information_form : Sigma \in unitmx -> R \in unitmx ->
  ((1%:M - K *m H) *m Sigma) *m (invmx Sigma + H^T *m invmx R *m H) = 1%:M.
Proof.
move=> uS uR. rewrite mulmxDr mulmxK // !mulmxA.
have -> : (1%:M - K *m H) *m Sigma *m H^T = K *m R.
  rewrite mulmxBl mul1mx mulmxBl -KS /S /innov mulmxDr !mulmxA addrAC subrr add0r //.
by rewrite mulmxK // subrK.
Qed.
End Gain.
End Mat.

Section Step.
Variable F : realFieldType.
Variable junk : forall n, 'M[F]_n -> 'M[F]_n.
Notation inv := (@inv_or_junk F junk _).

Lemma NIS_ok m (S : 'M[F]_m) (r : 'cV[F]_m) : NIS junk (DM S) (DM r) = Ok (quad (inv S) r).
Proof.
rewrite /NIS /nis_check_dim /= !eqxx /= dinv_ok /= /dtr /= dmul_ok /= dmul_ok /=.
by rewrite (entryE (r^T *m inv S *m r) ord0 ord0).
Qed.

Lemma NIS_mismatch (S r : dmat F) : (dcols r != 1)%N || (drows r != drows S) -> NIS junk S r = Ok 0.
Proof. by rewrite /NIS /nis_check_dim => ->. Qed.

Lemma check_NIS_ok m (S : 'M[F]_m) (r : 'cV[F]_m) conf :
  check_NIS junk (DM S) (DM r) conf =
  if Bltb (d_of_Z 0) conf then omap (fun thr => quad (inv S) r <= thr) (threshold F conf m) else Ok true.
Proof.
rewrite /check_NIS; case: Bltb => //; rewrite NIS_ok /=.
by case: threshold => //= thr; rewrite leNgt.
Qed.

Section Corr.
Variables (n m : nat) (H : 'M[F]_(m, n)) (R : 'M[F]_m) (r : 'cV[F]_m) (Sigma : 'M[F]_n) (cfg : corr_cfg F).
Definition step_S : 'M[F]_m := symm (innov H R Sigma) + (cfg_eps cfg)%:M.
Definition step_K : 'M[F]_(n, m) := Sigma *m H^T *m inv step_S.
Definition step_U : 'M[F]_n := 1%:M - step_K *m H.
Definition step_P : 'M[F]_n := if use_Josephs_form cfg then gain_cov H R Sigma step_K else step_U *m Sigma.
Definition step_final : 'M[F]_n :=
  symm (if nummerical_stabilization cfg then symm step_P + (cfg_eps cfg)%:M else step_P).
Definition step_gate : outcome bool :=
  if use_outlier_rejection cfg then omap negb (check_NIS junk (DM step_S) (DM r) (confidence_interval cfg)) else Ok false.

Lemma correction_step_ok :
  correction_step junk (DM H) (DM R) (DM r) (DM Sigma) cfg =
  let! rej := step_gate in Ok (CorrRes (DM step_final) (DM (step_K *m r)) (DM step_U) rej).
Proof.
rewrite /correction_step /check_dim_meas /= !eqxx /= /dtr /= dmul_ok /= dmul_ok /= dadd_ok /= stabilize_ok /=.
rewrite -/step_S -/step_gate; case: step_gate => //= rej.
rewrite dmul_ok /= dinv_ok /= dmul_ok /= -/step_K dmul_ok /= dmul_ok /= deye_square dsub_ok /= -/step_U.
have -> : (if use_Josephs_form cfg
     then let! u := dmul (DM step_U) (DM Sigma) in let! v := dmul u (DM step_U^T) in
          let! w := dmul (DM step_K) (DM R) in let! x := dmul w (DM step_K^T) in dadd v x
     else dmul (DM step_U) (DM Sigma)) = Ok (DM step_P).
  rewrite /step_P; case: use_Josephs_form; last by rewrite dmul_ok.
  by rewrite dmul_ok /= dmul_ok /= dmul_ok /= dmul_ok /= dadd_ok.
rewrite /=.
have -> : (if nummerical_stabilization cfg then stabilize_covariance (DM step_P) (cfg_eps cfg) else Ok (DM step_P))
   = Ok (DM (if nummerical_stabilization cfg then symm step_P + (cfg_eps cfg)%:M else step_P)).
  by case: nummerical_stabilization => //; rewrite stabilize_ok.
by rewrite /= symmetrize_ok.
Qed.

Lemma step_P_psd : psd Sigma -> psd R -> use_Josephs_form cfg -> psd step_P.
Proof. by move=> s rr; rewrite /step_P => ->; apply: psdD; apply: psd_congr. Qed.
Lemma step_final_psd : psd Sigma -> psd R -> use_Josephs_form cfg -> 0 <= cfg_eps cfg -> psd step_final.
Proof.
move=> s rr j e; apply: symm_psd; case: nummerical_stabilization; last exact: step_P_psd.
by apply: stab_psd => //; apply: step_P_psd.
Qed.
Lemma step_final_sym : symmetric step_final.
Proof. exact: symm_sym. Qed.

(** exact arithmetic, no regularisation *)
Section Exact.
Hypothesis (symS : symmetric Sigma) (symR : symmetric R) (eps0 : cfg_eps cfg = 0).
Hypothesis unitS : innov H R Sigma \in unitmx.
Lemma step_S_exact : step_S = innov H R Sigma.
Proof. by rewrite /step_S eps0 raddf0 addr0 symm_id //; apply: innov_sym. Qed.
Lemma step_K_exact : step_K = Sigma *m H^T *m invmx (innov H R Sigma).
Proof. by rewrite /step_K step_S_exact /inv_or_junk unitS. Qed.
Lemma step_final_exact : step_final = gain_cov H R Sigma step_K.
Proof.
have P : step_P = gain_cov H R Sigma step_K.
  by rewrite /step_P /step_U step_K_exact joseph_standard //; case: use_Josephs_form.
have sP : symmetric step_P.
  by rewrite P step_K_exact joseph_standard //; apply: standard_sym.
rewrite /step_final eps0 raddf0 addr0 -P.
by case: nummerical_stabilization; rewrite !symm_id //; apply: symm_sym.
Qed.
End Exact.
End Corr.
End Step.

Section Small.
Variable F : realFieldType.
Lemma quad_scalar n (a : F) (x : 'cV[F]_n) : quad a%:M x = a * \sum_i x i 0 ^+ 2.
Proof. by rewrite -scalemx1 quadZ quad1. Qed.
Lemma pd_scalar n (a : F) : 0 < a -> pd (a%:M : 'M[F]_n).
Proof.
move=> a0 x x0; rewrite quad_scalar; apply: mulr_gt0 => //.
rewrite lt_neqAle sumr_ge0 ?andbT => [|i _]; last exact: sqr_ge0.
rewrite eq_sym; apply: contra x0 => /eqP E.
apply/eqP/matrixP => i j; rewrite (ord1 j) mxE.
have /(_ i isT)/eqP := psumr_eq0P (fun i _ => sqr_ge0 (x i 0)) E.
by rewrite sqrf_eq0 => /eqP.
Qed.
Lemma sym_scalar n (a : F) : symmetric (a%:M : 'M[F]_n).
Proof. exact: tr_scalar_mx. Qed.
Lemma unit_scalar n (a : F) : a != 0 -> (a%:M : 'M[F]_n) \in unitmx.
Proof. by move=> a0; rewrite unitmxE det_scalar unitrX // unitfE. Qed.

Lemma Z2F_ge0 z : BinInt.Z.le BinInt.Z0 z -> 0 <= Z2F F z.
Proof. by case: z => [_ //=|p _|p H]; [rewrite /= ; exact: ler0n|case: H]. Qed.
End Small.

(** ** Covariance propagation *)
Section Propag.
Variable F : realFieldType.
Lemma cov_prop_ok n (Sigma Phi Q : 'M[F]_n) eps :
  covariance_propagation (DM Sigma) (DM Phi) (DM Q) false eps = Ok (DM (Phi *m Sigma *m Phi^T + Q)).
Proof.
by rewrite /covariance_propagation /check_dim_phi_q /check_dim_phi /= !eqxx /= dmul_ok /= /dtr /= dmul_ok /= dadd_ok.
Qed.
Lemma cov_prop_stab_ok n (Sigma Phi Q : 'M[F]_n) eps :
  covariance_propagation (DM Sigma) (DM Phi) (DM Q) true eps =
  Ok (DM (symm (Phi *m (symm Sigma + eps%:M) *m Phi^T + (symm Q + eps%:M)) + eps%:M)).
Proof.
rewrite /covariance_propagation /check_dim_phi_q /check_dim_phi /= !eqxx /= stabilize_ok /= dmul_ok /= /dtr /= dmul_ok /=.
by rewrite stabilize_ok /= dadd_ok /= stabilize_ok.
Qed.
Lemma cov_prop_mismatch (Sigma Phi Q : dmat F) stab eps :
  ~ (drows Phi = drows Sigma /\ dcols Phi = drows Sigma /\ drows Q = drows Sigma /\ dcols Q = drows Sigma) ->
  covariance_propagation Sigma Phi Q stab eps = Ok (dempty F).
Proof.
rewrite /covariance_propagation; case: ifP => // E []; move: E.
by rewrite /check_dim_phi_q /check_dim_phi !negb_or !negbK => /andP[/andP[/eqP<- /eqP<-] /andP[/eqP<- /eqP<-]].
Qed.
End Propag.

(** ** Covariance intersection *)
Section CI.
Variable F : realFieldType.
Variable junk : forall n, 'M[F]_n -> 'M[F]_n.
Notation inv := (@inv_or_junk F junk _).
Variables (ni nj m : nat) (Hi : 'M[F]_(m, ni)) (Hj : 'M[F]_(m, nj)) (R : 'M[F]_m) (r : 'cV[F]_m)
  (Si : 'M[F]_ni) (Sj : 'M[F]_nj) (w : F) (cfg : corr_cfg F).
Definition ci_S : 'M[F]_m := symm ((1 - w)^-1 *: (Hj *m Sj *m Hj^T) + R) + (cfg_eps cfg)%:M.
Definition ci_P : 'M[F]_ni :=
  w^-1 *: Si - (w ^+ 2)^-1 *: (Si *m Hi^T *m inv ci_S *m Hi *m Si).
Definition ci_gate : outcome bool :=
  if use_outlier_rejection cfg then omap negb (check_NIS junk (DM ci_S) (DM r) (confidence_interval cfg)) else Ok false.
Definition ci_final := if nummerical_stabilization cfg then symm ci_P + (cfg_eps cfg)%:M else ci_P.

Lemma ci_ok :
  covariance_intersection_correction junk (DM Hi) (DM Hj) (DM R) (DM r) (DM Si) (DM Sj) w cfg =
  let! rej := ci_gate in
  Ok (CorrRes (DM ci_final) (DM (w^-1 *: (Si *m Hi^T *m inv ci_S *m r))) (dempty F) rej).
Proof.
rewrite /covariance_intersection_correction /check_dim_meas /= !eqxx /= /dscale /= /dtr /= dmul_ok /= dmul_ok /= dadd_ok /=.
rewrite stabilize_ok /= -!scalemxAl -/ci_S -/ci_gate; case: ci_gate => //= rej.
rewrite dinv_ok /= dmul_ok /= dmul_ok /= dmul_ok /= dmul_ok /= dsub_ok /= dmul_ok /= dmul_ok /= dmul_ok /=.
rewrite -!scalemxAl -/ci_P /ci_final.
by case: nummerical_stabilization => //; rewrite stabilize_ok.
Qed.

(** valid when the innovation also covers the local uncertainty *)
Lemma ci_psd : symmetric Si -> psd Si -> 0 < w -> symmetric ci_S -> ci_S \in unitmx ->
  psd (w *: ci_S - Hi *m Si *m Hi^T) -> psd ci_P.
Proof.
move=> sS pS w0 sC uC D x.
have iE : inv ci_S = invmx ci_S by rewrite /inv_or_junk uC.
set y := invmx ci_S *m Hi *m Si *m x.
have w1 : w != 0 by rewrite gt_eqF.
have A1 := pS (x - w^-1 *: (Hi^T *m y)).
have A2 := D y.
set q := quad ci_S y.
have yT : y^T *m ci_S = x^T *m Si *m Hi^T.
  rewrite /y !trmx_mul trmx_inv sC sS !mulmxA mulmxKV //.
have Q1 : quad (Si *m Hi^T *m inv ci_S *m Hi *m Si) x = q.
  rewrite /q /quad iE yT /y !mulmxA //.
have Q2 : (x^T *m Si *m (Hi^T *m y)) 0 0 = q by rewrite /q /quad yT !mulmxA.
have Q3 : ((Hi^T *m y)^T *m Si *m x) 0 0 = q.
  have -> : (Hi^T *m y)^T *m Si *m x = (x^T *m Si *m (Hi^T *m y))^T.
    by rewrite [RHS]trmx_mul [(x^T *m Si)^T]trmx_mul trmxK sS -[LHS]mulmxA.
  by rewrite mxE Q2.
have E : quad Si (x - w^-1 *: (Hi^T *m y)) =
   quad Si x - w^-1 * q - w^-1 * q + (w^-1) ^+ 2 * quad (Hi *m Si *m Hi^T) y.
  have tB : (x - w^-1 *: (Hi^T *m y))^T = x^T - w^-1 *: (Hi^T *m y)^T by apply/matrixP => i j; rewrite !mxE.
  rewrite /quad tB mulmxBl mulmxBl mulmxBr mulmxBr -!scalemxAl -!scalemxAr.
  have mB : forall (A B : 'M[F]_1), (A - B) 0 0 = A 0 0 - B 0 0 by move=> A B; rewrite !mxE.
  have mZ : forall (c : F) (A : 'M[F]_1), (c *: A) 0 0 = c * A 0 0 by move=> c A; rewrite !mxE.
  rewrite !mB !mZ Q2 Q3 opprB addrA.
  have -> : ((Hi^T *m y)^T *m Si *m (Hi^T *m y)) = y^T *m (Hi *m Si *m Hi^T) *m y.
    by rewrite trmx_mul trmxK !mulmxA.
  rewrite mulrA -expr2. by rewrite addrAC.
rewrite quadD quadN quadZ -/q in A2.
rewrite E in A1.
rewrite /ci_P quadD quadN !quadZ Q1.
have -> : w^-1 * quad Si x - (w ^+ 2)^-1 * q = w^-1 * (quad Si x - w^-1 * q).
  by rewrite mulrBr mulrA -exprVn expr2.
apply: mulr_ge0; first by rewrite invr_ge0 ltW.
have B : (w^-1) ^+ 2 * quad (Hi *m Si *m Hi^T) y <= w^-1 * q.
  rewrite subr_ge0 in A2.
  have -> : w^-1 * q = w^-1 ^+ 2 * (w * q) by rewrite mulrA expr2 -[w^-1 * w^-1 * w]mulrA mulVf // mulr1.
  by rewrite ler_wpmul2l // exprn_ge0 // invr_ge0 ltW.
apply: (le_trans A1); rewrite -addrA ger_addl.
by rewrite addrC subr_le0.
Qed.
End CI.
