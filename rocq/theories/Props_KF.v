(** Properties C23, C26-C29, C59: innovation gate, covariance propagation, correction step, covariance
    intersection.  All statements hold over any ordered field (exact arithmetic) and for any behaviour [junk] of
    inverting a singular matrix. *)
From Coq Require Import ZArith.
From Flocq Require Import IEEE754.BinarySingleNaN.
From mathcomp Require Import all_ssreflect all_algebra.
From Verif Require Import Outcome DoubleModel Chi2Model Props_Chi2 DMat KFModel Spec_Mat KFProofs.
Set Implicit Arguments. Unset Strict Implicit. Unset Printing Implicit Defensive.
Import Order.Theory GRing.Theory Num.Theory.
Local Open Scope ring_scope.

Section Props.
Variable F : realFieldType.
Variable junk : forall n, 'M[F]_n -> 'M[F]_n.

(** the tabulated threshold number [df] (counted from zero, see C24) for confidence [k], as a field element *)
Definition table_threshold (k : Z) (df : nat) : F := Z2F F (List.nth df (column k) Z0) / 100000%:R.

Lemma threshold_tab conf k df : means_permille conf k -> List.In k tabulated -> (df < 50)%N ->
  threshold F conf df = Ok (table_threshold k df).
Proof.
move=> M I L; case: (C24_lookup _ _ df M I) => A _.
case: A => [|v [N E]]; first exact/ssrnat.ltP.
by rewrite /threshold E /= /table_threshold (List.nth_error_nth _ _ _ N).
Qed.

(** ** C23: gate *)
Theorem C23_gate_decision : forall m (S : 'M[F]_m) (r : 'cV[F]_m) conf k,
  S \in unitmx -> Bltb (d_of_Z 0) conf = true -> means_permille conf k -> List.In k tabulated -> (m < 50)%N ->
  check_NIS junk (DM S) (DM r) conf = Ok (quad (invmx S) r <= table_threshold k m).
Proof.
by move=> m S r conf k uS c M I L; rewrite check_NIS_ok c (threshold_tab M I L) /= /inv_or_junk uS.
Qed.
(** whatever the confidence: the decision is the comparison with what chi2inv returns for the dimension; from 50 on that is 0 *)
Theorem C23_gate_any : forall m (S : 'M[F]_m) (r : 'cV[F]_m) conf,
  S \in unitmx -> Bltb (d_of_Z 0) conf = true ->
  (forall v, chi2inv conf m = Ok v -> check_NIS junk (DM S) (DM r) conf = Ok (quad (invmx S) r <= Z2F F v / 100000%:R)) /\
  (forall e, chi2inv conf m = UB e -> check_NIS junk (DM S) (DM r) conf = UB e) /\
  (forall k, means_permille conf k -> List.In k tabulated -> (50 <= m)%N ->
     check_NIS junk (DM S) (DM r) conf = Ok (quad (invmx S) r <= 0)).
Proof.
move=> m S r conf uS c; rewrite check_NIS_ok c /inv_or_junk uS /threshold.
split; first by move=> v ->. split; first by move=> e ->.
move=> k M I /ssrnat.leP L; case: (C24_lookup _ _ m M I) => _ /(_ L) -> /=.
by rewrite mul0r.
Qed.
(** confidence <= 0 (or NaN) accepts everything, whatever the dimensions *)
Theorem C23_gate_disabled : forall (S r : dmat F) conf,
  Bltb (d_of_Z 0) conf = false -> check_NIS junk S r conf = Ok true.
Proof. by move=> S r conf c; rewrite /check_NIS c. Qed.
(** mismatching dimensions: no matrix arithmetic happens, the statistic counts as zero and the gate accepts *)
Theorem C23_gate_mismatch : forall (S r : dmat F) conf k,
  dcols r <> 1%N \/ drows r <> drows S -> means_permille conf k -> List.In k tabulated ->
  check_NIS junk S r conf = Ok true.
Proof.
move=> S r conf k D M I; rewrite /check_NIS; case: Bltb => //.
rewrite NIS_mismatch; last by case: D => /eqP -> //; rewrite orbT.
have [[v E]|E] : (exists v, chi2inv conf (drows r) = Ok v) \/ False.
- by case: (C25_safe_iff_tabulated _ _ (drows r) M) => /(_ I) [v ?] _; left; exists v.
- rewrite /threshold E /= ltNge; congr Ok; rewrite negbK.
  apply: mulr_ge0; last by rewrite invr_ge0 ler0n.
  apply: Z2F_ge0; move: E; case: (C24_lookup _ _ (drows r) M I) => A B.
  case: (Compare_dec.le_lt_dec 50 (drows r)) => [/B -> [<-]|/A [w [N ->]] [<-]]; first by [].
  have T : List.forallb (fun k => List.forallb (fun v => BinInt.Z.leb Z0 v) (column k)) tabulated = true by vm_compute.
  move/List.forallb_forall: T => /(_ _ I)/List.forallb_forall/(_ _ (List.nth_error_In _ _ N)) T.
  exact/BinInt.Z.leb_le.
- by [].
Qed.
(** accepting is monotone in the statistic *)
Theorem C23_gate_monotone : forall m (S : 'M[F]_m) (r r' : 'cV[F]_m) conf,
  S \in unitmx -> quad (invmx S) r' <= quad (invmx S) r ->
  check_NIS junk (DM S) (DM r) conf = Ok true -> check_NIS junk (DM S) (DM r') conf = Ok true.
Proof.
move=> m S r r' conf uS L; rewrite !check_NIS_ok /inv_or_junk uS; case: Bltb => //.
by case: threshold => //= thr [] /(le_trans L) ->.
Qed.
(** the five-argument overload is the gate on the symmetrised innovation covariance *)
Theorem C23_gate_full_overload : forall n m (H : 'M[F]_(m, n)) (R : 'M[F]_m) (r : 'cV[F]_m) (Sigma : 'M[F]_n) conf,
  symmetric Sigma -> symmetric R -> Bltb (d_of_Z 0) conf = true ->
  check_NIS_full junk (DM H) (DM R) (DM r) (DM Sigma) conf =
  check_NIS junk (DM (innov H R Sigma)) (DM r) conf.
Proof.
move=> n m H R r Sigma conf sS sR c.
rewrite /check_NIS_full /= dmul_ok /= /dtr /= dmul_ok /= dadd_ok /= symmetrize_ok /= -/(innov H R Sigma).
rewrite symm_id; last exact: innov_sym.
by rewrite /check_NIS c.
Qed.
(** ... which does not know a disabled gate: a confidence that is not tabulated, 0 for instance, is undefined *)
Theorem C23_gate_full_untabulated : forall n m (H : 'M[F]_(m, n)) (R : 'M[F]_m) (r : 'cV[F]_m) (Sigma : 'M[F]_n) conf k,
  means_permille conf k -> ~ List.In k tabulated ->
  check_NIS_full junk (DM H) (DM R) (DM r) (DM Sigma) conf = UB EndIterDeref.
Proof.
move=> n m H R r Sigma conf k M I.
rewrite /check_NIS_full /= dmul_ok /= /dtr /= dmul_ok /= dadd_ok /= symmetrize_ok /= NIS_ok /=.
by case: (C25_safe_iff_tabulated _ _ m M) => _ /(_ I) E; rewrite /threshold E.
Qed.
Example C23_example : check_NIS junk (DM (1%:M : 'M[F]_1)) (DM (0 : 'cV[F]_1)) (conf 950) = Ok true.
Proof.
rewrite check_NIS_ok; case: Bltb => //.
rewrite (@threshold_tab _ 950) //; last by right; right; right; left.
rewrite /= {1}/quad mulmx0 mxE /table_threshold /=; congr Ok; apply: mulr_ge0; last by rewrite invr_ge0 ler0n.
exact: ler0n.
Qed.

(** ** C26: propagation *)
Theorem C26_propagation : forall n (Sigma Phi Q : 'M[F]_n) eps,
  covariance_propagation (DM Sigma) (DM Phi) (DM Q) false eps = Ok (DM (Phi *m Sigma *m Phi^T + Q)) /\
  (covariance Sigma -> covariance Q -> covariance (Phi *m Sigma *m Phi^T + Q)).
Proof.
move=> n Sigma Phi Q eps; split; first exact: cov_prop_ok.
move=> [s p] [s' p']; split; first by apply: symD => //; apply: sym_congr.
by apply: psdD => //; apply: psd_congr.
Qed.
(** with stabilisation the result is a valid covariance even if the inputs are not symmetric *)
Theorem C26_propagation_stabilised : forall n (Sigma Phi Q : 'M[F]_n) eps,
  0 <= eps -> psd Sigma -> psd Q ->
  exists P : 'M[F]_n, covariance_propagation (DM Sigma) (DM Phi) (DM Q) true eps = Ok (DM P) /\ covariance P.
Proof.
move=> n Sigma Phi Q eps e p q; eexists; split; first exact: cov_prop_stab_ok.
split; first exact: stab_sym.
apply: stab_psd => //; apply: psdD; last exact: stab_psd.
by apply: psd_congr; apply: stab_psd.
Qed.
Theorem C26_mismatch : forall (Sigma Phi Q : dmat F) stab eps,
  drows Sigma = dcols Sigma ->
  (~ (drows Phi = drows Sigma /\ dcols Phi = drows Sigma /\ drows Q = drows Sigma /\ dcols Q = drows Sigma) ->
   covariance_propagation Sigma Phi Q stab eps = Ok (dempty F)) /\
  exists P, covariance_propagation Sigma Phi Q stab eps = Ok P.
Proof.
move=> Sigma Phi Q stab eps sq; split; first exact: cov_prop_mismatch.
case E: (check_dim_phi_q Sigma Phi Q); last by rewrite /covariance_propagation E; eexists.
move: Sigma Phi Q sq E => [n n' Sigma] [a b Phi] [c d Q] /= e; subst n'.
rewrite /check_dim_phi_q /check_dim_phi !negb_or !negbK /= => /andP[/andP[/eqP e1 /eqP e2] /andP[/eqP e3 /eqP e4]].
by subst a b c d; case: stab; [rewrite cov_prop_stab_ok|rewrite cov_prop_ok]; eexists.
Qed.
End Props.

(** a covariance that is not square passes the dimension check and then trips an Eigen assertion *)
Theorem C26_nonsquare_example : exists (Sigma Phi Q : dmat rat_realFieldType),
  drows Sigma <> dcols Sigma /\ covariance_propagation Sigma Phi Q false 0 = Abort EigenAssert.
Proof.
exists (dzero _ 2 3), (deye _ 2 2), (dzero _ 2 2); split=> //.
rewrite /covariance_propagation /= /dzero deye_square dmul_ok /= /dtr /=.
by rewrite dmul_bad.
Qed.
Example C26_example : covariance (1%:M : 'M[rat]_3) /\ covariance (2%:R%:M : 'M[rat]_3).
Proof. by split; split; try exact: sym_scalar; apply: psd_scalar. Qed.

Section Props2.
Variable F : realFieldType.
Variable junk : forall n, 'M[F]_n -> 'M[F]_n.
Variables (n m : nat) (H : 'M[F]_(m, n)) (R : 'M[F]_m) (r : 'cV[F]_m) (Sigma : 'M[F]_n) (cfg : corr_cfg F).
Notation step := (correction_step junk (DM H) (DM R) (DM r) (DM Sigma) cfg).

(** The step completes whenever the gate is off, disabled by its confidence, or the confidence is tabulated. *)
Definition gate_usable : Prop :=
  use_outlier_rejection cfg = false \/ Bltb (d_of_Z 0) (confidence_interval cfg) = false \/
  exists k, means_permille (confidence_interval cfg) k /\ List.In k tabulated.

(** ** C27 *)
Theorem C27_completes : gate_usable -> exists res, step = Ok res.
Proof.
move=> G; rewrite correction_step_ok /step_gate.
case: G => [->|[c|[k [M I]]]]; first by eexists.
- by case: use_outlier_rejection; rewrite ?check_NIS_ok ?c; eexists.
- case: use_outlier_rejection; last by eexists.
  rewrite check_NIS_ok; case: Bltb; last by eexists.
  case: (C25_safe_iff_tabulated _ _ m M) => /(_ I) [v E] _.
  by rewrite /threshold E; eexists.
Qed.
Theorem C27_symmetric_and_psd : forall res, step = Ok res ->
  exists (P U : 'M[F]_n) (dx : 'cV[F]_n),
    Sigma_apos res = DM P /\ res_U res = DM U /\ delta_mean res = DM dx /\
    symmetric P /\
    (use_Josephs_form cfg -> 0 <= cfg_eps cfg -> psd Sigma -> psd R -> psd P).
Proof.
move=> res; rewrite correction_step_ok; case: step_gate => //= rej [<-] /=.
do 3 eexists; do 3 (split; first by []); split; first exact: step_final_sym.
by move=> j e s rr; apply: step_final_psd.
Qed.
(** exact update: uncertainty never grows, and both forms give the same covariance *)
Theorem C27_uncertainty_never_grows : forall res, step = Ok res ->
  cfg_eps cfg = 0 -> covariance Sigma -> covariance R -> innov H R Sigma \in unitmx ->
  exists P : 'M[F]_n, Sigma_apos res = DM P /\ covariance P /\ psd (Sigma - P).
Proof.
move=> res; rewrite correction_step_ok; case: step_gate => //= rej [<-] /= e [sS pS] [sR pR] uI.
have pI : psd (innov H R Sigma) by apply: psdD => //; apply: psd_congr.
exists (step_final junk H R Sigma cfg); split=> //.
rewrite step_final_exact // step_K_exact //; split; first split.
- by rewrite joseph_standard //; apply: standard_sym.
- by apply: psdD; apply: psd_congr.
- rewrite gain_cov_K // opprB addrCA subrr addr0.
  by apply: psd_congr.
Qed.
Theorem C27_forms_agree : forall res, step = Ok res ->
  cfg_eps cfg = 0 -> symmetric Sigma -> symmetric R -> innov H R Sigma \in unitmx ->
  exists K : 'M[F]_(n, m), delta_mean res = DM (K *m r) /\ res_U res = DM (1%:M - K *m H) /\
    Sigma_apos res = DM (gain_cov H R Sigma K) /\ gain_cov H R Sigma K = (1%:M - K *m H) *m Sigma.
Proof.
move=> res; rewrite correction_step_ok; case: step_gate => //= rej [<-] /= e sS sR uI.
exists (step_K junk H R Sigma cfg); split=> //; split=> //; split; first by rewrite step_final_exact.
by rewrite step_K_exact // joseph_standard.
Qed.

(** ** C28 *)
(** minimum variance among all linear gains; information form; the mean follows from the same covariance *)
Theorem C28_optimal : forall res, step = Ok res ->
  cfg_eps cfg = 0 -> covariance Sigma -> covariance R -> innov H R Sigma \in unitmx ->
  exists P : 'M[F]_n, Sigma_apos res = DM P /\
    (forall L : 'M[F]_(n, m), psd (gain_cov H R Sigma L - P)) /\
    (exists K, P = gain_cov H R Sigma K /\ delta_mean res = DM (K *m r)) /\
    (R \in unitmx -> Sigma \in unitmx -> P \in unitmx /\ invmx P = invmx Sigma + H^T *m invmx R *m H) /\
    (R \in unitmx -> delta_mean res = DM (P *m H^T *m invmx R *m r)).
Proof.
move=> res; rewrite correction_step_ok; case: step_gate => //= rej [<-] /= e [sS pS] [sR pR] uI.
have pI : psd (innov H R Sigma) by apply: psdD => //; apply: psd_congr.
exists (step_final junk H R Sigma cfg); split=> //.
rewrite step_final_exact // step_K_exact //; set K := Sigma *m _ *m _.
split; first by move=> L; rewrite [X in X - _]gain_cov_opt // gain_cov_K // addrAC subrr add0r; apply: psd_congr.
split; first by exists K.
split.
  move=> uR uS; have I := information_form uI uS uR; rewrite -/K -joseph_standard // in I.
  have [uP _] := mulmx1_unit I; split=> //.
  by rewrite -[RHS](mulKmx uP) I mulmx1.
move=> uR; have -> : gain_cov H R Sigma K *m H^T = K *m R.
  rewrite /K joseph_standard // -/K mulmxBl mul1mx mulmxBl.
  have E := KS uI; rewrite -/K in E.
  by rewrite -[X in X - _]E /innov mulmxDr !mulmxA addrAC subrr add0r.
by rewrite mulmxK.
Qed.
End Props2.

Example C27_C28_example :
  let cfg := CorrCfg true true false (conf 997) (0 : rat) in
  gate_usable cfg /\ covariance (1%:M : 'M[rat]_2) /\ covariance (1%:M : 'M[rat]_1) /\ innov (delta_mx 0 0 : 'M[rat]_(1, 2)) 1%:M 1%:M \in unitmx.
Proof.
move=> cfg; split.
  by right; right; exists (Zpos 997%positive); split; [vm_compute|right; right; right; right; left].
split; first by split; [exact: sym_scalar|exact: psd1]. split; first by split; [exact: sym_scalar|exact: psd1].
by apply: pd_unit; apply: pd_psdD; [apply: psd_congr; apply: psd1|exact: pd_scalar].
Qed.

(** ** C29 *)
Section Props3.
Variable F : realFieldType.
Variable junk : forall n, 'M[F]_n -> 'M[F]_n.
Theorem C29_mismatch_rejected : forall (H R r Sigma : dmat F) cfg,
  ~ (dcols H = drows Sigma /\ drows r = drows H /\ dcols r = 1%N /\ drows R = drows H /\ dcols R = drows H) ->
  exists res, correction_step junk H R r Sigma cfg = Ok res /\ rejected res = true /\
    dsize (Sigma_apos res) = 0%N /\ dsize (delta_mean res) = 0%N /\ dsize (res_U res) = 0%N.
Proof.
move=> H R r Sigma cfg D; exists (corr_default F); split=> //.
rewrite /correction_step; case: ifP => // E; case: D; move: E.
by rewrite /check_dim_meas !negb_or !negbK => /and4P[/eqP-> /eqP-> /andP[/eqP-> _] /andP[/eqP-> /eqP->]].
Qed.
Theorem C29_products_defined : forall (H R r Sigma : dmat F) cfg,
  drows Sigma = dcols Sigma -> correction_step junk H R r Sigma cfg <> Abort EigenAssert.
Proof.
move=> H R r Sigma cfg sq.
case E: (check_dim_meas H R r Sigma); last by rewrite /correction_step E.
move: H R r Sigma sq E => [a b H] [c d R] [e f r] [n n' Sigma] /= e0; subst n'.
rewrite /check_dim_meas !negb_or !negbK /= => /and4P[/eqP e1 /eqP e2 /andP[/eqP e3 _] /andP[/eqP e4 /eqP e5]].
subst b a f c d.
rewrite correction_step_ok /step_gate; case: use_outlier_rejection => //.
rewrite check_NIS_ok; case: Bltb => //; rewrite /threshold.
by move: (@chi2inv_no_abort (confidence_interval cfg) e); case: chi2inv => //= a /(_ a).
Qed.
End Props3.
Theorem C29_nonsquare_example : exists (H R r Sigma : dmat rat_realFieldType) cfg,
  check_dim_meas H R r Sigma = true /\ correction_step (fun n A => A) H R r Sigma cfg = Abort EigenAssert.
Proof.
exists (dzero _ 1 2), (deye _ 1 1), (dzero _ 1 1), (dzero _ 2 3), (CorrCfg false true true (conf 997) 0).
split=> //; rewrite /correction_step /= /dzero dmul_ok /= /dtr /=.
by rewrite dmul_bad.
Qed.
Example C29_example : check_dim_meas (dzero rat_realFieldType 1 2) (deye _ 1 1) (dzero _ 1 1) (dzero _ 2 2) = true.
Proof. by []. Qed.

(** ** C59: covariance intersection *)
Section Props4.
Variable F : realFieldType.
Variable junk : forall n, 'M[F]_n -> 'M[F]_n.
(** valid when the innovation covariance dominates the local uncertainty seen through H (which the code does not
    ensure) *)
Theorem C59_ci_sufficient : forall ni nj m (Hi : 'M[F]_(m, ni)) (Hj : 'M[F]_(m, nj)) (R : 'M[F]_m) (r : 'cV[F]_m)
    (Si : 'M[F]_ni) (Sj : 'M[F]_nj) (w : F) cfg res,
  covariance_intersection_correction junk (DM Hi) (DM Hj) (DM R) (DM r) (DM Si) (DM Sj) w cfg = Ok res ->
  0 < w < 1 -> 0 <= cfg_eps cfg -> symmetric Si -> psd Si -> psd Sj -> pd R -> 
  psd (w *: ((1 - w)^-1 *: (Hj *m Sj *m Hj^T) + R) - Hi *m Si *m Hi^T) ->
  exists P : 'M[F]_ni, Sigma_apos res = DM P /\ psd P.
Proof.
move=> ni nj m Hi Hj R r Si Sj w cfg res; rewrite ci_ok; case: ci_gate => //= rej [<-] /= /andP[w0 w1] e sS pS pj pR D.
exists (ci_final junk Hi Hj R Si Sj w cfg); split=> //.
set X := _ *: _ + R in D.
have pX : pd X.
  by apply: pd_psdD => //; apply: psdZ; [rewrite invr_ge0 subr_ge0 ltW|apply: psd_congr].
have pC : pd (ci_S Hj R Sj w cfg).
  move=> x x0; rewrite /ci_S -/X quadD quad_symm; apply: ltr_paddr; first exact: psd_scalar.
  exact: pX.
have pP : psd (ci_P junk Hi Hj R Si Sj w cfg).
  apply: ci_psd => //; [exact: stab_sym|exact: pd_unit|].
  move=> x; have := D x; rewrite !quadD !quadN !quadZ /ci_S -/X quadD quad_symm => L.
  apply: (le_trans L); rewrite ler_add2r mulrDr ler_addl; apply: mulr_ge0; first exact: ltW.
  exact: psd_scalar.
by rewrite /ci_final; case: nummerical_stabilization => //; apply: stab_psd.
Qed.
Lemma ci_final_scalar (w a b : F) cfg : cfg_eps cfg = 0 -> (1 - w)^-1 * b + a != 0 ->
  ci_final junk (1%:M : 'M[F]_1) (1%:M : 'M[F]_1) (a%:M : 'M[F]_1) (1%:M : 'M[F]_1) (b%:M : 'M[F]_1) w cfg =
  (w^-1 - (w^+2)^-1 * ((1 - w)^-1 * b + a)^-1)%:M.
Proof.
move=> e0 nz.
have ES : ci_S (1%:M : 'M[F]_1) a%:M b%:M w cfg = ((1 - w)^-1 * b + a)%:M.
  rewrite /ci_S e0 raddf0 addr0 trmx1 mul1mx mulmx1 scale_scalar_mx -raddfD /=.
  by rewrite symm_id //; exact: sym_scalar.
have EP : ci_P junk (1%:M : 'M[F]_1) (1%:M : 'M[F]_1) a%:M (1%:M : 'M[F]_1) b%:M w cfg =
   (w^-1 - (w^+2)^-1 * ((1 - w)^-1 * b + a)^-1)%:M.
  rewrite /ci_P ES trmx1 !mul1mx !mulmx1 /inv_or_junk (unit_scalar _ nz) invmx_scalar.
  by rewrite !scale_scalar_mx mulr1 -raddfB.
rewrite /ci_final EP e0 raddf0 addr0.
by case: nummerical_stabilization => //; rewrite symm_id //; exact: sym_scalar.
Qed.
Lemma scalar_not_psd (c : F) : c < 0 -> ~ psd (c%:M : 'M[F]_1).
Proof.
move=> n /(_ (const_mx 1)); rewrite quad_scalar big_ord1 mxE expr1n mulr1.
by rewrite leNgt n.
Qed.
Lemma ci_negative_gen (w a b : F) : 0 < a -> 0 <= b -> (1 - w)^-1 * b + a != 0 ->
  w^-1 - (w^+2)^-1 * ((1 - w)^-1 * b + a)^-1 < 0 ->
  exists (Hi Hj R Si Sj : 'M[F]_1) (r : 'cV[F]_1) cfg res (P : 'M[F]_1),
    covariance Si /\ covariance Sj /\ covariance R /\ pd R /\
    covariance_intersection_correction junk (DM Hi) (DM Hj) (DM R) (DM r) (DM Si) (DM Sj) w cfg = Ok res /\
    rejected res = false /\ Sigma_apos res = DM P /\ P 0 0 < 0 /\ ~ psd P.
Proof.
move=> a1 b0 nz N.
pose cfg := CorrCfg false true true (conf 997) (0 : F).
have c1 : forall x : F, 0 <= x -> covariance (x%:M : 'M[F]_1).
  by move=> x x0; split; [exact: sym_scalar|exact: psd_scalar].
exists 1%:M, 1%:M, a%:M, 1%:M, b%:M, 0, cfg; eexists.
exists (ci_final junk 1%:M 1%:M a%:M 1%:M b%:M w cfg).
split; first exact: (c1 1 ler01). split; first exact: c1.
split; first exact (c1 a (ltW a1)). split; first exact (pd_scalar a1).
split; first by rewrite ci_ok.
split; first by []. split; first by [].
rewrite (@ci_final_scalar w a b cfg) //; split; last exact: scalar_not_psd.
by rewrite mxE eqxx mulr1n.
Qed.
Lemma ci_weight : [/\ (1 - 199%:R / 200%:R)^-1 = 200%:R :> F, 0 < 199%:R / 200%:R :> F & 199%:R / 200%:R < 1 :> F].
Proof.
have p2 : 0 < 200%:R :> F by rewrite ltr0n.
have n2 : 200%:R != 0 :> F by rewrite gt_eqF.
split; last by rewrite ltr_pdivr_mulr // mul1r ltr_nat.
- by rewrite -{1}(divff n2) -mulrBl -natrB // mul1r invrK.
- by apply: divr_gt0; rewrite ltr0n.
Qed.
Lemma ci_half : 200%:R * (200%:R^-1 / 4%:R) + 4%:R^-1 = 2%:R^-1 :> F.
Proof.
have n2 : 200%:R != 0 :> F by rewrite pnatr_eq0.
rewrite mulrA divff // mul1r -mulr2n -[4%N]/(2 * 2)%N natrM invfM -mulr_natr -mulrA mulVf ?mulr1 //.
by rewrite pnatr_eq0.
Qed.
Lemma ci_sign (w : F) : 0 < w -> w < 1 -> w^-1 - (w ^+ 2)^-1 * (2%:R^-1)^-1 < 0.
Proof.
move=> w0 w1; rewrite invrK expr2 invfM subr_lt0 -mulrA ltr_pmulr ?invr_gt0 //.
by rewrite mulrC ltr_pdivl_mulr // mul1r (lt_trans w1) // ltr1n.
Qed.
End Props4.
(** with the weight used by the library (omega = 0.995) and perfectly ordinary scalar covariances the
    "covariance" returned is negative *)
Theorem C59_negative_covariance :
  exists (Hi Hj R Si Sj : 'M[rat]_1) (r : 'cV[rat]_1) cfg res (P : 'M[rat]_1),
    covariance Si /\ covariance Sj /\ covariance R /\ pd R /\
    covariance_intersection_correction (fun n A => A) (DM Hi) (DM Hj) (DM R) (DM r) (DM Si) (DM Sj) (199%:R / 200%:R) cfg = Ok res /\
    rejected res = false /\ Sigma_apos res = DM P /\ P 0 0 < 0 /\ ~ psd P.
Proof.
pose w : rat := 199%:R / 200%:R; rewrite -/w; have [E w0 w1] : [/\ (1 - w)^-1 = 200%:R, 0 < w & w < 1] := ci_weight _.
have p4 : 0 < 4%:R^-1 :> rat by rewrite invr_gt0 ltr0n.
have S : (1 - w)^-1 * (200%:R^-1 / 4%:R) + 4%:R^-1 = 2%:R^-1 by rewrite E; exact: ci_half.
move: w E w0 w1 S => w E w0 w1 S; clear E.
apply: (@ci_negative_gen _ (fun n A => A) w 4%:R^-1 (200%:R^-1 / 4%:R)); first exact: p4.
- by apply: divr_ge0; rewrite ?invr_ge0 ler0n.
- by rewrite S invr_eq0 pnatr_eq0.
by rewrite S; apply: ci_sign.
Qed.

Print Assumptions C23_gate_decision.
Print Assumptions C23_gate_mismatch.
Print Assumptions C23_gate_monotone.
Print Assumptions C26_propagation.
Print Assumptions C26_mismatch.
Print Assumptions C27_symmetric_and_psd.
Print Assumptions C27_uncertainty_never_grows.
Print Assumptions C28_optimal.
Print Assumptions C29_products_defined.
Print Assumptions C59_ci_sufficient.
Print Assumptions C59_negative_covariance.
