(** C86: covariance repair. *)
From Coq Require Import ZArith List.
From mathcomp Require Import all_ssreflect all_algebra.
From Verif Require Import Outcome DoubleModel DMat KFModel Spec_Mat KFProofs EigenProofs RepairModel Spec_Repair RepairProofs HandlerModel BeliefModel IsoModel IsoProofs Spec_Joint JointProofs Props_Joint Props_Joint2.
Set Implicit Arguments. Unset Strict Implicit. Unset Printing Implicit Defensive.
Import Order.Theory GRing.Theory Num.Theory.
Local Open Scope ring_scope.

Section C86.
Variable F : realFieldType.
Variable junk : forall n, 'M[F]_n -> 'M[F]_n.
Notation dmat := (dmat F).
Variable eig : dmat -> dmat * dmat.
Variable is_psd : dmat -> bool.
(** the solver returned a complete set of eigenvectors of this matrix *)
Definition solved n (A V : 'M[F]_n) (D : 'cV[F]_n) : Prop := eig (DM A) = (DM V, DM D) /\ eigenvectors A V D.
(** the definiteness test never accepts an indefinite symmetric matrix / decides symmetric matrices *)
Definition sound n : Prop := forall A : 'M[F]_n, symmetric A -> is_psd (DM A) = true -> psd A.
Definition exact n : Prop := forall A : 'M[F]_n, symmetric A -> (is_psd (DM A) = true <-> psd A).

(** a matrix without negative directions is returned as it is; any other comes back as a covariance with the same
    eigenvectors, the non-negative eigenvalues kept and the negative ones replaced by eps *)
Theorem C86_nearest : forall n (A V : 'M[F]_n) (D : 'cV[F]_n) eps, solved ((half F) *: (A + A^T)) V D -> 0 <= eps ->
  (psd A -> nearest_covariance junk eig (DM A) eps = Ok (DM A)) /\
  (~ psd A -> exists B : 'M[F]_n, nearest_covariance junk eig (DM A) eps = Ok (DM B) /\ covariance B /\
     forall k, B *m col k V = (if D k 0 < 0 then eps else D k 0) *: col k V).
Proof.
move=> n A V D eps [E H] e0; split=> [P|P]; first exact: (nearest_psd junk eps E H P).
have [B [EB [CB [_ HB]]]] := nearest_not_psd junk E H P e0; exists B; split=> //; split=> // k.
by rewrite HB mxE.
Qed.
(** so a symmetric matrix always comes back as a covariance *)
Theorem C86_nearest_covariance : forall n (A V : 'M[F]_n) (D : 'cV[F]_n) eps, solved A V D -> symmetric A -> 0 <= eps ->
  exists B : 'M[F]_n, nearest_covariance junk eig (DM A) eps = Ok (DM B) /\ covariance B /\ (psd A -> B = A).
Proof.
move=> n A V D eps So sA e0; have So' : solved (half F *: (A + A^T)) V D by rewrite -/(symm A) symm_id.
have [Y N] := C86_nearest So' e0.
case P: [forall k, 0 <= D k 0].
  have Pa : psd A by apply/(eigen_nonneg sA So.2) => k; exact: (forallP P k).
  by exists A; split; [exact: Y|split].
have Na : ~ psd A by move/(eigen_nonneg sA So.2) => H; move/forallP: P; apply=> k; exact: H.
by have [B [EB [CB _]]] := N Na; exists B; split=> //; split=> // /Na.
Qed.
(** an unsymmetric matrix without negative directions is not symmetrized *)
Theorem C86_unsymmetric_kept : forall n (A V : 'M[F]_n) (D : 'cV[F]_n) eps, solved ((half F) *: (A + A^T)) V D -> psd A -> ~ symmetric A ->
  exists B : 'M[F]_n, nearest_covariance junk eig (DM A) eps = Ok (DM B) /\ ~ symmetric B.
Proof. by move=> n A V D eps [E H] P N; exists A; split=> //; exact: (nearest_psd junk eps E H P). Qed.
(** repairing twice changes nothing more *)
Theorem C86_idempotent : forall n (A V V2 : 'M[F]_n) (D D2 : 'cV[F]_n) eps B, solved A V D -> symmetric A -> 0 <= eps ->
  nearest_covariance junk eig (DM A) eps = Ok (DM B) -> solved B V2 D2 -> nearest_covariance junk eig (DM B) eps = Ok (DM B).
Proof.
move=> n A V V2 D D2 eps B So sA e0 E So2; have [B' [E' [[sB pB] _]]] := C86_nearest_covariance So sA e0.
have EB := DM_inj (Ok_inj (eq_trans (esym E) E')); subst B'.
by have [B2 [-> [_ /(_ pB) ->]]] := C86_nearest_covariance So2 sB e0.
Qed.
(** a matrix that is not square is rejected *)
Theorem C86_square_only : forall m n (A : 'M[F]_(m, n)) eps0 eps, m <> n ->
  nearest_covariance junk eig (DM A) eps = Abort EigenAssert /\ correct_covariance junk eig is_psd eps0 eps (DM A) = Abort EigenAssert.
Proof.
move=> m n A eps0 eps N; rewrite /nearest_covariance /correct_covariance /symmetrize_covariance /stabilize_covariance.
by have -> : dadd (DM A) (dtr (DM A)) = Abort EigenAssert by rewrite /dadd /dzip /=; case: eqP => // e; case: N.
Qed.
(** correct_covariance: whatever square matrix goes in, a covariance comes out *)
Theorem C86_correct : forall n (A : 'M[F]_n) eps0 eps, sound n -> 0 <= eps ->
  (is_psd (DM (half F *: (A + A^T) + eps0%:M)) = false -> exists V D, solved (half F *: (A + A^T) + eps0%:M) V D) ->
  exists (B : 'M[F]_n) ok, correct_covariance junk eig is_psd eps0 eps (DM A) = Ok (DM B, ok) /\ covariance B /\ (exact n -> ok = true) /\
    (exact n -> 0 <= eps0 -> psd A -> B = half F *: (A + A^T) + eps0%:M).
Proof.
move=> n A eps0 eps So e0 Hs; rewrite /correct_covariance stabilize_ok; cbn [obind].
have sS : symmetric (symm A + eps0%:M) by exact: stab_sym.
rewrite -/(symm A) in Hs *; case E: is_psd Hs => Hs.
  exists (symm A + eps0%:M), true; split=> //; split=> //; split=> //; exact: So.
have [V [D Sv]] := Hs erefl.
have [B [EB [CB Bk]]] := C86_nearest_covariance Sv sS e0; rewrite EB; cbn [obind].
exists B, (is_psd (DM B)); split=> //; split=> //; split=> [Ex|Ex e00 P]; first by apply/Ex; case: CB.
by apply: Bk; exact: stab_psd.
Qed.
(** the filter update followed by the test and repair: always a covariance, even when the prior, the noise or the gain are not *)
Theorem C86_posterior : forall n m (H : 'M[F]_(m, n)) (R : 'M[F]_m) (r : 'cV[F]_m) (P : 'M[F]_n) cfg eps res, sound n -> 0 <= eps ->
  correction_step junk (DM H) (DM R) (DM r) (DM P) cfg = Ok res ->
  (is_psd (Sigma_apos res) = false -> exists (A V : 'M[F]_n) D, Sigma_apos res = DM A /\ solved A V D) ->
  exists S : 'M[F]_n, (if is_psd (Sigma_apos res) then Sigma_apos res else nearest_of junk eig eps (Sigma_apos res)) = DM S /\ covariance S.
Proof.
move=> n m H R r P cfg eps res So e0; rewrite correction_step_ok.
case: step_gate => [rej|e|e] //= [<-] /=; set Sf := step_final _ _ _ _ _ => Hs.
have sS : symmetric Sf by exact: step_final_sym.
case E: is_psd Hs => Hs; first by exists Sf; split=> //; split=> //; exact: So.
have [A [V [D [/DM_inj EA Sv]]]] := Hs erefl; subst A.
have [B [EB [CB _]]] := C86_nearest_covariance Sv sS e0.
by exists B; rewrite /nearest_of EB.
Qed.
(** the joint observation of several estimators: what is written back is the distribution of a covariance *)
Section Joint.
Variable predict : nat -> Z -> HandlerModel.inst (belief F) dmat -> outcome (HandlerModel.inst (belief F) dmat * bool).
Variables (eps0 eps : F).
(** the solver keeps the dimensions *)
Hypothesis eig_dims : forall n (A : 'M[F]_n), exists (V : 'M[F]_n) (D : 'cV[F]_n), eig (DM A) = (DM V, DM D).
Lemma nearest_of_dims n (A : 'M[F]_n) : exists B : 'M[F]_n, nearest_of junk eig eps (DM A) = DM B.
Proof.
have [V [D E]] := eig_dims (symm A); rewrite /nearest_of /nearest_covariance symmetrize_ok; cbn [obind]; rewrite E; cbn [fst snd].
case: negative_eigenvalues; last by exists A.
by rewrite corrected_ok ddiag_ok dmul_ok; cbn [obind]; rewrite dinv_ok; cbn [obind]; rewrite dmul_ok; eexists.
Qed.
Notation joint := (apply_observation_r junk is_psd (nearest_of junk eig eps) predict eps0).
Theorem C86_joint : forall dH bs m t d (R : 'M[F]_m) (r : 'cV[F]_m) cfg d', participants dH bs m t d ->
  sound (sumn (sizes bs)) -> 0 <= eps ->
  (forall (Hs : 'M[F]_(m, sumn (sizes bs))) (Ps : 'M[F]_(sumn (sizes bs))) res, stacked_H dH Hs (sizes bs) -> stacked_cov bs t d Ps (sizes bs) ->
     correction_step junk (DM Hs) (DM R) (DM r) (DM (Ps + eps0%:M)) cfg = Ok res -> is_psd (Sigma_apos res) = false ->
     exists A V D, Sigma_apos res = DM A /\ @solved (sumn (sizes bs)) A V D) ->
  joint dH (DM R) (DM r) t cfg d = Ok (d', true) ->
  exists (S : 'M[F]_(sumn (sizes bs))) dx, covariance S /\ distributed junk bs t d d' S dx (sizes bs).
Proof.
move=> dH bs m t d R r cfg d' P So e0 Sv.
have [Hs [Ps [SH [SP]]]] := C67_residual junk is_psd predict eps0 nearest_of_dims P R r cfg.
rewrite /as_centralized; case E: correction_step => [res|e|e]; [|by move=> ->|by move=> ->].
case: ifP => [_ ->|_ [S [dx [d2 [ES [_ [-> D]]]]]] [<-]]; first by case.
have [S' [ES' CS]] := C86_posterior So e0 E (fun X => Sv Hs Ps res SH SP E X).
exists S, dx; split=> //; move: ES; rewrite ES' => /DM_inj ->; exact: CS.
Qed.
End Joint.
End C86.

(** polynomial identities used by the example *)
Section Poly.
Variables (T : Type) (o i : T) (add mul sub : T -> T -> T) (opp : T -> T).
Hypothesis th : ring_theory o i add mul sub opp eq.
Add Ring Tring : th.
Notation "x ++ y" := (add x y). Notation "x ** y" := (mul x y) (at level 40).
Lemma p_quad a b c d u v : (u ** ((a ** u) ++ ((b ** v) ++ o))) ++ ((v ** ((c ** u) ++ ((d ** v) ++ o))) ++ o) =
  ((a ** (u ** u)) ++ ((b ++ c) ** (u ** v))) ++ (d ** (v ** v)).
Proof. ring. Qed.
Lemma p_square a b d u v : a ** (((a ** (u ** u)) ++ ((b ++ b) ** (u ** v))) ++ (d ** (v ** v))) =
  (((a ** u) ++ (b ** v)) ** ((a ** u) ++ (b ** v))) ++ ((sub (a ** d) (b ** b)) ** (v ** v)).
Proof. ring. Qed.
Lemma p_10 a b d : ((a ** (i ** i)) ++ ((b ++ b) ** (i ** o))) ++ (d ** (o ** o)) = a. Proof. ring. Qed.
Lemma p_01 a b d : ((a ** (o ** o)) ++ ((b ++ b) ** (o ** i))) ++ (d ** (i ** i)) = d. Proof. ring. Qed.
Lemma p_ba a b d : ((a ** (opp b ** opp b)) ++ ((b ++ b) ** (opp b ** a))) ++ (d ** (a ** a)) = a ** (sub (a ** d) (b ** b)). Proof. ring. Qed.
Lemma p_db b d : ((o ** (opp (d ++ i) ** opp (d ++ i))) ++ ((b ++ b) ** (opp (d ++ i) ** b))) ++ (d ** (b ** b)) = ((d ++ i) ++ i) ** opp (b ** b). Proof. ring. Qed.
End Poly.
(** a 2 x 2 instance: eigenvalues 3 and -1 with eigenvectors (1,1), (1,-1) *)
Section Example86.
Let Q := rat_realFieldType.
Let jk n (A : 'M[Q]_n) : 'M[Q]_n := A.
Let mk (a b c d : Q) : 'M[Q]_2 := \matrix_(i, j) (if i == 0 then if j == 0 then a else b else if j == 0 then c else d).
Let V0 : 'M[Q]_2 := mk 1 1 1 (-1).
Let vec (a b : Q) : 'cV[Q]_2 := \col_i (if i == 0 then a else b).
(** Eigen's answers for the matrices of the example; anything else is answered by the identity *)
Let eig0 (A : dmat Q) : dmat Q * dmat Q :=
  if (drows A == 2%N) && (entry A 0 1 == 2%:R) then (DM V0, DM (vec 3%:R (-1)))
  else if (drows A == 2%N) && (entry A 0 1 == 2%:R^-1) then (DM V0, DM (vec (3%:R / 2%:R) (2%:R^-1)))
  else (DM (1%:M : 'M[Q]_(drows A)), DM (0 : 'cV[Q]_(drows A))).
Let psd2 (A : dmat Q) : bool :=
  [&& drows A == 2%N, dcols A == 2%N, 0 <= entry A 0 0, 0 <= entry A 1 1 & entry A 0 1 * entry A 0 1 <= entry A 0 0 * entry A 1 1].
Lemma Q_ring : @ring_theory rat 0 1 +%R *%R (fun a b => a - b) -%R eq.
Proof. split=> *; rewrite ?add0r ?mul1r ?addrA ?mulrA ?mulrDl ?subrr //; [exact: addrC|exact: mulrC]. Qed.
Lemma mk_entry a b c d : [/\ entry (DM (mk a b c d)) 0 0 = a, entry (DM (mk a b c d)) 0 1 = b, entry (DM (mk a b c d)) 1 0 = c & entry (DM (mk a b c d)) 1 1 = d].
Proof.
have e (i j : 'I_2) := entryE (mk a b c d) i j.
have := (e ord0 ord0, e ord0 (lift ord0 ord0), e (lift ord0 ord0) ord0, e (lift ord0 ord0) (lift ord0 ord0)).
by rewrite !mxE /= => -[[[e1 e2] e3] e4]; split.
Qed.
Lemma mk_eta (A : 'M[Q]_2) : A = mk (A ord0 ord0) (A ord0 (lift ord0 ord0)) (A (lift ord0 ord0) ord0) (A (lift ord0 ord0) (lift ord0 ord0)).
Proof. by apply/matrixP => i j; rewrite mxE; case: i => [[|[|i]] hi] //; case: j => [[|[|j]] hj] //=; congr (A _ _); apply: val_inj. Qed.
Lemma quad_mk a b c d (x : 'cV[Q]_2) : quad (mk a b c d) x =
  let u := x ord0 ord0 in let v := x (lift ord0 ord0) ord0 in a * u ^+ 2 + (b + c) * (u * v) + d * v ^+ 2.
Proof.
rewrite /quad -mulmxA mxE !big_ord_recl big_ord0 !mxE !big_ord_recl !big_ord0 !mxE /=.
set u := x _ _; set v := x _ _; rewrite !expr2; exact: (p_quad Q_ring).
Qed.
Lemma exact2 : exact psd2 2.
Proof.
move=> A sA; rewrite (mk_eta A); set a := A _ _; set b := A _ _; set c := A _ _; set d := A _ _.
have Ec : c = b by rewrite /c /b -{1}sA mxE.
have [e1 e2 e3 e4] := mk_entry a b c d; rewrite /psd2 /= e1 e2 e4; split=> [/and3P [a0 d0 D] x|P].
  rewrite quad_mk Ec; set u := x _ _; set v := x _ _; cbv zeta.
  have [Z|N] := eqVneq a 0.
    move: D; rewrite Z mul0r -expr2 => D; have Bz : b = 0 by apply/eqP; rewrite -sqrf_eq0 eq_le D sqr_ge0.
    by rewrite Bz addr0 !mul0r !add0r mulr_ge0 // sqr_ge0.
  have ap : 0 < a by rewrite lt0r N.
  rewrite -(pmulr_rge0 _ ap).
  have -> : a * (a * u ^+ 2 + (b + b) * (u * v) + d * v ^+ 2) = (a * u + b * v) ^+ 2 + (a * d - b * b) * v ^+ 2.
    by rewrite !expr2; exact: (p_square Q_ring).
  by apply: addr_ge0; [exact: sqr_ge0|apply: mulr_ge0; [rewrite subr_ge0|exact: sqr_ge0]].
have E u v : 0 <= a * u ^+ 2 + (b + b) * (u * v) + d * v ^+ 2 by have := P (vec u v); rewrite quad_mk Ec !mxE.
have a0 : 0 <= a by have := E 1 0; rewrite (_ : a * _ + _ + _ = a) // !expr2; exact: (p_10 Q_ring).
have d0 : 0 <= d by have := E 0 1; rewrite (_ : a * _ + _ + _ = d) // !expr2; exact: (p_01 Q_ring).
apply/and3P; split=> //; have [Z|N] := eqVneq a 0.
  have := E (- (d + 1)) b; rewrite Z (_ : 0 * _ + _ + _ = (d + 1 + 1) * - (b * b)); last by rewrite !expr2; exact: (p_db Q_ring).
  by rewrite pmulr_rge0 ?mul0r ?oppr_ge0 // -addrA ltr_paddl.
have ap : 0 < a by rewrite lt0r N.
have := E (- b) a; rewrite (_ : a * _ + _ + _ = a * (a * d - b * b)); last by rewrite !expr2; exact: (p_ba Q_ring).
by rewrite pmulr_rge0 // subr_ge0.
Qed.
Lemma mk_mul a b c d a' b' c' d' : mk a b c d *m mk a' b' c' d' = mk (a * a' + b * c') (a * b' + b * d') (c * a' + d * c') (c * b' + d * d').
Proof. by apply/matrixP => i j; rewrite !mxE !big_ord_recl big_ord0 !mxE /= addr0; case: (i == 0); case: (j == 0). Qed.
Lemma V0_unit : V0 \in unitmx.
Proof.
have : V0 *m mk (2%:R^-1) (2%:R^-1) (2%:R^-1) (- 2%:R^-1) = 1%:M; last by case/mulmx1_unit.
by rewrite mk_mul; apply/matrixP => i j; rewrite !mxE; case: i => [[|[|i]] hi] //; case: j => [[|[|j]] hj].
Qed.
Lemma V0_eig a b p q : a + b = p -> a - b = q -> eigenvectors (mk a b b a) V0 (vec p q).
Proof.
move=> <- <-; split=> [|k]; first exact: V0_unit.
by apply/matrixP => i j; rewrite !mxE !big_ord_recl big_ord0 !mxE /= addr0;
  case: k => [[|[|k]] hk] //; case: i => [[|[|i]] hi] //=; rewrite ?mulr1 ?mulrN1 ?opprD ?opprK ?(addrC b a) // addrC.
Qed.
Let A0 := mk 1 2%:R 2%:R 1.
Let A1 := mk 1 1 0 1.
(** the indefinite matrix (1 2; 2 1), the unsymmetric one (1 1; 0 1), and the joint observation of C67's example *)
Example C86_example :
  (solved eig0 A0 V0 (vec 3%:R (-1)) /\ symmetric A0 /\ ~ psd A0) /\
  (solved eig0 (half Q *: (A1 + A1^T)) V0 (vec (3%:R / 2%:R) (2%:R^-1)) /\ psd A1 /\ ~ symmetric A1) /\
  exact psd2 2 /\ sound psd2 2.
Proof.
have S0 : solved eig0 A0 V0 (vec 3%:R (-1)).
  split; last by apply: V0_eig.
  by have [_ e _ _] := mk_entry 1 2%:R 2%:R 1; rewrite /eig0 /= e.
have E1 : half Q *: (A1 + A1^T) = mk 1 (2%:R^-1) (2%:R^-1) 1.
  by apply/matrixP => i j; rewrite !mxE; case: i => [[|[|i]] hi] //; case: j => [[|[|j]] hj].
split; [split=> //; split|split].
- by apply/matrixP => i j; rewrite !mxE; case: (i == 0); case: (j == 0).
- by move=> P; have := P (vec 1 (-1)); rewrite quad_mk !mxE.
- rewrite E1; split; [split; [|exact: V0_eig]|split].
  + by have [_ e _ _] := mk_entry 1 (2%:R^-1 : Q) (2%:R^-1) 1; rewrite /eig0 /= e.
  + apply/psd_symm; rewrite /symm E1; apply/exact2; last by have [e1 e2 e3 e4] := mk_entry 1 (2%:R^-1 : Q) (2%:R^-1) 1; rewrite /psd2 /= e1 e2 e4.
    by apply/matrixP => i j; rewrite !mxE; case: (i == 0); case: (j == 0).
  + by move=> /matrixP /(_ ord0 (lift ord0 ord0)); rewrite !mxE.
- by split; [exact: exact2|move=> A /exact2 H; apply H].
Qed.
(** (1 2; 2 1) with eps = 1 becomes (2 1; 1 2) *)
Example C86_value : nearest_covariance jk eig0 (DM A0) 1 = Ok (DM (mk 2%:R 1 1 2%:R)).
Proof.
have [[S0 [sA nP]] _] := C86_example.
have S0' : solved eig0 (half Q *: (A0 + A0^T)) V0 (vec 3%:R (-1)) by rewrite -/(symm A0) symm_id.
have [_ /(_ nP) [B [-> [_ EB]]]] := C86_nearest jk S0' (ler01 : (0 : Q) <= 1); congr (Ok (DM _)).
have [U0 _] : eigenvectors (mk 2%:R 1 1 2%:R) V0 (vec 3%:R 1) by exact: V0_eig.
have [_ EM] : eigenvectors (mk 2%:R 1 1 2%:R) V0 (vec 3%:R 1) by exact: V0_eig.
apply: (can_inj (mulmxK U0)); apply/matrixP => i k.
have C (M : 'M[Q]_2) : (M *m V0) i k = (M *m col k V0) i 0 by rewrite !mxE; apply: eq_bigr => j _; rewrite !mxE.
rewrite !C EB EM !mxE; congr (_ * _); by case: k {C} => [[|[|k]] hk].
Qed.
Let c1 (x : Q) : dmat Q := DM (x%:M : 'M[Q]_1).
Let b (x s : Q) : belief Q := Bel (c1 x) (c1 s) Z0 false false true.
Let d0 : HandlerModel.dict (belief Q) (dmat Q) :=
  [:: (9, Inst true [:: (Z0, b 1 1)] [:: (2, [:: (Z0, c1 1)])]);
      (5, Inst true [:: (Z0, b 3%:R 4%:R)] [:: (2, [:: (Z0, c1 1)])]);
      (2, Inst true [:: (Z0, b 2%:R 3%:R)] [:: (5, [:: (Z0, c1 2%:R)]); (9, [:: (Z0, c1 1)])])]%N.
Let H0 : list (nat * dmat Q) := [:: (2, c1 1); (5, c1 (- 1))]%N.
Let bs0 : list (nat * belief Q) := [:: (2, b 2%:R 3%:R); (5, b 3%:R 4%:R)]%N.
(** the hypotheses of C86_joint are met by C67's example: the update is applied and the posterior passes the exact test *)
Example C86_joint_example : exists dH bs m t d d' (R : 'M[Q]_m) (r : 'cV[Q]_m) cfg,
  participants dH bs m t d /\ sound psd2 (sumn (sizes bs)) /\
  (forall (Hs : 'M[Q]_(m, sumn (sizes bs))) (Ps : 'M[Q]_(sumn (sizes bs))) res, stacked_H dH Hs (sizes bs) -> stacked_cov bs t d Ps (sizes bs) ->
     correction_step jk (DM Hs) (DM R) (DM r) (DM (Ps + 0%:M)) cfg = Ok res -> psd2 (Sigma_apos res) = false ->
     exists A V D, Sigma_apos res = DM A /\ @solved Q eig0 (sumn (sizes bs)) A V D) /\
  apply_observation_r jk psd2 (nearest_of jk eig0 1) (fun _ _ i => Ok (i, false)) 0 dH (DM R) (DM r) t cfg d = Ok (d', true).
Proof.
have [P [_ _]] : participants H0 bs0 1 Z0 d0 /\ _ := C67_example; set cfg := CorrCfg false true true (d_of_Z 1) (0 : Q).
have dims n (A : 'M[Q]_n) : exists (V : 'M[Q]_n) (D : 'cV[Q]_n), eig0 (DM A) = (DM V, DM D).
  rewrite /eig0 /=; case: (n =P 2%N) => [E|_] /=; last by do 2 eexists.
  by subst n; case: ifP => _; [|case: ifP => _]; do 2 eexists.
have So : sound psd2 2 by move=> A /exact2 H; apply H.
have At (A : dmat Q) i j x : dblock A i j 1 1 = Ok (DM (x%:M : 'M[Q]_1)) -> entry A i j = x.
  rewrite /dblock; case: ifP => // _ E0; have E := Ok_inj E0.
  have := f_equal (fun B => entry B 0 0) E; rewrite (@entry_mk Q 1 1 (fun a b => entry A (i + a) (j + b))) // !addn0 => ->.
  by rewrite (entry_in _ (isT : 0 < 1)%N (isT : 0 < 1)%N) mxE.
have Psd (P' : 'M[Q]_2) : stacked_cov bs0 Z0 d0 P' (sizes bs0) -> psd (P' + 0%:M).
  move=> [sP [D O]]; have z0 : (0%:M : 'M[Q]_2) = 0 := raddf0 _; rewrite z0 addr0.
  have e00 := At _ _ _ _ (D 0 2 _ erefl)%N; have e11 := At _ _ _ _ (D 1 5 _ erefl)%N.
  have G25 : get_Sigma_IJ 2 5 Z0 d0 = Ok (c1 2%:R) by rewrite /get_Sigma_IJ /= /dtr /c1 /= tr_scalar_mx dmul_ok mulmx1.
  have e01 := At _ _ _ _ (O 0 1 2 5 _ _ _ erefl erefl isT G25)%N.
  by apply/(exact2 sP); rewrite /psd2 /= e00 e11 e01.
have Post (Hs : 'M[Q]_(1, 2)) (Ps : 'M[Q]_2) res : stacked_cov bs0 Z0 d0 Ps (sizes bs0) ->
    correction_step jk (DM Hs) (DM (1%:M : 'M[Q]_1)) (DM (1%:M : 'M[Q]_1)) (DM (Ps + 0%:M)) cfg = Ok res -> psd2 (Sigma_apos res) = true.
  move=> /Psd P0; rewrite correction_step_ok /= => -[<-] /=; apply/exact2; first exact: step_final_sym.
  by apply: step_final_psd => //; exact: psd1.
have [Hs [Ps [SH [SP]]]] := C67_residual jk psd2 (fun _ _ i => Ok (i, false)) 0 (@nearest_of_dims Q jk eig0 1 dims) P 1%:M 1%:M cfg.
rewrite /as_centralized correction_step_ok /= => -[S [dx [d' [_ [_ [E _]]]]]].
exists H0, bs0, 1%N, Z0, d0, d', 1%:M, 1%:M, cfg; split=> //; split=> //; split=> // Hs' Ps' res _ SP' Er.
by rewrite (Post Hs' Ps' res SP' Er).
Qed.
End Example86.

Print Assumptions C86_nearest.
Print Assumptions C86_nearest_covariance.
Print Assumptions C86_unsymmetric_kept.
Print Assumptions C86_idempotent.
Print Assumptions C86_square_only.
Print Assumptions C86_correct.
Print Assumptions C86_posterior.
Print Assumptions C86_joint.
