From Coq Require Import ZArith List.
From mathcomp Require Import all_ssreflect all_algebra.
From Verif Require Import Outcome DMat KFModel Spec_Mat KFProofs RepairModel Spec_Repair.
Set Implicit Arguments. Unset Strict Implicit. Unset Printing Implicit Defensive.
Import Order.Theory GRing.Theory Num.Theory.
Local Open Scope ring_scope.

Section Pure.
Variable F : realFieldType.
Variable n : nat.
Implicit Types (A V : 'M[F]_n) (D E : 'cV[F]_n).
Notation diagc D := (diag_mx D^T).

Lemma eigenE A V D : eigenvectors A V D -> A *m V = V *m diagc D.
Proof.
move=> [_ H]; apply/matrixP => i k; have /matrixP /(_ i 0) := H k.
rewrite !mxE => E; transitivity (D k 0 * V i k).
  by rewrite -E; apply: eq_bigr => j _; rewrite mxE.
rewrite (bigD1 k) //= big1 => [|j N]; last by rewrite !mxE (negbTE N) mulr0n mulr0.
by rewrite !mxE eqxx mulr1n addr0 mulrC.
Qed.
Lemma eigen_fact A V D : eigenvectors A V D -> A = V *m diagc D *m invmx V.
Proof. by move=> H; rewrite -(eigenE H); case: H => U _; rewrite mulmxK. Qed.

(** the Gram matrix of the eigenvectors of a symmetric matrix couples equal eigenvalues only *)
Lemma gram A V D : symmetric A -> eigenvectors A V D -> forall i j, (V^T *m V) i j != 0 -> D i 0 = D j 0.
Proof.
move=> sA H i j; have E := eigenE H.
have C : diagc D *m (V^T *m V) = (V^T *m V) *m diagc D.
  have T : V^T *m A = diagc D *m V^T by rewrite -{1}sA -trmx_mul E trmx_mul tr_diag_mx.
  by rewrite mulmxA -T -!mulmxA E.
have /matrixP /(_ i j) := C; rewrite mul_diag_mx mul_mx_diag => K N; move: K N; rewrite !mxE => K N.
by move: K; rewrite mulrC => /(mulfI N).
Qed.

Section Rebuilt.
Variables (A V : 'M[F]_n) (D : 'cV[F]_n) (f : F -> F).
Hypothesis sA : symmetric A.
Hypothesis H : eigenvectors A V D.
Let E : 'cV[F]_n := \col_k f (D k 0).
Let B := V *m diagc E *m invmx V.
Lemma rebuilt_sym : symmetric B.
Proof.
have U : V \in unitmx by case: H.
have UT : V^T \in unitmx by rewrite unitmx_tr.
have C : diagc E *m (V^T *m V) = (V^T *m V) *m diagc E.
  apply/matrixP => i j; rewrite mul_diag_mx mul_mx_diag.
  case: (altP ((V^T *m V) i j =P 0)) => [Z|N]; rewrite !mxE.
    by move: Z; rewrite mxE => ->; rewrite mulr0 mul0r.
  by rewrite (gram sA H N) mulrC.
rewrite /symmetric /B !trmx_mul tr_diag_mx trmx_inv.
apply: (canRL (mulmxK U)); apply: (can_inj (mulKmx UT)).
by rewrite !mulmxA mulmxV // mul1mx -mulmxA C.
Qed.
Lemma rebuilt_psd : (forall k, 0 <= E k 0) -> psd B.
Proof.
move=> P x; have U : V \in unitmx by case: H.
set y := invmx V *m x; set G := V^T *m V.
have -> : quad B x = \sum_i \sum_j y i 0 * G i j * (E j 0 * y j 0).
  have Ex : x = V *m y by rewrite /y mulKVmx.
  have -> : quad B x = (y^T *m (G *m (diagc E *m y))) 0 0.
    by rewrite {1}Ex /quad trmx_mul /B /G !mulmxA mulmxKV.
  rewrite mxE; apply: eq_bigr => i _; rewrite !mxE big_distrr /=; apply: eq_bigr => j _.
  by rewrite mul_diag_mx !mxE !mulrA.
set cs := undup [seq D k 0 | k <- enum 'I_n].
have -> : \sum_i \sum_j y i 0 * G i j * (E j 0 * y j 0) =
  \sum_(c <- cs) f c * quad G (\col_k (y k 0 *+ (D k 0 == c))).
  transitivity (\sum_i \sum_j \sum_(c <- cs) f c * (y i 0 *+ (D i 0 == c) * G i j * (y j 0 *+ (D j 0 == c)))).
    apply: eq_bigr => i _; apply: eq_bigr => j _.
    case: (altP (G i j =P 0)) => [->|N].
      by rewrite mulr0 mul0r big1 // => c _; rewrite mulr0 mul0r mulr0.
    rewrite (bigD1_seq (D j 0)) ?undup_uniq //=; last first.
      by rewrite mem_undup; apply/mapP; exists j => //; rewrite mem_enum.
    rewrite big1_seq => [|c /andP [/negbTE Nc _]]; last by rewrite (eq_sym (D j 0)) Nc mulr0n mulr0 mulr0.
    by rewrite (gram sA H N) eqxx !mulr1n addr0 /E mxE !mulrA (mulrC (f _)) -!mulrA; congr (_ * _); rewrite !mulrA (mulrC (f _)).
  under eq_bigr => i _ do rewrite exchange_big /=.
  rewrite exchange_big /=; apply: eq_bigr => c _.
  rewrite /quad -mulmxA mxE big_distrr /=; apply: eq_bigr => i _.
  rewrite !mxE big_distrr /= big_distrr /=; apply: eq_bigr => j _.
  by rewrite !mxE !mulrA.
rewrite big_seq; apply: sumr_ge0 => c; rewrite mem_undup => /mapP [k _ ->].
apply: mulr_ge0; first by have := P k; rewrite mxE.
have -> : G = V^T *m 1%:M *m V^T^T by rewrite mulmx1 trmxK.
exact: psd_congr (@psd1 _ _) _.
Qed.
End Rebuilt.

Lemma sq_sum_gt0 (x : 'cV[F]_n) : x != 0 -> 0 < \sum_i x i 0 ^+ 2.
Proof.
move=> N; rewrite lt0r; apply/andP; split; last by apply: sumr_ge0 => i _; exact: sqr_ge0.
apply: contra N => /eqP Z; apply/eqP/matrixP => i j; rewrite ord1 mxE.
have := psumr_eq0P (P := xpredT) (fun i _ => sqr_ge0 (x i 0)) Z (i := i) erefl; by move/eqP; rewrite sqrf_eq0 => /eqP.
Qed.
Lemma eigen_nonneg A V D : symmetric A -> eigenvectors A V D -> (psd A <-> forall k, 0 <= D k 0).
Proof.
move=> sA H; split=> [P k|P].
  have U : V \in unitmx by case: H.
  have N : col k V != 0.
    apply/negP => /eqP Z; have := unitmxE V; rewrite U => /esym.
    have -> : \det V = 0; last by rewrite unitr0.
    rewrite -det_tr (expand_det_row _ k) big1 // => j _.
    by have /matrixP /(_ j 0) := Z; rewrite !mxE => ->; rewrite mul0r.
  have := P (col k V); rewrite /quad -mulmxA; case: H => _ ->.
  rewrite -scalemxAr mxE -{1}(mulmx1 (col k V)^T) -/(quad _ _) quad1 pmulr_lge0 //.
  exact: sq_sum_gt0.
have -> : A = V *m diagc (\col_k id (D k 0)) *m invmx V.
  rewrite {1}(eigen_fact H); congr (_ *m diag_mx _ *m _); apply/matrixP => i j; by rewrite !mxE ord1.
by apply: (@rebuilt_psd A V D id sA H) => k; rewrite mxE.
Qed.
End Pure.

Section Packed.
Variable F : realFieldType.
Variable junk : forall n, 'M[F]_n -> 'M[F]_n.
Notation dmat := (dmat F).
Variable eig : dmat -> dmat * dmat.
Notation diagc D := (diag_mx D^T).

Lemma entry_col n (D : 'cV[F]_n) (k : 'I_n) : entry (DM D) k 0 = D k 0.
Proof. exact: (entryE D k (ord0 : 'I_1)). Qed.
Lemma ddiag_ok n (D : 'cV[F]_n) : ddiag (DM D) = DM (diagc D).
Proof. by rewrite /ddiag /=; congr DM; apply/matrixP => i j; rewrite !mxE entry_col; case: eqP => [->|]. Qed.
Lemma corrected_ok n (D : 'cV[F]_n) eps : corrected (DM D) eps = DM (clipped eps D).
Proof. by rewrite /corrected /=; congr DM; apply/matrixP => i j; rewrite !mxE entry_col. Qed.
Lemma negativeP n (D : 'cV[F]_n) : negative_eigenvalues (DM D) = true <-> exists k, D k 0 < 0.
Proof.
rewrite /negative_eigenvalues List.existsb_exists /=; split=> [[k [/List.in_seq [_ /ssrnat.ltP Hk] L]]|[k L]].
  by exists (Ordinal Hk); move: L; rewrite -entry_col.
by exists k; split; [apply/List.in_seq; split; [exact/ssrnat.leP|exact/ssrnat.ltP]|rewrite entry_col].
Qed.
Lemma nearest_run n (A V : 'M[F]_n) (D : 'cV[F]_n) eps : eig (DM (symm A)) = (DM V, DM D) -> V \in unitmx ->
  nearest_covariance junk eig (DM A) eps =
  Ok (if negative_eigenvalues (DM D) then DM (V *m diagc (clipped eps D) *m invmx V) else DM A).
Proof.
move=> E U; rewrite /nearest_covariance symmetrize_ok; cbn [obind]; rewrite E; cbn [fst snd].
case: negative_eigenvalues => //.
by rewrite corrected_ok ddiag_ok dmul_ok; cbn [obind]; rewrite dinv_ok; cbn [obind]; rewrite dmul_ok /inv_or_junk U.
Qed.
Lemma psd_symm n (A : 'M[F]_n) : psd (symm A) <-> psd A.
Proof. by split=> H x; have := H x; rewrite quad_symm. Qed.
Lemma clip_fun n (D : 'cV[F]_n) eps : clipped eps D = \col_k (fun x => if x < 0 then eps else x) (D k 0).
Proof. by []. Qed.
Lemma nearest_psd n (A V : 'M[F]_n) (D : 'cV[F]_n) eps : eig (DM (symm A)) = (DM V, DM D) -> eigenvectors (symm A) V D -> psd A ->
  nearest_covariance junk eig (DM A) eps = Ok (DM A).
Proof.
move=> E H P; rewrite (nearest_run eps E); last by case: H.
case N: negative_eigenvalues => //; have [k] := (negativeP D).1 N.
by have /psd_symm /(eigen_nonneg (symm_sym A) H) /(_ k) := P; rewrite leNgt => /negbTE ->.
Qed.
Lemma nearest_not_psd n (A V : 'M[F]_n) (D : 'cV[F]_n) eps : eig (DM (symm A)) = (DM V, DM D) -> eigenvectors (symm A) V D -> ~ psd A -> 0 <= eps ->
  exists B : 'M[F]_n, nearest_covariance junk eig (DM A) eps = Ok (DM B) /\ covariance B /\ eigenvectors B V (clipped eps D).
Proof.
move=> E H P e0; rewrite (nearest_run eps E); last by case: H.
case N: negative_eigenvalues; last first.
  case: P; apply/psd_symm/(eigen_nonneg (symm_sym A) H) => k; rewrite leNgt; apply/negP => L.
  by move: N; rewrite (negativeP D).2 //; exists k.
exists (V *m diagc (clipped eps D) *m invmx V); split=> //; split.
  rewrite clip_fun; split; first exact: (@rebuilt_sym _ _ _ _ _ (fun x => if x < 0 then eps else x) (symm_sym A) H).
  by apply: (@rebuilt_psd _ _ _ _ _ (fun x => if x < 0 then eps else x) (symm_sym A) H) => k; rewrite mxE; case: ltP.
split=> [|k]; first by case: H.
have U : V \in unitmx by case: H.
rewrite colE mulmxA mulmxKV // -mulmxA scalemxAr; congr (_ *m _).
apply/matrixP => i j; rewrite mul_diag_mx [RHS]mxE [LHS]mxE [(clipped _ _)^T _ _]mxE.
by rewrite [delta_mx _ _ _ _]mxE; case: eqP => [->|_] //=; rewrite !mulr0.
Qed.
End Packed.
