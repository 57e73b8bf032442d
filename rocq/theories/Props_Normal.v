(** C94: normally distributed samples have the mean and the covariance asked for. *)
From Coq Require Import ZArith List.
From mathcomp Require Import all_ssreflect all_algebra.
From Verif Require Import Outcome DMat Spec_Mat KFProofs RepairModel Spec_Repair RepairProofs NormalModel Spec_Normal.
Set Implicit Arguments. Unset Strict Implicit. Unset Printing Implicit Defensive.
Import Order.Theory GRing.Theory Num.Theory.
Local Open Scope ring_scope.

Section Moments.
Variables (F : realFieldType) (Omega : Type) (E : (Omega -> F) -> F).
Hypothesis HE : expectation E.
Lemma e_zero : E (fun _ => 0) = 0. Proof. exact: (e_const HE). Qed.
Lemma e_sum n (f : 'I_n -> Omega -> F) : E (fun w => \sum_i f i w) = \sum_i E (f i).
Proof.
elim: n f => [|n IH] f.
  by rewrite big_ord0; apply: etrans e_zero; apply: (e_ext HE) => w; rewrite big_ord0.
rewrite big_ord_recl -IH -(e_add HE); apply: (e_ext HE) => w; by rewrite big_ord_recl.
Qed.
(** second moments of linear combinations of standard numbers *)
Lemma e_lin q xi n (a : 'I_n -> F) (k : 'I_n -> nat) : standard E q xi -> (forall i, k i < q)%N -> E (fun w => \sum_i a i * xi (k i) w) = 0.
Proof. by move=> [M _] B; rewrite e_sum big1 // => i _; rewrite (e_scale HE) M ?mulr0. Qed.
Lemma e_prod q xi n (a b : 'I_n -> F) (k l : 'I_n -> nat) : standard E q xi -> (forall i, k i < q)%N -> (forall i, l i < q)%N ->
  E (fun w => (\sum_i a i * xi (k i) w) * (\sum_j b j * xi (l j) w)) = \sum_i \sum_j a i * b j * (k i == l j)%:R.
Proof.
move=> [_ C] Bk Bl; transitivity (E (fun w => \sum_i \sum_j a i * b j * (xi (k i) w * xi (l j) w))).
  apply: (e_ext HE) => w; rewrite big_distrl /=; apply: eq_bigr => i _; rewrite big_distrr /=.
  by apply: eq_bigr => j _; rewrite mulrACA.
rewrite e_sum; apply: eq_bigr => i _; rewrite e_sum; apply: eq_bigr => j _; by rewrite (e_scale HE) C.
Qed.
End Moments.

Section Normal.
Variable F : realFieldType.
Notation dmat := (dmat F).
Variable llt : dmat -> option dmat.
Variable eigh : dmat -> option (dmat * dmat).
Variable sqrt : F -> F.
Notation new_normal := (new_normal llt eigh sqrt).
Notation set_covar := (set_covar llt eigh sqrt).
Notation diagc D := (diag_mx D^T).

(** the sample in column j is m + T * (the j-th group of n numbers) *)
Lemma samples_ok n (m : 'cV[F]_n) (S T : 'M[F]_n) xi p nn :
  samples xi p nn (Normal (DM m) (DM S) (DM T)) =
  Ok (DM (\matrix_(i < n, j < nn) (\sum_k T i k * xi (p + j * n + k)%N + m i 0)), (p + nn * n)%N).
Proof.
rewrite /samples /= dmul_ok; cbn [obind]; rewrite /plus_cols /= eqxx /=; congr (Ok (DM _, _)).
by apply/matrixP => i j; rewrite !mxE entry_col; congr (_ + _); apply: eq_bigr => k _; rewrite mxE.
Qed.

(** what is known of an object: whichever way it was made, its samples have mean m and covariance T T^T, and different samples are
    uncorrelated *)
Theorem C94_moments : forall (Omega : Type) (E : (Omega -> F) -> F) (xi : nat -> Omega -> F) n (m : 'cV[F]_n) (S T : 'M[F]_n) p nn,
  expectation E -> standard E (p + nn * n) xi ->
  exists X : Omega -> 'M[F]_(n, nn),
    (forall w, samples (fun k => xi k w) p nn (Normal (DM m) (DM S) (DM T)) = Ok (DM (X w), (p + nn * n)%N)) /\
    (forall i j, E (fun w => X w i j) = m i 0) /\
    (forall i j i' j', covariance_rv E (fun w => X w i j) (fun w => X w i' j') = if j == j' then (T *m T^T) i i' else 0).
Proof.
move=> Omega E xi n m S T p nn HE HX.
have B (j : 'I_nn) (i : 'I_n) : (p + j * n + i < p + nn * n)%N.
  rewrite -addnA ltn_add2l; apply: leq_trans (leq_mul (ltn_ord j) (leqnn n)).
  by rewrite mulSn addnC ltn_add2r.
exists (fun w => \matrix_(i < n, j < nn) (\sum_k T i k * xi (p + j * n + k)%N w + m i 0)).
have M i j : E (fun w => (\matrix_(i < n, j < nn) (\sum_k T i k * xi (p + j * n + k)%N w + m i 0)) i j) = m i 0.
  transitivity (E (fun w => \sum_k T i k * xi (p + j * n + k)%N w + m i 0)).
    by apply: (e_ext HE) => w; rewrite mxE.
  by rewrite (e_add HE) (e_const HE) (e_lin HE _ (k := fun k : 'I_n => (p + j * n + k)%N) HX) ?add0r.
split=> [w|]; first by rewrite samples_ok.
split=> [//|i j i' j']; rewrite /covariance_rv !M.
transitivity (E (fun w => (\sum_k T i k * xi (p + j * n + k)%N w) * (\sum_l T i' l * xi (p + j' * n + l)%N w))).
  by apply: (e_ext HE) => w; rewrite !mxE !addrK.
rewrite (e_prod HE _ _ (k := fun k : 'I_n => (p + j * n + k)%N) (l := fun k : 'I_n => (p + j' * n + k)%N) HX) //.
case: (altP (j =P j')) => [<-|N].
  rewrite mxE; apply: eq_bigr => k _; rewrite (bigD1 k) //= eqxx mulr1 big1 ?addr0 ?mxE // => l L.
  by rewrite eqn_add2l eq_sym (negbTE (L : (l : nat) != k)) mulr0.
rewrite big1 // => k _; rewrite big1 // => l _.
suff -> : (p + j * n + k == p + j' * n + l)%N = false by rewrite mulr0.
apply/negP; rewrite -!addnA eqn_add2l => /eqP K; move: N; rewrite -val_eqE /=.
have n0 : (0 < n)%N by apply: leq_trans (ltn_ord k).
have := congr1 (fun x => x %/ n)%N K; rewrite !divnMDl // !divn_small // !addn0 => ->; by rewrite eqxx.
Qed.

Lemma gram_psd n (T : 'M[F]_n) : psd (T *m T^T).
Proof.
move=> x; have -> : quad (T *m T^T) x = ((T^T *m x)^T *m (T^T *m x)) 0 0 by rewrite /quad trmx_mul trmxK !mulmxA.
by rewrite mxE sumr_ge0 // => k _; rewrite mxE -expr2 sqr_ge0.
Qed.
(** the solver: eigenvalues below zero are cut off, so the factor is right exactly for covariances *)
Theorem C94_solver : forall n (m : 'cV[F]_n) (S V : 'M[F]_n) (D : 'cV[F]_n),
  eigh (DM S) = Some (DM V, DM D) -> V^T *m V = 1%:M -> V *m diagc D *m V^T = lower_sym S ->
  (forall k, sqrt (Num.max (D k 0) 0) * sqrt (Num.max (D k 0) 0) = Num.max (D k 0) 0) ->
  exists T : 'M[F]_n, new_normal (DM m) (DM S) false = Ok (Some (Normal (DM m) (DM S) (DM T))) /\
    T *m T^T = V *m diagc (\col_k Num.max (D k 0) 0) *m V^T /\
    (T *m T^T = lower_sym S <-> psd (lower_sym S)).
Proof.
move=> n m S V D HE OV HS HR; pose r : 'cV[F]_n := \col_k sqrt (Num.max (D k 0) 0).
have RE : roots sqrt (DM D) = DM r.
  by rewrite /roots /=; congr DM; apply/matrixP => i j; rewrite !mxE entry_col.
have RR : diagc r *m (diagc r)^T = diagc (\col_k Num.max (D k 0) 0).
  rewrite tr_diag_mx; apply/matrixP => i j; rewrite mul_diag_mx !mxE.
  by case: eqP => [->|_]; rewrite ?mulr1n ?mulr0n ?HR ?mulr0.
exists (V *m diagc r); split.
  rewrite /NormalModel.new_normal /NormalModel.set_covar /= eqxx /= HE RE ddiag_ok dmul_ok; by cbn [obind].
have TT : V *m diagc r *m (V *m diagc r)^T = V *m diagc (\col_k Num.max (D k 0) 0) *m V^T.
  by rewrite trmx_mul mulmxA -(mulmxA V) RR.
split=> //; split=> [<- x|P].
  exact: gram_psd.
rewrite TT -HS; congr (_ *m _ *m _); apply/matrixP => i j; rewrite !mxE; case: eqP => // ->.
congr (_ *+ _); apply/max_idPl.
have := P (col j V); rewrite /quad -HS.
have -> : (col j V)^T *m (V *m diagc D *m V^T) *m col j V = (D j 0)%:M; last by rewrite mxE eqxx mulr1n.
have VE : V^T *m col j V = col j 1%:M by rewrite !colE mulmxA OV.
rewrite !mulmxA -(mulmxA _ V^T) VE.
have -> : (col j V)^T *m V = (col j 1%:M)^T by rewrite -VE trmx_mul trmxK.
apply/matrixP => a b; rewrite !mxE (bigD1 j) //= big1 => [|l L].
  rewrite !mxE (bigD1 j) //= big1 => [|l L]; last by rewrite !mxE; case: eqP L => [->|]; rewrite ?eqxx // mulr0n ?mul0r ?mulr0.
  by rewrite !mxE !eqxx !ord1 eqxx !mulr1n addr0 mul1r mulr1 addr0.
by rewrite !mxE (negbTE L) mulr0n mulr0.
Qed.

Theorem C94_cholesky : forall n (m : 'cV[F]_n) (S L : 'M[F]_n), llt (DM S) = Some (DM L) -> L *m L^T = lower_sym S ->
  exists T : 'M[F]_n, new_normal (DM m) (DM S) true = Ok (Some (Normal (DM m) (DM S) (DM T))) /\ T *m T^T = lower_sym S.
Proof. by move=> n m S L H LL; exists L; rewrite /NormalModel.new_normal /NormalModel.set_covar /= eqxx /= H. Qed.

Lemma lower_symE n (S : 'M[F]_n) : symmetric S -> lower_sym S = S.
Proof. by move=> H; apply/matrixP => i j; rewrite mxE; case: ifP => // _; rewrite -{1}H mxE. Qed.

(** for a covariance both ways give samples with the given mean and covariance *)
Theorem C94_samples : forall n (m : 'cV[F]_n) (S : 'M[F]_n) (use_cholesky : bool), covariance S ->
  (if use_cholesky then exists L : 'M[F]_n, llt (DM S) = Some (DM L) /\ L *m L^T = S
   else exists (V : 'M[F]_n) (D : 'cV[F]_n), eigh (DM S) = Some (DM V, DM D) /\ V^T *m V = 1%:M /\ V *m diagc D *m V^T = S /\
          forall k, 0 <= D k 0 -> sqrt (D k 0) * sqrt (D k 0) = D k 0) ->
  exists d, new_normal (DM m) (DM S) use_cholesky = Ok (Some d) /\ get_covar d = DM S /\
  forall (Omega : Type) (E : (Omega -> F) -> F) (xi : nat -> Omega -> F) p nn, expectation E -> standard E (p + nn * n) xi ->
  exists X : Omega -> 'M[F]_(n, nn),
    (forall w, samples (fun k => xi k w) p nn d = Ok (DM (X w), (p + nn * n)%N)) /\
    (forall i j, E (fun w => X w i j) = m i 0) /\
    (forall i j i' j', covariance_rv E (fun w => X w i j) (fun w => X w i' j') = if j == j' then S i i' else 0).
Proof.
move=> n m S c [sS pS] H.
suff [T [N TT]] : exists T : 'M[F]_n, new_normal (DM m) (DM S) c = Ok (Some (Normal (DM m) (DM S) (DM T))) /\ T *m T^T = S.
  exists (Normal (DM m) (DM S) (DM T)); split=> //; split=> // Omega E xi p nn HE HX.
  by case: (C94_moments m S T HE HX) => X; rewrite TT => K; exists X.
case: c H => [[L [HL LL]]|[V [D [HE [OV [HS HR]]]]]].
  case: (@C94_cholesky n m S L HL _) => [|T [N TT]]; first by rewrite lower_symE.
  by exists T; split=> //; rewrite TT lower_symE.
have P k : 0 <= D k 0.
  have := pS (col k V); rewrite -HS /quad.
  have VE : V^T *m col k V = col k 1%:M by rewrite !colE mulmxA OV.
  rewrite !mulmxA -(mulmxA _ V^T) VE.
  have -> : (col k V)^T *m V = (col k 1%:M)^T by rewrite -VE trmx_mul trmxK.
  rewrite mxE (bigD1 k) //= big1 => [|l L]; last by rewrite !mxE (negbTE L) mulr0n mulr0.
  rewrite !mxE (bigD1 k) //= big1 => [|l L]; last by rewrite !mxE; case: eqP L => [->|]; rewrite ?eqxx // mulr0n ?mul0r ?mulr0.
  by rewrite !mxE !eqxx !mulr1n addr0 mul1r mulr1 addr0.
case: (@C94_solver n m S V D HE OV _ _) => [||T [N [_ [_ TT]]]].
- by rewrite lower_symE.
- by move=> k; rewrite (max_idPl (P k)) HR.
by exists T; split=> //; move: (lower_symE sS) TT => -> TT; apply: TT.
Qed.

(** a covariance that is refused later on (the decomposition fails, the exception is caught) is what getCovar() reports, but the
    samples go on being those of the old one *)
Theorem C94_failed : forall n (m : 'cV[F]_n) (S S' T : 'M[F]_n) (use_cholesky : bool) xi p nn,
  (if use_cholesky then llt (DM S') = None else eigh (DM S') = None) ->
  exists d, set_covar (DM S') use_cholesky (Normal (DM m) (DM S) (DM T)) = Ok (d, false) /\ get_covar d = DM S' /\
    samples xi p nn d = samples xi p nn (Normal (DM m) (DM S) (DM T)).
Proof.
move=> n m S S' T c xi p nn H; exists (Normal (DM m) (DM S') (DM T)).
rewrite !samples_ok /get_covar /= /NormalModel.set_covar /= eqxx /=.
by case: c H => ->.
Qed.

(** a mean of another length: every call of samples() fails an assertion *)
Theorem C94_lengths : forall n k (m : 'cV[F]_k) (S T : 'M[F]_n) xi p nn, k != n ->
  samples xi p nn (Normal (DM m) (DM S) (DM T)) = Abort EigenAssert.
Proof. by move=> n k m S T xi p nn N; rewrite /samples /= dmul_ok; cbn [obind]; rewrite /plus_cols /= (negbTE N). Qed.

(** one dimension: setCovar(s) makes s the standard deviation, the variance of the samples is s^2 *)
Theorem C94_univariate : forall (Omega : Type) (E : (Omega -> F) -> F) (xi : nat -> Omega -> F) (mu s mu0 s0 : F) p nn i j,
  expectation E -> standard E (p + nn) xi -> (i < nn)%N -> (j < nn)%N ->
  let u := u_set_covar s (u_set_mean mu (Uni mu0 s0)) in
  let X k w := List.nth k (fst (u_samples (fun q => xi q w) p nn u)) 0 in
  E (X i) = mu /\ covariance_rv E (X i) (X j) = (if i == j then s * s else 0) /\
  forall w, List.length (fst (u_samples (fun q => xi q w) p nn u)) = nn.
Proof.
move=> Omega E xi mu s mu0 s0 p nn i j HE HX Hi Hj u X.
have XE k : (k < nn)%N -> forall w, X k w = s * xi (p + k)%N w + mu.
  move=> /ssrnat.ltP Hk w; rewrite /X /u_samples /=.
  rewrite (List.nth_indep _ 0 ((fun j => s * xi (p + j)%N w + mu) 0%N)); last by rewrite List.map_length List.seq_length.
  by rewrite List.map_nth List.seq_nth.
have M k : (k < nn)%N -> E (X k) = mu.
  move=> Hk; transitivity (E (fun w => s * xi (p + k)%N w + mu)); first by apply: (e_ext HE) => w; rewrite XE.
  by case: HX => Z _; rewrite (e_add HE) (e_scale HE) (e_const HE) Z ?ltn_add2l // mulr0 add0r.
split; first exact: M; split; last by move=> w; rewrite /u_samples /= List.map_length List.seq_length.
rewrite /covariance_rv !M //.
transitivity (E (fun w => s * s * (xi (p + i)%N w * xi (p + j)%N w))).
  by apply: (e_ext HE) => w; rewrite !XE // !addrK mulrACA.
by case: HX => _ C; rewrite (e_scale HE) C ?ltn_add2l // eqn_add2l; case: eqP => _; rewrite ?mulr1 ?mulr0.
Qed.
End Normal.

Section Signs.
Variables (R : ringType).
Lemma z1 (x : R) : x + x + - x + - x = 0. Proof. by rewrite addrK subrr. Qed.
Lemma z2 (x : R) : x + - x + x + - x = 0. Proof. by rewrite subrr add0r subrr. Qed.
Lemma z3 : 1 * 1 + 1 * - 1 + - 1 * 1 + - 1 * - 1 = 0 :> R. Proof. by rewrite !(mulrNN, mulrN, mulNr, mulr1) subrr add0r addNr. Qed.
Lemma z4 : 1 * 1 + - 1 * 1 + 1 * - 1 + - 1 * - 1 = 0 :> R. Proof. by rewrite !(mulrNN, mulrN, mulNr, mulr1) subrr add0r addNr. Qed.
Lemma f1 : 1 * 1 + 1 * 1 + - 1 * - 1 + - 1 * - 1 = 4%:R :> R. Proof. by rewrite !mulrNN !mulr1 !mulrS mulr0n addr0 !addrA. Qed.
Lemma f2 : 1 * 1 + - 1 * - 1 + 1 * 1 + - 1 * - 1 = 4%:R :> R. Proof. by rewrite !mulrNN !mulr1 !mulrS mulr0n addr0 !addrA. Qed.
End Signs.
(** a case: two independent signs as numbers, the eigenvectors (3,4)/5 and (-4,3)/5 with eigenvalues 4 and 1 *)
Section Example.
Notation Q := rat_realFieldType.
Definition sgn (b : bool) : Q := if b then 1 else -1.
Definition Eex (f : bool * bool -> Q) : Q := (f (true, true) + f (true, false) + f (false, true) + f (false, false)) / 4%:R.
Definition xiex (k : nat) (w : bool * bool) : Q := if k is 0%N then sgn w.1 else sgn w.2.
Lemma q4 : (4%:R : Q) != 0. Proof. by rewrite pnatr_eq0. Qed.
Example C94_ex_expectation : expectation Eex.
Proof.
split=> [f g H|c|f g|c f]; rewrite /Eex.
- by rewrite !H.
- have -> : c + c + c + c = c * 4%:R by rewrite mulr_natr !mulrS mulr0n addr0 !addrA.
  by rewrite mulfK ?q4.
- rewrite -mulrDl; congr (_ * _); by rewrite [LHS](AC (2*2*2*2) (1*3*5*7*(2*4*6*8))) /= !addrA.
- by rewrite -!mulrDr mulrA.
Qed.
Example C94_ex_standard : standard Eex 2 xiex.
Proof.
split=> [k|k l]; rewrite /Eex /xiex /sgn /=.
- by case: k => [|[|k]] // _; rewrite ?z1 ?z2 mul0r.
- case: k => [|[|k]] // _; case: l => [|[|l]] // _ /=; rewrite ?f1 ?f2 ?z3 ?z4 ?mul0r ?divff ?q4 //.
Qed.
Definition Dex : 'cV[Q]_2 := \col_k (if k == 0 then 2%:R * 2%:R else 1).
Definition Rex : 'cV[Q]_2 := \col_k (if k == 0 then 2%:R else 1).
Definition eighex (S : dmat Q) : option (dmat Q * dmat Q) := Some (DM (1%:M : 'M[Q]_2), DM Dex).
Definition sqrtex (x : Q) : Q := if x == 2%:R * 2%:R then 2%:R else 1.
Lemma Dex_fact : diag_mx Rex^T *m (diag_mx Rex^T)^T = diag_mx Dex^T.
Proof.
rewrite tr_diag_mx; apply/matrixP => i j; rewrite mul_diag_mx !mxE; case: (i == j); rewrite ?mulr0n ?mulr0 // !mulr1n.
by case: (i == 0); rewrite ?mulr1.
Qed.
Example C94_ex_solver : let S := diag_mx Dex^T in covariance S /\
  exists (V : 'M[Q]_2) (D : 'cV[Q]_2), eighex (DM S) = Some (DM V, DM D) /\ V^T *m V = 1%:M /\ V *m diag_mx D^T *m V^T = S /\
    forall k, 0 <= D k 0 -> sqrtex (D k 0) * sqrtex (D k 0) = D k 0.
Proof.
split; first by split; [exact: tr_diag_mx|rewrite -Dex_fact; exact: gram_psd].
exists 1%:M, Dex; split=> //; rewrite trmx1 !mulmx1 mul1mx; split=> //; split=> // k _.
rewrite mxE /sqrtex; case: (k == 0); first by rewrite eqxx.
suff -> : (1 == 2%:R * 2%:R :> Q) = false by rewrite mulr1.
by rewrite -natrM -[1]/(1%:R) eqr_nat.
Qed.
(** and getCovar() of an object whose matrix was not a covariance differs from what its samples have: the eigenvalue -1 is cut off *)
Theorem C94_clipped : exists (llt : dmat Q -> option (dmat Q)) eigh sqrt (m : 'cV[Q]_1) (S T : 'M[Q]_1),
  (forall A : 'M[Q]_1, eigh (DM A) = Some (DM (1%:M : 'M[Q]_1), DM (A : 'cV[Q]_1))) /\
  new_normal llt eigh sqrt (DM m) (DM S) false = Ok (Some (Normal (DM m) (DM S) (DM T))) /\ T *m T^T <> S /\ S = (-1)%:M.
Proof.
exists (fun _ => None), (fun A => Some (DM (1%:M : 'M[Q]_1), A)), (fun x => x), 0, (-1)%:M, 0; split=> //.
split; last split=> //.
- rewrite /new_normal /set_covar /=.
  have -> : ddiag (roots (fun x => x) (DM ((-1)%:M : 'M[Q]_1))) = DM (0 : 'M[Q]_1).
    rewrite /ddiag /roots /=; congr DM; apply/matrixP => i j; rewrite !mxE !ord1.
    by rewrite -[0%N]/(val (0 : 'I_1)) !entryE !mxE !entryE !mxE eqxx !mulr1n (max_idPr (lerN10 _)).
  by rewrite dmul_ok; cbn [obind]; rewrite mulmx0.
- rewrite mul0mx => /matrixP /(_ 0 0); rewrite !mxE eqxx mulr1n => /eqP.
  by rewrite eq_sym oppr_eq0 oner_eq0.
Qed.
End Example.
Print Assumptions C94_moments.
Print Assumptions C94_solver.
Print Assumptions C94_cholesky.
Print Assumptions C94_samples.
Print Assumptions C94_failed.
Print Assumptions C94_lengths.
Print Assumptions C94_univariate.
Print Assumptions C94_clipped.
