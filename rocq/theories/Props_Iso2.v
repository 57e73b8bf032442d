(** C35: isolated propagation and private updates reproduce the centralized cross-covariance. *)
From Coq Require Import ZArith List Bool Arith Lia.
From mathcomp Require Import all_ssreflect all_algebra.
From Verif Require Import Outcome DoubleModel BufModel BufProofs HorizonModel HorizonProofs MeasModel HandlerModel Spec_Handler DMat KFModel Spec_Mat KFProofs BeliefModel EigenModel EigenProofs IsoModel IsoProofs IsoTrace.
Set Implicit Arguments. Unset Strict Implicit. Unset Printing Implicit Defensive.
Import GRing.Theory Num.Theory.
Local Open Scope outcome_scope.
Local Open Scope ring_scope.

Section Props.
Variable F : realFieldType.
Variable junk : forall n, 'M[F]_n -> 'M[F]_n.
Variable hor : double.
Notation dmat := (dmat F).
Notation belief := (belief F).
Notation inst := (inst belief dmat).
Notation dict := (dict belief dmat).

(** ** calls on different instances commute *)
(** if two sequences of local calls contain, for every instance, the same calls in the same order, and one of them runs through, then
    so does the other, and every instance ends up the same *)
Theorem C35_interleaving : forall (ops1 ops2 : list (nat * lcall F)) (d d1 : dict),
  (forall id, calls_of id ops1 = calls_of id ops2) -> drun junk hor d ops1 = Ok d1 ->
  exists d2, drun junk hor d ops2 = Ok d2 /\ forall id, d_find id d2 = d_find id d1.
Proof.
move=> ops1 ops2 d d1 E R1; have H1 := drun_find R1.
have [d2 R2] : exists d2, drun junk hor d ops2 = Ok d2.
  apply: drun_ok => [id c Hin G|id i G].
    have := H1 id; rewrite G E => -[N _].
    have : List.In c (calls_of id ops2).
      rewrite /calls_of; elim: ops2 Hin {E N} => [//|[k x] o IH] /= [[-> ->]|/IH H]; first by rewrite eqxx; left.
      by case: (k == id) => //=; right.
    by rewrite N.
  by have := H1 id; rewrite G E => -[i' [-> _]]; exists i'.
exists d2; split=> // id; have := H1 id; have := drun_find R2 id.
case: (d_find id d) => [i|]; last by case=> _ -> [_ ->].
by move=> [i2 [L2 ->]] [i1 [L1 ->]]; move: L1; rewrite E L2 => -[->].
Qed.

(** ** one instance: the factor is the product of the local steps *)
(** innovation covariance as the library computes it: symmetrised, plus eps on the diagonal *)
Definition S_of n k (H : 'M[F]_(k, n)) (R : 'M[F]_k) (Sg : 'M[F]_n) (eps : F) : 'M[F]_k :=
  2%:R^-1 *: (innov H R Sg + (innov H R Sg)^T) + eps%:M.
(** [local i0 t0 i t M]: successful and refused local calls lead from instance i0 at time t0 to i at time t; M is the product of
    the transition matrices and of the factors 1 - K H of the private updates, newest leftmost *)
Inductive local n (i0 : inst) (t0 : Z) : inst -> Z -> 'M[F]_n -> Prop :=
| L_start : local i0 t0 i0 t0 1%:M
| L_prop i t M (Phi Q : 'M[F]_n) t' i' : local i0 t0 i t M -> Z.lt t t' ->
    lexec junk hor (CProp (DM Phi) (DM Q) t t') i = Ok (i', true) -> local i0 t0 i' t' (Phi *m M)
| L_prop_bel i t M ba mean (Phi Q : 'M[F]_n) t' i' : local i0 t0 i t M -> Z.lt t t' ->
    lexec junk hor (CPropBel ba mean (DM Phi) (DM Q) t t') i = Ok (i', true) -> local i0 t0 i' t' (Phi *m M)
| L_store i t M bb (Phi : 'M[F]_n) t' i' : local i0 t0 i t M -> Z.lt t t' ->
    lexec junk hor (CStore bb (DM Phi) t t') i = Ok (i', true) -> local i0 t0 i' t' (Phi *m M)
| L_priv i t M k (H : 'M[F]_(k, n)) (R : 'M[F]_k) z cfg b (Sg : 'M[F]_n) i' : local i0 t0 i t M ->
    bel_at t i = Some b -> b_t b = t -> b_Sigma b = DM Sg -> S_of H R Sg (cfg_eps cfg) \in unitmx ->
    lexec junk hor (CPriv (DM H) (DM R) z t cfg) i = Ok (i', true) ->
    local i0 t0 i' t ((1%:M - Sg *m H^T *m invmx (S_of H R Sg (cfg_eps cfg)) *m H) *m M)
| L_refused i t M c i' : local i0 t0 i t M -> lexec junk hor c i = Ok (i', false) -> local i0 t0 i' t M.

(** the factors towards j are in time order and the newest is the one at t *)
Definition newest_at (j : nat) (t : Z) (i : inst) : Prop :=
  exists b, assoc j (i_ccf i) = Some b /\ ssorted b /\ get_latest_t b = Some t.

Lemma refused_same c (i i' : inst) : lexec junk hor c i = Ok (i', false) -> i' = i.
Proof.
case: c => [Phi Q ta tb|ba mean Phi Q ta tb|bb Phi ta tb|H R z t cfg] /=.
- rewrite /iso_propagate; case: get_at_t => [ba|]; last by case.
  case: check_dim_mean; last by case.
  case: dmul => [mb|e|e] //=; rewrite /iso_propagate_bel; case: kf_propagate_bel => [[l []]|e|e] //=; last by case.
  by case: iso_factors => [x|e|e] //=; case: iso_factors.
- by rewrite /iso_propagate_bel; case: kf_propagate_bel => [[l []]|e|e] //=; [case: iso_factors|case].
- by rewrite /iso_propagate_store; case: kf_propagate_store => [[l []]|e|e] //=; [case: iso_factors|case].
- rewrite /iso_private; case: get_at_t => [ba|]; last by case.
  case: dmul => [hm|e|e] //=; case: dsub => [r|e|e] //=; rewrite /iso_private_bel.
  case: correction_step => [res|e|e] //=; case: rejected => /=; first by case.
  by case: ccf_scale => [c|e|e] //=; case: bel_correct.
Qed.
Lemma local_newest n q j (i0 : inst) t0 (m0 : 'M[F]_(n, q)) i t (M : 'M[F]_n) :
  newest j t0 (DM m0) (i_ccf i0) -> local i0 t0 i t M -> newest j t (DM (M *m m0)) (i_ccf i).
Proof.
move=> N0; elim=> {i t M} [|i t M Phi Q t' i' _ IH L E|i t M ba mean Phi Q t' i' _ IH L E|i t M bb Phi t' i' _ IH L E|
  i t M k H R z cfg b Sg i' _ IH G T ES uS E|i t M c i' _ IH /refused_same -> //].
- by rewrite mul1mx.
- by apply: (call_prop junk (E : iso_propagate _ _ _ _ _ _ = _) IH L); rewrite dmul_ok mulmxA.
- by apply: (call_prop_bel (E : iso_propagate_bel _ _ _ _ _ _ _ _ = _) IH (Z.lt_le_incl _ _ L)); rewrite dmul_ok mulmxA.
- by apply: (call_store (E : iso_propagate_store _ _ _ _ _ _ = _) IH (Z.lt_le_incl _ _ L)); rewrite dmul_ok mulmxA.
- apply: (call_priv G T ES E IH); rewrite dmul_ok mulmxA.
  have X : step_S H R Sg cfg = S_of H R Sg (cfg_eps cfg) by [].
  by rewrite /step_U /step_K /inv_or_junk X uS.
Qed.
Theorem C35_factor : forall n q j (i0 : inst) t0 (m0 : 'M[F]_(n, q)) i t (M : 'M[F]_n),
  newest_at j t0 i0 -> ccf_at j t0 i0 = Some (DM m0) -> local i0 t0 i t M ->
  newest_at j t i /\ ccf_at j t i = Some (DM (M *m m0)).
Proof.
move=> n q j i0 t0 m0 i t M [b [A [S L]]] C LO.
have N0 : newest j t0 (DM m0) (i_ccf i0).
  exists b; rewrite find_assoc; split=> //; split=> //.
  move: L; rewrite /get_latest_t; case E: (get_latest b) => [[k v]|] //= [Ek]; subst k.
  by have := latest_get_at S E; move: C; rewrite /ccf_at A => -> [->].
have N := local_newest N0 LO.
split; last by rewrite -fac_ccf_at; exact: newest_fac.
by case: N => b' [G' [S' L']]; exists b'; rewrite -find_assoc /get_latest_t L'.
Qed.

Lemma ok_empty n m (S0 : 'M[F]_(n, m)) : Ok (dempty F) = Ok (DM S0) -> n = 0%N.
Proof. by move=> H; have := f_equal (fun x => match x with Ok A => drows A | _ => 0%N end) H. Qed.
(** ** two instances: the reassembled cross-covariance *)
(** the library stores S_IJ as two factors; whatever they are, after local steps on I and J up to a common time t the cross-covariance
    read from the handler is M_I S_IJ M_J^T *)
Theorem C35_cross : forall n m (I J : nat) (d d' : dict) (i0 j0 i j : inst) t0 t (S0 : 'M[F]_(n, m)) (MI : 'M[F]_n) (MJ : 'M[F]_m),
  d_find I d = Some i0 -> d_find J d = Some j0 -> (0 < n)%N -> (0 < m)%N ->
  get_Sigma_IJ I J t0 d = Ok (DM S0) -> newest_at J t0 i0 -> newest_at I t0 j0 ->
  local i0 t0 i t MI -> local j0 t0 j t MJ -> d_find I d' = Some i -> d_find J d' = Some j ->
  get_Sigma_IJ I J t d' = Ok (DM (MI *m S0 *m MJ^T)).
Proof.
move=> n m I J d d' i0 j0 i j t0 t S0 MI MJ GI GJ n0 m0 GS NI NJ LI LJ GI' GJ'.
move: GS; rewrite (get_SigmaE _ GI GJ) (get_SigmaE _ GI' GJ') /fac_of GI GJ GI' GJ'.
case CI: (ccf_at J t0 i0) => [fi|] /=; last by move=> /ok_empty E; exfalso; move: n0; rewrite E.
case CJ: (ccf_at I t0 j0) => [fj|] /=; last by rewrite andbF => /ok_empty E; exfalso; move: n0; rewrite E.
case: ifP => [/andP [z1 z2]|_]; last by move=> /ok_empty E; exfalso; move: n0; rewrite E.
case: fi CI z1 => ri ci fi CI z1; case: fj CJ z2 => rj cj fj CJ z2; rewrite /dtr /=.
have ok_cc : forall X : dmat, (if (I <? J)%nat then dmul (DM fi) (DM fj^T) else let! s := dmul (DM fj) (DM fi^T) in Ok (dtr s)) = Ok X -> ci = cj.
  move=> X; case: Nat.ltb; rewrite /dmul; case: eqP => //= e _; by [].
move=> GS; have ec := ok_cc _ GS; subst cj.
have ES : DM S0 = DM (fi *m fj^T).
  by move: GS; case: Nat.ltb; rewrite dmul_ok /= => GS; rewrite -(Ok_inj GS) // /dtr /= trmx_mul trmxK.
have En : ri = n by have := f_equal (@drows F) ES.
have Em : rj = m by have := f_equal (@dcols F) ES.
subst ri rj; have {}ES := DM_inj ES.
have [_ ->] := C35_factor NI CI LI; have [_ ->] := C35_factor NJ CJ LJ.
rewrite /= /dsize /= in z1 z2 *; rewrite z1 z2 /= !dmul_ok /= /dtr /=.
by case: Nat.ltb; rewrite /= ?ES ?trmx_mul ?trmxK !mulmxA.
Qed.

(** ** what a centralized filter does in one such step *)
(** the joint covariance of the pair *)
Definition pair_cov n m (Sii : 'M[F]_n) (Sij : 'M[F]_(n, m)) (Sjj : 'M[F]_m) : 'M[F]_(n + m) := block_mx Sii Sij Sij^T Sjj.
(** propagating I only in the joint filter: the cross block becomes Phi S_ij, the blocks of I and J as in the isolated filters *)
Theorem C35_central_propagation : forall n m (Sii : 'M[F]_n) (Sij : 'M[F]_(n, m)) (Sjj : 'M[F]_m) (Phi Q : 'M[F]_n) eps,
  covariance_propagation (DM (pair_cov Sii Sij Sjj)) (DM (block_mx Phi 0 0 (1%:M : 'M_m))) (DM (block_mx Q 0 0 (0 : 'M_m))) false eps =
  Ok (DM (pair_cov (Phi *m Sii *m Phi^T + Q) (Phi *m Sij) Sjj)).
Proof.
move=> n m Sii Sij Sjj Phi Q eps; rewrite cov_prop_ok; congr (Ok (DM _)).
rewrite /pair_cov tr_block_mx !mulmx_block !(mul0mx, mulmx0, mul1mx, mulmx1, addr0, add0r, trmx1, trmx0) add_block_mx !addr0.
by rewrite trmx_mul.
Qed.
(** a private measurement of I processed by the joint filter: the cross block of the result is (1 - K H) S_ij with the isolated
    filter's own gain, and I's mean correction and covariance are those of the isolated filter *)
Theorem C35_central_private : forall n m k (Sii : 'M[F]_n) (Sij : 'M[F]_(n, m)) (Sjj : 'M[F]_m) (H : 'M[F]_(k, n)) (R : 'M[F]_k) (r : 'cV[F]_k) cfg,
  symmetric Sii -> symmetric Sjj -> symmetric R -> S_of H R Sii (cfg_eps cfg) \in unitmx ->
  use_Josephs_form cfg = false \/ cfg_eps cfg = 0 ->
  exists rejected central_S central_dx isolated_S isolated_dx,
  let U := 1%:M - Sii *m H^T *m invmx (S_of H R Sii (cfg_eps cfg)) *m H in
  correction_step junk (DM (row_mx H (0 : 'M_(k, m)))) (DM R) (DM r) (DM (pair_cov Sii Sij Sjj)) cfg = 
    (let! rej := rejected in Ok (CorrRes (DM central_S) (DM (central_dx : 'cV_(n + m))) (DM (1%:M - (pair_cov Sii Sij Sjj) *m (row_mx H 0)^T *m invmx (S_of H R Sii (cfg_eps cfg)) *m row_mx H 0)) rej)) /\
  correction_step junk (DM H) (DM R) (DM r) (DM Sii) cfg = (let! rej := rejected in Ok (CorrRes (DM isolated_S) (DM (isolated_dx : 'cV_n)) (DM U) rej)) /\
  ursubmx central_S = U *m Sij /\ dlsubmx central_S = (U *m Sij)^T /\ ulsubmx central_S = isolated_S /\ usubmx central_dx = isolated_dx.
Proof.
move=> n m k Sii Sij Sjj H R r cfg sI sJ sR uS HJ.
set P := pair_cov Sii Sij Sjj; set H' := row_mx H 0.
have EI : innov H' R P = innov H R Sii.
  by rewrite /innov /H' /P /pair_cov tr_row_mx trmx0 mul_row_block !mul0mx !addr0 mul_row_col mulmx0 addr0.
have ES : step_S H' R P cfg = S_of H R Sii (cfg_eps cfg) by rewrite /step_S EI.
have ES2 : step_S H R Sii cfg = S_of H R Sii (cfg_eps cfg) by [].
set V := invmx (S_of H R Sii (cfg_eps cfg)) in uS *.
have sV : V^T = V.
  by rewrite /V trmx_inv; congr invmx; rewrite -ES2; exact: stab_sym.
have EK : step_K junk H' R P cfg = col_mx (Sii *m H^T *m V) (Sij^T *m H^T *m V).
  rewrite /step_K ES /inv_or_junk uS -/V /P /pair_cov /H' tr_row_mx trmx0 mul_block_col !mulmx0 !addr0.
  by rewrite mul_col_mx.
have EK2 : step_K junk H R Sii cfg = Sii *m H^T *m V by rewrite /step_K ES2 /inv_or_junk uS.
set U := 1%:M - Sii *m H^T *m V *m H.
have EU2 : step_U junk H R Sii cfg = U by rewrite /step_U EK2.
have EU : step_U junk H' R P cfg = block_mx U 0 (- (Sij^T *m H^T *m V *m H)) 1%:M.
  rewrite /step_U EK /H' mul_col_row !mulmx0 [X in X - _](_ : _ = block_mx 1%:M 0 0 1%:M); last by rewrite -scalar_mx_block.
  by rewrite opp_block_mx add_block_mx !oppr0 !addr0 add0r.
(* the standard form of the joint update *)
have EP : step_U junk H' R P cfg *m P = block_mx (U *m Sii) (U *m Sij) (U *m Sij)^T (Sjj - Sij^T *m H^T *m V *m H *m Sij).
  rewrite EU /P /pair_cov mulmx_block !mul0mx !addr0 !mul1mx mulNmx [X in block_mx _ _ X _](_ : _ = (U *m Sij)^T); last first.
    rewrite /U mulmxBl mul1mx linearB /= !trmx_mul sV sI trmxK addrC.
    by rewrite !mulmxA.
  by rewrite mulNmx addrC.
have symU : symmetric (U *m Sii).
  by rewrite /symmetric /U mulmxBl mul1mx linearB /= !trmx_mul sV sI trmxK !mulmxA.
have symJ : symmetric (Sjj - Sij^T *m H^T *m V *m H *m Sij).
  by rewrite /symmetric linearB /= !trmx_mul sV sJ !trmxK !mulmxA.
have symP : symmetric P by rewrite /symmetric /P /pair_cov tr_block_mx sI sJ trmxK.
(* with eps = 0 the Joseph form coincides *)
have JP : step_P junk H' R P cfg = step_U junk H' R P cfg *m P.
  case: HJ => [Hj|e0]; first by rewrite /step_P Hj.
  have uI : innov H' R P \in unitmx.
    by rewrite EI; move: uS; rewrite -ES2 /step_S e0 raddf0 addr0 symm_id //; exact: innov_sym.
  rewrite /step_P /step_U; case: use_Josephs_form => //.
  by rewrite (step_K_exact junk symP sR e0 uI); exact: joseph_standard.
have JI : step_P junk H R Sii cfg = U *m Sii.
  case: HJ => [Hj|e0]; first by rewrite /step_P Hj EU2.
  have uI : innov H R Sii \in unitmx.
    by move: uS; rewrite -ES2 /step_S e0 raddf0 addr0 symm_id //; exact: innov_sym.
  rewrite -EU2 /step_P /step_U; case: use_Josephs_form => //.
  by rewrite (step_K_exact junk sI sR e0 uI); exact: joseph_standard.
have symE : symmetric (block_mx (U *m Sii) (U *m Sij) (U *m Sij)^T (Sjj - Sij^T *m H^T *m V *m H *m Sij)).
  by rewrite /symmetric tr_block_mx symU symJ trmxK.
have symC q (e : F) : symmetric (e%:M : 'M[F]_q) by rewrite /symmetric tr_scalar_mx.
exists (step_gate junk H R r Sii cfg), (step_final junk H' R P cfg), (step_K junk H' R P cfg *m r), (step_final junk H R Sii cfg), (step_K junk H R Sii cfg *m r).
split.
  rewrite correction_step_ok /step_gate ES ES2.
  have -> // : step_U junk H' R P cfg = 1%:M - P *m H'^T *m V *m H' by rewrite /step_U /step_K ES /inv_or_junk uS.
split; first by rewrite correction_step_ok EU2.
rewrite /step_final JP JI EP symm_id ?symm_id //; case: nummerical_stabilization; rewrite ?symm_id //; try (exact: symD).
  have -> : (cfg_eps cfg)%:M = block_mx ((cfg_eps cfg)%:M : 'M_n) 0 0 ((cfg_eps cfg)%:M : 'M_m) by rewrite -scalar_mx_block.
  rewrite add_block_mx !addr0 block_mxKur block_mxKdl block_mxKul EK EK2; split=> //; split=> //; split=> //.
  by rewrite mul_col_mx col_mxKu.
by rewrite block_mxKur block_mxKdl block_mxKul EK EK2; split=> //; split=> //; split=> //; rewrite mul_col_mx col_mxKu.
Qed.
End Props.
(** a propagation by 2 followed by a private update on an instance that already has a factor towards instance 7 *)
Section Example.
Let Q := rat_realFieldType.
Let jk : forall n, 'M[Q]_n -> 'M[Q]_n := fun n A => A.
Let c1 (x : Q) : 'M[Q]_1 := x%:M.
Let cfg0 := CorrCfg false true false (d_of_Z 0) (0 : Q).
Let i0 : inst (belief Q) (dmat Q) := Inst true [:: (Z0, Bel (DM (c1 1)) (DM (c1 1)) Z0 false false true)] [:: (7%N, [:: (Z0, DM (c1 3%:R))])].
Example C35_example : exists i (M : 'M[Q]_1), local jk (d_of_Z 1) i0 Z0 i (Zpos 5) M /\ newest_at 7 Z0 i0 /\ M != 1%:M /\
  ccf_at 7 (Zpos 5) i = Some (DM (M *m c1 3%:R)).
Proof.
have P : exists i, lexec jk (d_of_Z 1) (CProp (DM (c1 2%:R)) (DM (0 : 'M_1)) Z0 (Zpos 5)) i0 = Ok (i, true) /\
   bel_at (Zpos 5) i = Some (Bel (DM (c1 2%:R *m c1 1)) (DM (c1 2%:R *m c1 1 *m (c1 2%:R)^T + 0)) (Zpos 5) false false true).
  rewrite /lexec /iso_propagate /= /check_dim_mean /= dmul_ok /= /iso_propagate_bel /kf_propagate_bel /check_dim_phi_q /check_dim_phi /=.
  rewrite cov_prop_ok /= /iso_factors /= /get_at_t /= dmul_ok /= /iso_check_horizon /= /check_horizon_restricted /=.
  rewrite /get_at_t /= dmul_ok /=.
  by eexists; split; [reflexivity|].
case: P => i1 [E1 B1].
have L1 : local jk (d_of_Z 1) i0 Z0 i1 (Zpos 5) (c1 2%:R *m 1%:M).
  by apply: (@L_prop _ _ _ 1 i0 Z0 i0 Z0 1%:M (c1 2%:R) 0 (Zpos 5) i1) => //; exact: L_start.
set Sg := c1 2%:R *m c1 1 *m (c1 2%:R)^T + 0 in B1.
have ESg : Sg = c1 4%:R by rewrite /Sg /c1 tr_scalar_mx addr0 -!scalar_mxM; congr (_%:M).
have SE : S_of (c1 1) (c1 12%:R) Sg 0 = c1 16%:R.
  rewrite /S_of ESg; apply/matrixP => i j; rewrite !ord1 /c1 /innov /symm /step_S.
  rewrite !tr_scalar_mx -!scalar_mxM !mxE /= !mulr1n; apply/eqP; by vm_compute.
have uS : S_of (c1 1) (c1 12%:R) Sg 0 \in unitmx by rewrite SE; exact: unit_scalar.
have P2 : exists i2, lexec jk (d_of_Z 1) (CPriv (DM (c1 1)) (DM (c1 12%:R)) (DM (c1 1)) (Zpos 5) cfg0) i1 = Ok (i2, true).
  move: B1; rewrite /bel_at /lexec /iso_private => -> /=.
  rewrite dmul_ok /= dsub_ok /= /iso_private_bel /= correction_step_ok /step_gate /=.
  have [c' ->] : exists c', ccf_scale (Zpos 5) (Zpos 5) (DM (step_U jk (c1 1) (c1 12%:R) Sg cfg0)) (i_ccf i1) = Ok c'.
    move: E1; rewrite /lexec /iso_propagate /= /check_dim_mean /= dmul_ok /= /iso_propagate_bel /kf_propagate_bel /check_dim_phi_q /check_dim_phi /=.
    rewrite cov_prop_ok /= /iso_factors /= /get_at_t /= dmul_ok /= /iso_check_horizon /= /check_horizon_restricted /=.
    rewrite /get_at_t /= dmul_ok /= => -[<-] /=.
    by rewrite /get_at_t /= dmul_ok /=; eexists.
  by rewrite /= /bel_correct /bel_correct_mean /= dadd_ok /=; eexists.
case: P2 => i2 E2.
have L2 := L_priv L1 B1 erefl erefl (uS : S_of (c1 1) (c1 12%:R) Sg (cfg_eps cfg0) \in unitmx) E2.
exists i2; eexists; split; first exact: L2.
have N0 : newest_at 7 Z0 i0 by eexists; split; [reflexivity|split=> //; constructor; constructor].
split=> //; split; last by have [_ ->] := C35_factor N0 (erefl _ : ccf_at 7 Z0 i0 = Some (DM (c1 3%:R))) L2.
have -> : cfg_eps cfg0 = 0 by [].
rewrite SE ESg /c1 mulmx1 tr_scalar_mx invmx_scalar -!scalar_mxM -raddfB /= -scalar_mxM.
apply/eqP => /matrixP /(_ ord0 ord0); rewrite !mxE /=; apply/eqP; by vm_compute.
Qed.
End Example.
Print Assumptions C35_interleaving.
Print Assumptions C35_cross.
Print Assumptions C35_central_propagation.
Print Assumptions C35_central_private.
