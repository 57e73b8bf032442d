(** C39: the Schmidt-Kalman update leaves the non-essential states alone. *)
From Coq Require Import ZArith List Bool Arith Lia.
From mathcomp Require Import all_ssreflect all_algebra.
From Verif Require Import Outcome DoubleModel BufModel BufProofs HorizonModel MeasModel HandlerModel Spec_Handler DMat KFModel Spec_Mat KFProofs BeliefModel EigenModel EigenProofs IsoModel IsoProofs Spec_Joint JointProofs Props_Joint Props_Joint2 SchmidtModel Spec_Schmidt SchmidtProofs.
Set Implicit Arguments. Unset Strict Implicit. Unset Printing Implicit Defensive.
Import GRing.Theory Num.Theory.
Local Open Scope outcome_scope.
Local Open Scope ring_scope.

Section Blocks.
Variable F : realFieldType.
Notation dmat := (dmat F).
Notation belief := (belief F).
Variable bs : list (nat * belief).
Notation ds := (sizes bs).
Notation N := (sumn ds).
Lemma ess_at k i b a : List.nth_error bs k = Some (i, b) -> (a < dim_k ds k)%N -> ess_row bs (off ds k + a) = b_ess b.
Proof.
move=> En La; have [_ [Db _]] := dim_rows En; have /nth_cut [pre [post [Ee Sz]]] := En.
by rewrite -Sz; apply: (ess_row_pre Ee); rewrite Db.
Qed.
Lemma blk_same (A B : 'M[F]_N) k l i j bi bj : List.nth_error bs k = Some (i, bi) -> List.nth_error bs l = Some (j, bj) ->
  (forall x y : 'I_N, ess_row bs x = b_ess bi -> ess_row bs y = b_ess bj -> A x y = B x y) -> blk ds (DM A) k l = blk ds (DM B) k l.
Proof.
move=> Ek El H; have [_ [_ [_ [_ Lk]]]] := dim_rows Ek; have [_ [_ [_ [_ Ll]]]] := dim_rows El.
rewrite -(dims_size bs) in Lk; rewrite -(dims_size bs) in Ll.
rewrite !blk_ok //; congr (Ok (DM _)); apply/matrixP => a b; rewrite !mxE.
have Ha : (off ds k + a < N)%N by apply: leq_trans (off_fit Lk); rewrite ltn_add2l.
have Hb : (off ds l + b < N)%N by apply: leq_trans (off_fit Ll); rewrite ltn_add2l.
rewrite !entry_in; apply: H => /=; [exact: ess_at Ek _|exact: ess_at El _].
Qed.
End Blocks.

(** ** the joint covariance that the Schmidt gain yields *)
Section C39.
Variable F : realFieldType.
Variable junk : forall n, 'M[F]_n -> 'M[F]_n.
Notation dmat := (dmat F).
Notation belief := (belief F).
Notation dict := (dict belief dmat).
Notation inst := (inst belief dmat).
Variable is_psd : dmat -> bool.
Variable nearest : dmat -> dmat.
Variable predict : nat -> Z -> inst -> outcome (inst * bool).
Variable eps0 : F.
Hypothesis nearest_dims : forall n (A : 'M[F]_n), exists B : 'M[F]_n, nearest (DM A) = DM B.

(** the covariance for gain L = the rows of K of the essential participants: symmetric and positive semidefinite; between non-essential
    participants the old one; between essential ones that of the full Kalman gain; in between that of the full Kalman update *)
Theorem C39_covariance : forall (bs : list (nat * belief)) m (H : 'M[F]_(m, sumn (sizes bs))) (R : 'M[F]_m) (P : 'M[F]_(sumn (sizes bs))) (K : 'M[F]_(sumn (sizes bs), m)),
  symmetric P -> symmetric R -> let S := gain_cov H R P (schmidt bs K) in let ds := sizes bs in
  symmetric S /\ (psd P -> psd R -> psd S) /\
  forall k l i j bi bj, List.nth_error bs k = Some (i, bi) -> List.nth_error bs l = Some (j, bj) ->
    blk ds (DM S) k l = match b_ess bi, b_ess bj with
      | true, true => blk ds (DM (gain_cov H R P K)) k l
      | false, false => blk ds (DM P) k l
      | true, false => blk ds (DM ((1%:M - K *m H) *m P)) k l
      | false, true => blk ds (DM ((1%:M - K *m H) *m P)^T) k l end.
Proof.
move=> bs m H R P K sP sR S ds; have sS : symmetric S by exact: gain_cov_sym.
split=> //; split; first exact: gain_cov_psd.
have SK : S = symm (gain_cov H R P (schmidt bs K)) by rewrite symm_id.
move=> k l i j bi bj Ek El; case Ei: (b_ess bi); case Ej: (b_ess bj); apply: (blk_same Ek El) => x y; rewrite ?Ei ?Ej => Hx Hy.
- by rewrite /S; apply: gain_cov_rows; rewrite schmidt_row ?Hx ?Hy.
- by rewrite SK; exact: cross_cov.
- rewrite [RHS]mxE -(cross_cov H sP sR) // -SK; by rewrite -{1}sS mxE.
- by rewrite SK; exact: nuisance_cov.
Qed.

(** what the handler shows after the update with joint covariance S and joint correction dx *)
Definition schmidt_distributed (bs : list (nat * belief)) t (d d' : dict) N (S : 'M[F]_N) (dx : 'cV[F]_N) (ds : seq nat) : Prop :=
  (* means and covariances: corrected if essential, untouched otherwise *)
  (forall k i b, List.nth_error bs k = Some (i, b) -> if b_ess b
     then exists b' v, bel_of d' i t = Some b' /\
       dblock (DM dx) (off ds k) 0 (dim_k ds k) 1 = Ok v /\ dadd (b_mean b) v = Ok (b_mean b') /\ blk ds (DM S) k k = Ok (b_Sigma b') /\
       b_t b' = b_t b /\ b_fixed b' = b_fixed b /\ b_fej b' = b_fej b /\ b_ess b' = b_ess b
     else bel_of d' i t = Some b) /\
  (* cross-covariances among the participants *)
  (forall k l i j bi bj, List.nth_error bs k = Some (i, bi) -> List.nth_error bs l = Some (j, bj) -> (k < l)%N ->
     get_Sigma_IJ i j t d' = blk ds (DM S) k l /\ get_Sigma_IJ j i t d' = (let! B := blk ds (DM S) k l in Ok (dtr B))) /\
  (* cross-covariances with others: multiplied by (new covariance)(old covariance)^-1 of the participant *)
  (forall k i b j X, List.nth_error bs k = Some (i, b) -> ~ List.In j (List.map fst bs) -> get_Sigma_IJ i j t d = Ok X -> dsize X <> 0%N ->
     exists B iv L, blk ds (DM S) k k = Ok B /\ dinv junk (b_Sigma b) = Ok iv /\ dmul B iv = Ok L /\ get_Sigma_IJ i j t d' = dmul L X) /\
  (* nothing else *)
  (forall id, ~ List.In id (List.map fst bs) -> d_find id d' = d_find id d) /\
  (forall id s, s <> t -> bel_of d' id s = bel_of d id s).

Section Handler.
Variables (dH : list (nat * dmat)) (bs : list (nat * belief)) (m : nat) (t : Z) (d : dict).
Hypothesis P : participants dH bs m t d.
Notation ds := (sizes bs).
Lemma nodup_ids : List.NoDup (List.map fst bs).
Proof.
have := p_asc P; elim: (bs) => [|[i b] l IH] A; first by constructor.
constructor; last by apply: IH => k k' i1 i2 b1 b2 E1 E2 L; apply: (A k.+1 k'.+1 i1 i2 b1 b2).
move=> /List.in_map_iff [[j bj] [/= Ej Hin]]; have [k Ek] := List.In_nth_error _ _ Hin.
by have := A 0%N k.+1 i j b bj erefl Ek erefl; rewrite Ej ltnn.
Qed.
Lemma essential_in k i b : List.nth_error bs k = Some (i, b) -> essential bs i = b_ess b.
Proof.
move=> Ek; have Hk := List.nth_error_In _ _ Ek; apply/idP/idP => [/List.existsb_exists [[j bj] [Hin /= /andP [/Nat.eqb_eq Ej Es]]]|Es].
  subst j; have [l El] := List.In_nth_error _ _ Hin.
  case: (ltngtP k l) => L; last by move: El; rewrite -L Ek => -[->].
    by have := p_asc P Ek El L; rewrite ltnn.
  by have := p_asc P El Ek L; rewrite ltnn.
by apply/List.existsb_exists; exists (i, b); rewrite /= Nat.eqb_refl.
Qed.
Lemma find_keepc (d1 d2 : dict) : keepc d1 d2 -> forall i j, get_Sigma_IJ i j t d2 = get_Sigma_IJ i j t d1.
Proof.
move=> K i j; have Ki := K i; have Kj := K j; rewrite /get_Sigma_IJ /at_inst.
move: Ki Kj; case: (d_find i d1) => [i1|]; case: (d_find i d2) => [i2|] //= [->].
by case: (d_find j d1) => [j1|]; case: (d_find j d2) => [j2|] //= [->].
Qed.
Lemma bel_keepb (d1 d2 : dict) : keepb d1 d2 -> forall i s, bel_of d2 i s = bel_of d1 i s.
Proof. by move=> K i s; rewrite /bel_of /bel_at; have := K i; case: (d_find i d1) => [i1|]; case: (d_find i d2) => [i2|] //= [->]. Qed.
Lemma skf_finish_ok (Sf : 'M[F]_(sumn ds)) (dx : 'cV[F]_(sumn ds)) U : exists (S : 'M[F]_(sumn ds)) d',
  DM S = (if is_psd (DM Sf) then DM Sf else nearest (DM Sf)) /\
  skf_finish junk is_psd nearest (CorrRes (DM Sf) (DM dx) U false) bs t d = Ok (d', true) /\ schmidt_distributed bs t d d' S dx ds.
Proof.
have [X EX] : exists X : 'M[F]_(sumn ds), DM X = (if is_psd (DM Sf) then DM Sf else nearest (DM Sf)).
  by case: is_psd; [exists Sf|have [B EB] := nearest_dims Sf; exists B].
have [dA [EW [D1 [D2 D3]]]] := dist junk P X dx; have NW := near_write EW.
move: (EW); rewrite /write_joint; case E1: apply_corrections => [d1|//|//] /=; case E2: split_right_upper => [d2|//|//] /= E3.
have Nf i b : List.In (i, b) bs -> b_fixed b = false by move=> /(p_bel P) [].
have [dB [EB [R1 [R2 R3]]]] := skf_beliefs Nf nodup_ids E3.
have K12 : keepb d d2 := keepb_trans (keepb_corr E1) (keepb_rows E2).
have KAB : keepc dA dB.
  by move=> id; rewrite R1; case: essential => //; rewrite R3.
exists X, dB; split=> //; split.
  by rewrite /skf_finish /= -EX E1 /= E2 /= EB.
split; last split; last split; last split.
- move=> k i b Ek; have [b' [v [Eb' Rest]]] := D1 _ _ _ Ek; case Es: (b_ess b).
    by exists b', v; rewrite /bel_of R1 (essential_in Ek) Es; split=> //; rewrite -Es.
  have [_ <-] := p_bel P (List.nth_error_In _ _ Ek).
  by rewrite -(bel_keepb K12) /bel_of R1 (essential_in Ek) Es.
- by move=> k l i j bi bj Ek El L; rewrite !(find_keepc KAB); exact: D2 Ek El L.
- move=> k i b j Y Ek Nj EY Ys; rewrite (find_keepc KAB); exact: D3 Ek Nj EY Ys.
- move=> id Nid; rewrite R1 (ess_notin Nid) -(R2 _ Nid); have [NA _] := NW id; exact: NA.
- move=> id s Ns; rewrite /bel_of R1; case: essential; last by have := bel_keepb K12 id s.
  rewrite -/(bel_of dA id s) -/(bel_of d id s); have [_ [N1 N2]] := NW id; rewrite /bel_of.
  case G: (d_find id d) => [i|]; last by rewrite N2.
  by have [i' [-> [_ [Hb _]]]] := N1 _ G; exact: Hb.
Qed.
(** what the Schmidt handler must do with the stacked measurement matrix Hs, covariance Ps and residual r: the innovation covariance is
    Hs Ps Hs^T + R + eps I, K the Kalman gain for it, and the gate the chi-square test of r *)
Definition accepted (Sm : 'M[F]_m) (r : 'cV[F]_m) (cfg : corr_cfg F) : outcome bool :=
  if use_outlier_rejection cfg then check_NIS junk (DM Sm) (DM r) (confidence_interval cfg) else Ok true.
Definition as_schmidt N (Hs : 'M[F]_(m, N)) (Ps : 'M[F]_N) (R : 'M[F]_m) (r : 'cV[F]_m) (cfg : corr_cfg F) (seen : outcome (dict * bool)) : Prop :=
  let Sm := innov Hs R Ps + (cfg_eps cfg)%:M in
  Sm \in unitmx -> let K := Ps *m Hs^T *m invmx Sm in
  match accepted Sm r cfg with
  | Ok false => seen = Ok (d, false)
  | Ok true => let Sf := gain_cov Hs R Ps (schmidt bs K) in
      exists (S : 'M[F]_N) d', DM S = (if is_psd (DM Sf) then DM Sf else nearest (DM Sf)) /\
        seen = Ok (d', true) /\ schmidt_distributed bs t d d' S (schmidt bs K *m r) ds
  | Abort e => seen = Abort e
  | UB e => seen = UB e
  end.
Lemma schmidt_core (Hs : 'M[F]_(m, sumn ds)) (Ps : 'M[F]_(sumn ds)) (R : 'M[F]_m) (r : 'cV[F]_m) cfg : symmetric Ps -> symmetric R ->
  stack_Sigma bs t d = Ok (DM Ps) ->
  as_schmidt Hs Ps R r cfg (let! res := skf_correction_step junk t (DM Hs) (DM R) (DM r) bs cfg d in skf_finish junk is_psd nearest res bs t d).
Proof.
move=> sP sR ES; rewrite /as_schmidt => uS; rewrite (skf_step_ok junk Hs R r cfg ES).
have sI : symmetric (innov Hs R Ps) by exact: innov_sym.
have ESm : step_S Hs R Ps cfg = innov Hs R Ps + (cfg_eps cfg)%:M by rewrite /step_S symm_id.
have EK : step_K junk Hs R Ps cfg = Ps *m Hs^T *m invmx (innov Hs R Ps + (cfg_eps cfg)%:M) by rewrite /step_K ESm /inv_or_junk uS.
rewrite EK -ESm /step_gate /accepted; set K := _ *m invmx _.
rewrite symm_id; last exact: gain_cov_sym.
case: use_outlier_rejection => /=; first case: check_NIS => [[]|e|e] //=; exact: skf_finish_ok.
Qed.
Lemma bs_some A (x y : A) : (if bs is nil then x else y) = y.
Proof. by case: (bs) (p_some P). Qed.
Theorem C39_residual : forall (R : 'M[F]_m) (r : 'cV[F]_m) cfg, symmetric R -> exists (Hs : 'M[F]_(m, sumn ds)) (Ps : 'M[F]_(sumn ds)),
  stacked_H dH Hs ds /\ stacked_cov bs t d Ps ds /\
  as_schmidt Hs Ps R r cfg (skf_observation_r junk is_psd nearest predict dH (DM R) (DM r) t cfg d).
Proof.
move=> R r cfg sR; have [Hs [EH SH]] := H_ok P; have [Ps [EP SP]] := cov_ok P; exists Hs, Ps; split=> //; split=> //.
rewrite /skf_observation_r EH /= (bel_ok predict P) /= bs_some EP /=; apply: schmidt_core => //; by case: SP.
Qed.
Theorem C39_measurement : forall (R : 'M[F]_m) (z : 'cV[F]_m) cfg, symmetric R -> exists (Hs : 'M[F]_(m, sumn ds)) (mu : 'cV[F]_(sumn ds)) (Ps : 'M[F]_(sumn ds)),
  stacked_H dH Hs ds /\ stacked_mean bs mu ds /\ stacked_cov bs t d Ps ds /\
  as_schmidt Hs Ps R (z - Hs *m mu) cfg (skf_observation_z junk is_psd nearest predict eps0 dH (DM z) (DM R) t cfg d).
Proof.
move=> R z cfg sR; have [Hs [EH SH]] := H_ok P; have [Ps [EP SP]] := cov_ok P; have [mu [EM SM]] := mean_ok P.
exists Hs, mu, Ps; split=> //; split=> //; split=> //.
rewrite /skf_observation_z EH /= (bel_ok predict P) /= bs_some EM /= EP /= dmul_ok /= dsub_ok /= stabilize_ok /=.
apply: schmidt_core => //; by case: SP.
Qed.
(** with a measurement function: the same, except that the answer is "processed" also if the residual was rejected *)
Theorem C39_function : forall (h : list (nat * belief) -> list nat -> dmat -> list (nat * dmat) * dmat) (R : 'M[F]_m) (z : dmat) (r : 'cV[F]_m) cfg,
  symmetric R -> h bs (List.map fst bs) z = (dH, DM r) -> exists (Hs : 'M[F]_(m, sumn ds)) (Ps : 'M[F]_(sumn ds)) seen,
  stacked_H dH Hs ds /\ stacked_cov bs t d Ps ds /\ as_schmidt Hs Ps R r cfg seen /\
  skf_observation_h junk is_psd nearest predict eps0 h (DM R) z (List.map fst bs) t cfg d = (let! (d', _) := seen in Ok (d', true)).
Proof.
move=> h R z r cfg sR Eh; have [Hs [EH SH]] := H_ok P; have [Ps [EP SP]] := cov_ok P; have [mu [EM SM]] := mean_ok P.
exists Hs, Ps; eexists; split=> //; split=> //; split; first by apply: (@schmidt_core Hs Ps R r cfg) => //; case: SP.
rewrite /skf_observation_h; have := bel_ok predict P; rewrite (p_ids P) => -> /=; rewrite bs_some EM /= EP /= Eh.
have -> : List.filter (fun e => ~~ List.existsb (fun e0 => (fst e0 =? fst e)%nat && b_fixed (snd e0)) bs) dH = dH.
  have X id : List.existsb (fun e0 => (fst e0 =? id)%nat && b_fixed (snd e0)) bs = false.
    apply/negP => /List.existsb_exists [[j bj] [Hin /= /andP [_ Fx]]]; have [Ff _] := p_bel P Hin; by rewrite Ff in Fx.
  by elim: (dH) => [//|e l IH] /=; rewrite X /= IH.
by rewrite EH /= stabilize_ok /=; case: skf_correction_step.
Qed.

(** what a user of the filter sees of the non-essential participants: if the repair accepts every covariance matrix, mean and covariance
    stay, and so do the cross-covariances between them, and - for invertible covariance - with all other instances *)
Theorem C39_nuisance_unchanged : forall (R : 'M[F]_m) (r : 'cV[F]_m) cfg d',
  symmetric R -> psd R -> 0 < cfg_eps cfg -> (forall n (A : 'M[F]_n), symmetric A -> psd A -> is_psd (DM A)) ->
  (forall Ps : 'M[F]_(sumn ds), stacked_cov bs t d Ps ds -> psd Ps) ->
  skf_observation_r junk is_psd nearest predict dH (DM R) (DM r) t cfg d = Ok (d', true) ->
  forall k i b, List.nth_error bs k = Some (i, b) -> b_ess b = false ->
  bel_of d' i t = Some b /\
  (forall l j bj X, List.nth_error bs l = Some (j, bj) -> b_ess bj = false -> (k < l)%N -> get_Sigma_IJ i j t d = Ok X ->
     get_Sigma_IJ i j t d' = Ok (zero_if_none (dim_k ds k) (dim_k ds l) X)) /\
  (forall j X n (A : 'M[F]_n), ~ List.In j (List.map fst bs) -> b_Sigma b = DM A -> A \in unitmx -> get_Sigma_IJ i j t d = Ok X -> dsize X <> 0%N ->
     drows X = n -> get_Sigma_IJ i j t d' = Ok X).
Proof.
move=> R r cfg d' sR pR e0 Hpsd HP E k i b Ek Es; have [Hs [Ps [SH [SP]]]] := C39_residual r cfg sR.
have pP := HP _ SP; have [sP [SP2 SP3]] := SP.
have uS : innov Hs R Ps + (cfg_eps cfg)%:M \in unitmx.
  apply: pd_unit; apply: pd_psdD; last exact: pd_scalar.
  by apply: psdD => //; exact: psd_congr.
move=> /(_ uS); rewrite E; case: accepted => [[]|e|e] //.
case: (C39_covariance Hs (Ps *m Hs^T *m invmx (innov Hs R Ps + (cfg_eps cfg)%:M)) sP sR) => sSf [pSf Bl].
set Sf := gain_cov _ _ _ _ in sSf pSf Bl *; move=> [S [d2 [ES [[Ed] [D1 [D2 [D3 _]]]]]]]; subst d2.
rewrite Hpsd // in ES; last exact: pSf.
have {}ES := DM_inj ES; subst S.
split; first by have := D1 _ _ _ Ek; rewrite Es.
split.
  move=> l j bj X El Ej L EX; have [-> _] := D2 _ _ _ _ _ _ Ek El L; rewrite (Bl _ _ _ _ _ _ Ek El) Es Ej.
  exact: SP3 Ek El L EX.
move=> j X n A Nj EA uA EX Xs Rx; have [B [iv [L [EB [Ei [EL ->]]]]]] := D3 _ _ _ _ _ Ek Nj EX Xs.
move: EB; rewrite (Bl _ _ _ _ _ _ Ek Ek) Es (SP2 _ _ _ Ek) => -[EB]; subst B; move: Ei EL; rewrite EA dinv_ok /inv_or_junk uA => Ei.
rewrite -(Ok_inj Ei) dmul_ok mulmxV // => EL; rewrite -(Ok_inj EL).
by case: X {EX Xs} Rx => p q X /= Rx; subst p; rewrite dmul_ok mul1mx.
Qed.
End Handler.
End C39.

(** ** a concrete case: 5 is a non-essential participant, 9 does not participate *)
Section Example39.
Let Q := rat_realFieldType.
Let c1 (x : Q) : dmat Q := DM (x%:M : 'M[Q]_1).
Let b (x s : Q) (fixed ess : bool) : belief Q := Bel (c1 x) (c1 s) Z0 fixed false ess.
Let d0 : dict (belief Q) (dmat Q) :=
  [:: (9, Inst true [:: (Z0, b 1 1 false true)] [:: (5, [:: (Z0, c1 1)])]);
      (5, Inst true [:: (Z0, b 3%:R 4%:R false false)] [:: (2, [:: (Z0, c1 1)]); (9, [:: (Z0, c1 1)])]);
      (2, Inst true [:: (Z0, b 2%:R 3%:R false true)] [:: (5, [:: (Z0, c1 2%:R)])])]%N.
Let H0 : list (nat * dmat Q) := [:: (2, c1 1); (5, c1 (- 1))]%N.
Let bs0 : list (nat * belief Q) := [:: (2, b 2%:R 3%:R false true); (5, b 3%:R 4%:R false false)]%N.
Let cfg0 := CorrCfg false true true (d_of_Z 1) (1 : Q).
Lemma c1_tr x : dtr (c1 x) = c1 x.
Proof. by rewrite /dtr /c1 /= tr_scalar_mx. Qed.
Lemma part0 : participants H0 bs0 1 Z0 d0.
Proof.
have nnil T k : List.nth_error (@nil T) k = None by case: k.
have G25 : get_Sigma_IJ 2 5 Z0 d0 = Ok (c1 2%:R) by rewrite /get_Sigma_IJ /= c1_tr /c1 dmul_ok mulmx1.
split=> //=.
- by case=> [|[|k]] [|[|l]] //= i j bi bj; rewrite ?nnil // => -[<- _] [<- _].
- case=> [|[|k]] //= i Hk bb; rewrite ?nnil // => -[_ <-] [_ <-]; by [].
- by move=> i bb [[<- <-]|[[<- <-]|//]].
- by move=> i bb [[_ <-]|[[_ <-]|//]] /=; rewrite c1_tr.
- by move=> i bb [[_ <-]|[[_ <-]|//]].
- move=> id i; case: ifP => _; first by case=> <-; repeat constructor; case.
  case: ifP => _; first by case=> <-; repeat constructor => /=; [case|case].
  by case: ifP => // _ [<-] /=; repeat constructor; case.
- move=> i bb j X [[<- <-]|[[<- <-]|//]]; rewrite /fac_of /= /ccf_at /=; do !case: ifP => //= _; by case=> <-.
- move=> i j bi bj [[<- <-]|[[<- <-]|//]] [[<- <-]|[[<- <-]|//]] // _.
  by exists (c1 2%:R); split=> //; right.
Qed.
Lemma entry1 (B : dmat Q) x : Ok B = Ok (c1 x) -> entry B 0 0 = x.
Proof. by case=> ->; rewrite /c1 (@entry_in _ 1 1 _ 0%N 0%N erefl erefl) mxE. Qed.
Lemma psd0_case (Ps : 'M[Q]_(sumn (sizes bs0))) : stacked_cov bs0 Z0 d0 Ps (sizes bs0) -> psd Ps.
Proof.
have G25 : get_Sigma_IJ 2 5 Z0 d0 = Ok (c1 2%:R) by rewrite /get_Sigma_IJ /= c1_tr /c1 dmul_ok mulmx1.
move=> [S [D O]]; have D0 := D 0%N _ _ erefl; have D1 := D 1%N _ _ erefl; have O1 := O 0%N 1%N _ _ _ _ _ erefl erefl erefl G25.
have E x k l : (k < 2)%N -> (l < 2)%N -> blk (sizes bs0) (DM Ps) k l = Ok (c1 x) -> entry (DM Ps) k l = x.
  move=> Hk Hl EB; have [_ [_ X]] := @blk_entry _ (sizes bs0) (DM Ps) _ k l (conj erefl erefl) Hk Hl EB.
  have ok j : (j < 2)%N -> off (sizes bs0) j = j /\ (0 < dim_k (sizes bs0) j)%N by case: j => [|[|j]].
  have [o1 p1] := ok _ Hk; have [o2 p2] := ok _ Hl; have := X 0%N 0%N p1 p2; rewrite o1 o2 !addn0 => ->.
  by rewrite /c1 (@entry_in _ 1 1 _ 0%N 0%N erefl erefl) mxE.
have e00 := E _ 0%N 0%N erefl erefl D0; have e11 := E _ 1%N 1%N erefl erefl D1; have e01 := E _ 0%N 1%N erefl erefl O1.
have e10 : entry (DM Ps) 1 0 = 2%:R.
  by rewrite -e01 (@entry_in _ _ _ Ps 1%N 0%N erefl erefl) (@entry_in _ _ _ Ps 0%N 1%N erefl erefl) -{1}S mxE.
rewrite (@entry_in _ _ _ Ps 0%N 0%N erefl erefl) in e00; rewrite (@entry_in _ _ _ Ps 1%N 1%N erefl erefl) in e11.
rewrite (@entry_in _ _ _ Ps 0%N 1%N erefl erefl) in e01; rewrite (@entry_in _ _ _ Ps 1%N 0%N erefl erefl) in e10.
set v : 'cV[Q]_(sumn (sizes bs0)) := \col_i (if (i : nat) == 0%N then 1 else 2%:R).
set w : 'cV[Q]_(sumn (sizes bs0)) := \col_i (if (i : nat) == 0%N then 1 else 0).
have -> : Ps = v *m 1%:M *m v^T + 2%:R *: (w *m 1%:M *m w^T).
  rewrite !mulmx1; apply/matrixP => i j; rewrite !mxE !big_ord_recl !big_ord0 !mxE.
  have oi k (Hk : (k < sumn (sizes bs0))%N) (Hk' : (k < sumn (sizes bs0))%N) : Ordinal Hk = Ordinal Hk' by apply: val_inj.
  case: i j => [[|[|i]] Hi] [[|[|j]] Hj] //=.
  - by rewrite !(oi 0%N _ erefl) e00.
  - by rewrite (oi 0%N _ erefl) (oi 1%N _ erefl) e01.
  - by rewrite (oi 0%N _ erefl) (oi 1%N _ erefl) e10.
  - by rewrite !(oi 1%N _ erefl) e11.
by apply: psdD; [|apply: psdZ => //]; apply: psd_congr; exact: psd1.
Qed.
Example C39_example : exists d', skf_observation_r (fun n A => A) (fun _ => true) id (fun _ _ i => Ok (i, false)) H0 (DM (1%:M : 'M_1)) (DM (1%:M : 'M_1)) Z0 cfg0 d0 = Ok (d', true) /\
  bel_of d' 5 Z0 = Some (b 3%:R 4%:R false false) /\ get_Sigma_IJ 5 9 Z0 d' = get_Sigma_IJ 5 9 Z0 d0.
Proof.
have s1 : symmetric (1%:M : 'M[Q]_1) by exact: trmx1.
have nd n (A : 'M[Q]_n) : exists B : 'M[Q]_n, id (DM A) = DM B by exists A.
have [Hs [Ps [SH [SP]]]] := @C39_residual Q (fun n A => A) (fun _ => true) id (fun _ _ i => Ok (i, false)) nd _ _ _ _ _ part0 1%:M 1%:M cfg0 s1.
have p1 : psd (1%:M : 'M[Q]_1) by exact: psd1.
have uS : innov Hs 1%:M Ps + (cfg_eps cfg0)%:M \in unitmx.
  apply: pd_unit; apply: pd_psdD; last exact: pd_scalar.
  by apply: psdD => //; apply: psd_congr; exact: psd0_case.
move=> /(_ uS) /= [S [d' [ES [E D]]]]; exists d'; split=> //.
have G59 : get_Sigma_IJ 5 9 Z0 d0 = Ok (c1 1) by rewrite /get_Sigma_IJ /= c1_tr /c1 dmul_ok mulmx1.
have u4 : (4%:R%:M : 'M[Q]_1) \in unitmx by rewrite unitmxE det_scalar1 unitfE.
have [B1 [_ B3]] := @C39_nuisance_unchanged Q (fun n A => A) (fun _ => true) id (fun _ _ i => Ok (i, false)) nd _ _ _ _ _ part0 1%:M 1%:M cfg0 d' s1 p1 (ltr01 : 0 < cfg_eps cfg0) (fun _ _ _ _ => erefl) psd0_case E 1%N 5%N _ erefl erefl.
split; first exact: B1.
rewrite G59; apply: (B3 9%N (c1 1) 1%N (4%:R%:M)) => //; by move=> /= [|[]].
Qed.
(** A fixed participant is not part of the stacked covariance, but the loops over the participants count its rows: with an (essential by
    default) fixed participant the block of the gain is out of range, whatever the measurement function is *)
Let d1 : dict (belief Q) (dmat Q) :=
  [:: (5, Inst true [:: (Z0, b 3%:R 4%:R true true)] [::]); (2, Inst true [:: (Z0, b 2%:R 3%:R false true)] [::])]%N.
Theorem C39_fixed_participant : skf_observation_h (fun n A => A) (fun _ => true) id (fun _ _ i => Ok (i, false)) 0
  (fun _ _ z => (H0, z)) (DM (1%:M : 'M_1)) (DM (1%:M : 'M_1)) [:: 2%N; 5%N] Z0 cfg0 d1 = Abort EigenAssert.
Proof.
rewrite /skf_observation_h /=.
have [X EX] : exists X : 'M[Q]_1, stack_Sigma [:: (2%N, b 2%:R 3%:R false true); (5%N, b 3%:R 4%:R true true)] Z0 d1 = Ok (DM X).
  have nnil T k : List.nth_error (@nil T) k = None by case: k.
  have [|||A [E _]] := @C38_stack_n Q [:: (2%N, b 2%:R 3%:R false true); (5%N, b 3%:R 4%:R true true)] Z0 d1; last by exists A.
  - by case=> [|k] [|l] //= i j bi bj; rewrite ?nnil.
  - by move=> i bb /= [[_ <-]|//]; rewrite /= c1_tr.
  - by case=> [|k] [|l] //= i j bi bj; rewrite ?nnil.
rewrite EX /= stabilize_ok /= /skf_correction_step EX /= /check_dim_meas /= /dtr /= dmul_ok /= dmul_ok /= dadd_ok /= stabilize_ok /=.
by rewrite dmul_ok /= dinv_ok /= dmul_ok /=.
Qed.
End Example39.
Print Assumptions C39_covariance.
Print Assumptions C39_residual.
Print Assumptions C39_measurement.
Print Assumptions C39_function.
Print Assumptions C39_nuisance_unchanged.
Print Assumptions C39_fixed_participant.
