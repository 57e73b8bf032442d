(** C101: behind the handler every stored covariance stays symmetric and positive semidefinite. *)
From Coq Require Import ZArith List Bool Arith Lia Reals Lra.
From Flocq Require Import IEEE754.BinarySingleNaN.
From mathcomp Require Import all_ssreflect all_algebra.
From Verif Require Import Outcome DoubleModel BufModel HorizonModel MeasModel HandlerModel DMat KFModel Spec_Mat KFProofs BeliefModel EigenModel CatModel IsoModel IsoProofs SchmidtModel DPModel HObsModel RepairModel Spec_Repair RepairProofs Props_Repair EstModel Spec_Est EstProofs ExModel Spec_Valid KeepProofs Spec_Defined Props_Defined Props_Est.
Set Implicit Arguments. Unset Strict Implicit. Unset Printing Implicit Defensive.
Import Order.Theory GRing.Theory Num.Theory.
Local Open Scope outcome_scope.
Local Open Scope ring_scope.

Lemma obind_ok {A B} (x : outcome A) (f : A -> outcome B) y : obind x f = Ok y -> exists a, x = Ok a /\ f a = Ok y.
Proof. by case: x => [a|//|//] E; exists a. Qed.
Section Valid.
Variable F : realFieldType.
Notation dmat := (dmat F).
Notation belief := (belief F).
Notation inst := (inst belief dmat).
Notation dict := (dict belief dmat).
(** a run-time matrix that is a covariance matrix *)
Definition cov_dm (A : dmat) : Prop := exists n (B : 'M[F]_n), A = DM B /\ covariance B.
Definition valid_belief (b : belief) : Prop := cov_dm (b_Sigma b).
Notation valid_inst := (@good_inst belief dmat valid_belief).
Notation valid := (@good_dict belief dmat valid_belief).

Lemma cov_dmE n (B : 'M[F]_n) : cov_dm (DM B) -> covariance B.
Proof.
pose Q (A : dmat) := forall e : dcols A = drows A, covariance (castmx (erefl, e) (dmx A)).
move=> [k [B' [E C]]]; have : Q (DM B) by rewrite E => e /=; rewrite castmx_id.
by move=> /(_ erefl) /=; rewrite castmx_id.
Qed.
Lemma cov_sub n k (f : 'I_k -> 'I_n) (S : 'M[F]_n) : covariance S -> covariance (\matrix_(i, j) S (f i) (f j)).
Proof.
move=> C; pose E : 'M[F]_(k, n) := \matrix_(i, j) (f i == j)%:R.
have -> : (\matrix_(i, j) S (f i) (f j)) = E *m S *m E^T.
  apply/matrixP => i j; rewrite !mxE (bigD1 (f j)) //= big1 ?addr0 => [|l Nl].
    rewrite !mxE eqxx mulr1 (bigD1 (f i)) //= big1 ?addr0 => [|l Nl]; first by rewrite mxE eqxx mul1r.
    by rewrite mxE eq_sym (negbTE Nl) mul0r.
  by rewrite !mxE eq_sym (negbTE Nl) mulr0.
case: C => s p; split; [exact: sym_congr|exact: psd_congr].
Qed.
Lemma cov_block n (S : 'M[F]_n) a p A : covariance S -> dblock (DM S) a a p p = Ok A -> cov_dm A.
Proof.
move=> C; rewrite /dblock /= andbb; case: leqP => // L [<-].
have Lt (i : 'I_p) : (a + i < n)%N by apply: leq_trans L; rewrite ltn_add2l.
exists p, (\matrix_(i, j) S (Ordinal (Lt i)) (Ordinal (Lt j))); split; last exact: cov_sub.
congr DM; apply/matrixP => i j; rewrite !mxE /entry /=.
by rewrite (insubT (fun x => x < n)%N (Lt i)) (insubT (fun x => x < n)%N (Lt j)).
Qed.

Variable junk : forall n, 'M[F]_n -> 'M[F]_n.
(** the shape of a correction that goes through *)
Lemma corr_shape H R r n (S : 'M[F]_n) cfg res : correction_step junk H R r (DM S) cfg = Ok res -> ~~ rejected res ->
  exists m (H' : 'M[F]_(m, n)) (R' : 'M[F]_m) (r' : 'cV[F]_m), [/\ H = DM H', R = DM R' & Sigma_apos res = DM (step_final junk H' R' S cfg)].
Proof.
case: H R r => [rH cH H] [rR cR R] [rr cr r]; case Ck: (check_dim_meas (DM H) (DM R) (DM r) (DM S)); last first.
  by rewrite /correction_step Ck => -[<-].
have [E1 [E2 [E3 [E4 E5]]]] : cH = n /\ rr = rH /\ cr = 1%N /\ rR = rH /\ cR = rH.
  move: Ck; rewrite /check_dim_meas /= negbK => /and4P [/eqP -> /negbNE/eqP <-]; rewrite !negb_or !negbK.
  by move=> /andP [/eqP -> _] /andP [/eqP <- /eqP <-].
subst cH rr cr rR cR; rewrite correction_step_ok; case: step_gate => //= rej [<-] _.
by exists rH, H, R, r; split.
Qed.
Lemma corr_cov H R r Sg cfg res : correction_step junk H R r Sg cfg = Ok res -> ~~ rejected res ->
  cov_dm Sg -> cov_dm R -> use_Josephs_form cfg -> 0 <= cfg_eps cfg -> cov_dm (Sigma_apos res).
Proof.
move=> E N [n [S [ES [sS pS]]]] CR J e; subst Sg; have [m [H' [R' [r' [EH ER ->]]]]] := corr_shape E N.
rewrite ER in CR; have [_ pR] := cov_dmE CR.
by exists n; eexists; split; first reflexivity; split; [exact: step_final_sym|exact: step_final_psd].
Qed.

(** ** registries *)
Lemma valid_upd id i d : valid d -> valid_inst i -> valid (d_upd id i d).
Proof.
move=> V Vi; elim: d V => [|[k x] r IH] V //= a b; case: Nat.eqb => /= -[[_ <-]|H] //.
- by apply: (V a b); right.
- by apply: (V k x); left.
- by apply: (IH _ a b H) => c j Hc; apply: (V c j); right.
Qed.
Lemma valid_find id i d : valid d -> d_find id d = Some i -> valid_inst i.
Proof. by move=> V G; exact: (V id i (find_In G)). Qed.
Lemma valid_mod id f d d' : (forall i i', f i = Ok i' -> valid_inst i -> valid_inst i') -> valid d -> mod_inst id f d = Ok d' -> valid d'.
Proof.
move=> Hf V; rewrite /mod_inst /at_inst; case G: d_find => [i|//]; case E: (f i) => [i'|//|//] /= [<-].
by apply: valid_upd => //; apply: Hf E _; exact: valid_find G.
Qed.

Variable hor : double.
Lemma valid_propagate ba mb Phi Q ta tb (i i' : inst) ok : valid_belief ba -> cov_dm Q -> valid_inst i ->
  iso_propagate_bel hor ba mb Phi Q ta tb i = Ok (i', ok) -> valid_inst i'.
Proof.
move=> [n [S [ES CS]]] CQ V; rewrite /iso_propagate_bel /kf_propagate_bel ES.
case Ck: (check_dim_phi_q (DM S) Phi Q) => /=; last by move=> [<- _].
have [Ph [Q' [EP EQ]]] : exists (Ph Q' : 'M[F]_n), Phi = DM Ph /\ Q = DM Q'.
  case: Phi Q Ck {CQ} => [rp cp Ph] [rq cq Q']; rewrite /check_dim_phi_q /check_dim_phi /= !negb_or !negbK => /andP [/andP [/eqP E1 /eqP E2] /andP [/eqP E3 /eqP E4]].
  by subst rp cp rq cq; exists Ph, Q'.
subst Phi Q; have {}CQ := cov_dmE CQ; rewrite cov_prop_ok /=.
case Eb: (bel_set mb (DM (Ph *m S *m Ph^T + Q')) ba) => [b' okb]; case: ifP => [Hok|_ [<- _]] //=; move: Hok => /andP [_ /= Hok]; rewrite Hok in Eb.
have Vb : valid_belief (bel_set_t tb b').
  move: Eb; rewrite /bel_set; case: (~~ _) => // -[<-]; exists n, (Ph *m S *m Ph^T + Q'); split=> //.
  case: CS CQ => s1 p1 [s2 p2]; split; [apply: symD => //; exact: sym_congr|apply: psdD => //; exact: psd_congr].
rewrite /iso_factors; case: ccf_scale => [c|//|//] /=; rewrite /iso_check_horizon /=.
case E: check_horizon_restricted => [l|//|//] /=; case: ccf_trim => [c'|//|//] /= [<- _] k b /= Hb.
by case: (in_hb_insert _ _ _ _ (in_check_restricted _ _ _ _ _ E Hb)) => [[_ ->]|H] //; exact: (V k b H).
Qed.
Lemma valid_private H R z t cfg (i i' : inst) ok : cov_dm R -> use_Josephs_form cfg -> 0 <= cfg_eps cfg -> valid_inst i ->
  iso_private junk H R z t cfg i = Ok (i', ok) -> valid_inst i'.
Proof.
move=> CR J e V; rewrite /iso_private; case G: get_at_t => [ba|]; last by move=> [<- _].
have Vb : valid_belief ba by apply: (V t ba); exact: BufProofs.get_at_In.
case: dmul => [hm|//|//] /=; case: dsub => [r|//|//] /=; rewrite /iso_private_bel.
case E: correction_step => [res|//|//] /=; case N: (~~ rejected res); last by move=> [<- _].
case: ccf_scale => [c|//|//] /=; rewrite /bel_correct /bel_correct_mean; case: dadd => [m|//|//] /= [<- _].
move=> k b /= Hb; case: (in_hb_insert _ _ _ _ Hb) => {Hb} [[_ ->]|Hb]; last exact: (V k b Hb).
exact: (corr_cov E N Vb CR J e).
Qed.

(** ** joint observations *)
Variable is_psd : dmat -> bool.
Variable nearest : dmat -> dmat.
Variable eps0 : F.
(** the contracts of utils::is_positive_semidefinite and utils::nearest_covariance on symmetric matrices *)
Hypothesis test_sound : forall n (A : 'M[F]_n), symmetric A -> is_psd (DM A) = true -> psd A.
Hypothesis repair_sound : forall n (A : 'M[F]_n), symmetric A -> cov_dm (nearest (DM A)).
Notation joint_update := (joint_update junk is_psd nearest eps0).

Lemma valid_ofold {A S} (I : S -> Prop) (f : S -> A -> outcome S) l s s' : (forall s x s', I s -> f s x = Ok s' -> I s') -> I s -> ofold f s l = Ok s' -> I s'.
Proof.
move=> H; elim: l s => [|x l IH] s Is /=; first by move=> [<-].
by case E: (f s x) => [s1|//|//] /=; apply: IH; exact: H E.
Qed.
Lemma valid_corrections S bs t d d' : valid d -> apply_corrections junk S bs t d = Ok d' -> valid d'.
Proof.
move=> V; rewrite /apply_corrections; case E: ofold => [[d1 k]|//|//] /= [<-].
have : (fun s : dict * nat => valid s.1) (d1, k) ; last by [].
apply: (valid_ofold (I := fun s : dict * nat => valid s.1)) E => // -[d2 k2] x [d3 k3] /= V2; case: (~~ _); last by move=> [<- _].
case: dblock => [Sii|//|//] /=; case Em: mod_inst => [d4|//|//] /= [<- _].
apply: valid_mod Em => // i i'; case: ccf_correct => [c|//|//] /= [<-] Vi k0 b; exact: Vi.
Qed.
Lemma valid_setS Ia J S t d d' : valid d -> set_Sigma_IJ Ia J S t d = Ok d' -> valid d'.
Proof.
have St a b m d0 d1 : valid d0 -> mod_inst a (fun i => Ok (with_ccf (ccf_set b t m (i_ccf i)) i)) d0 = Ok d1 -> valid d1.
  by move=> V0; apply: valid_mod => // i i' [<-] Vi k0 x; exact: Vi.
move=> V; rewrite /set_Sigma_IJ; case: Nat.ltb; case E: mod_inst => [d1|//|//] /=; exact: (St _ _ _ _ _ (St _ _ _ _ _ V E)).
Qed.
Lemma valid_split_row S Ia di row col rest t d d' : valid d -> split_row S Ia di row col rest t d = Ok d' -> valid d'.
Proof.
elim: rest col d => [|[J b] r IH] col d V /=; first by move=> [<-].
case: dblock => [Sij|//|//] /=; case E: set_Sigma_IJ => [d1|//|//] /=; apply: IH; exact: valid_setS E.
Qed.
Lemma valid_split S row us t d d' : valid d -> split_rows S row us t d = Ok d' -> valid d'.
Proof.
elim: us row d => [|[Ia b] r IH] row d V //=; case: r IH => [|e r] IH; first by move=> [<-].
by case E: split_row => [d1|//|//] /=; apply: IH; exact: valid_split_row E.
Qed.
Lemma valid_correct n (S : 'M[F]_n) dx bs t d d' : covariance S -> valid d -> correct_beliefs (DM S) dx bs t d = Ok d' -> valid d'.
Proof.
move=> C V; rewrite /correct_beliefs; case E: ofold => [[d1 k]|//|//] /= [<-].
have : (fun s : dict * nat => valid s.1) (d1, k) ; last by [].
apply: (valid_ofold (I := fun s : dict * nat => valid s.1)) E => // -[d2 k2] x [d3 k3] /= V2; case: (~~ _); last by move=> [<- _].
case Eb: dblock => [Sii|//|//] /=; case: dblock => [v|//|//] /=; rewrite /bel_correct /bel_correct_mean; case: dadd => [m|//|//] /=.
case Em: mod_inst => [d4|//|//] /= [<- _]; apply: valid_mod Em => // i i' [<-] Vi k0 b /= Hb; case: (in_hb_insert _ _ _ _ Hb) => {Hb} [[_ ->]|Hb]; last exact: (Vi k0 b Hb).
exact: (cov_block C Eb).
Qed.
Lemma valid_joint H R r bs S t cfg d d' ok : valid d -> joint_update H R r bs S t cfg d = Ok (d', ok) -> valid d'.
Proof.
move=> V; rewrite /IsoModel.joint_update.
case Es: stabilize_covariance => [Sg|//|//] /=.
have [n [S' ES]] : exists n (S' : 'M[F]_n), Sg = DM S'.
  case: S Es => [rs cs S]; rewrite /stabilize_covariance /= /dadd /dzip /=; case: eqP => // e1; case: eqP => // e2 /=.
  by case: eqP => // e3; case: eqP => // e4 [<-]; subst cs; eexists; eexists; reflexivity.
subst Sg; case Ec: correction_step => [res|//|//] /=; case N: (~~ rejected res); last by move=> [<- _].
have [m [H' [R' [r' [_ _ Ea]]]]] := corr_shape Ec N.
have sF := @step_final_sym F junk n m H' R' S' cfg.
set Sp := if _ then _ else _; have [k [A [EA CA]]] : cov_dm Sp.
  rewrite /Sp Ea; case Ep: is_psd; last exact: repair_sound.
  by exists n; eexists; split; first reflexivity; split=> //; exact: test_sound Ep.
rewrite EA; case Ew: write_joint => [d1|//|//] /= [<- _]; move: Ew; rewrite /write_joint.
case E1: apply_corrections => [d2|//|//] /=; case E2: split_right_upper => [d3|//|//] /=.
apply: valid_correct => //; exact: (valid_split (valid_corrections V E1) E2).
Qed.
(** ** the other observation functions *)
Lemma symm_shape A B : symmetrize_covariance A = Ok B -> exists n (B' : 'M[F]_n), B = DM B' /\ symmetric B'.
Proof.
case: A => [r c A] E; case: (eqVneq r c) => [e|ne]; last first.
  by move: E; rewrite /symmetrize_covariance /= /dadd /dzip /=; case: eqP => // e1; case/eqP: ne; exact: esym e1.
subst c; move: E; rewrite symmetrize_ok => -[<-]; exists r; eexists; split; first reflexivity; exact: symm_sym.
Qed.
Lemma stab_shape A e B : stabilize_covariance A e = Ok B -> exists n (B' : 'M[F]_n), B = DM B' /\ symmetric B'.
Proof.
case: A => [r c A] E; case: (eqVneq r c) => [e0|ne]; last first.
  by move: E; rewrite /stabilize_covariance /= /dadd /dzip /=; case: eqP => // e1; case/eqP: ne; exact: esym e1.
subst c; move: E; rewrite stabilize_ok => -[<-]; exists r; eexists; split; first reflexivity; exact: stab_sym.
Qed.
Lemma repaired n (A : 'M[F]_n) : symmetric A -> cov_dm (if is_psd (DM A) then DM A else nearest (DM A)).
Proof. by move=> sA; case E: is_psd; [exists n, A; split=> //; split=> //; exact: test_sound E|exact: repair_sound]. Qed.
Lemma valid_write S dx bs t d d' : cov_dm S -> valid d -> write_joint junk S dx bs t d = Ok d' -> valid d'.
Proof.
move=> [n [A [-> C]]] V; rewrite /write_joint; case E1: apply_corrections => [d2|//|//] /=; case E2: split_right_upper => [d3|//|//] /=.
apply: valid_correct => //; exact: (valid_split (valid_corrections V E1) E2).
Qed.
Lemma valid_skf_correct n (S : 'M[F]_n) dx bs t d d' : covariance S -> valid d -> skf_correct_beliefs (DM S) dx bs t d = Ok d' -> valid d'.
Proof.
move=> C V; rewrite /skf_correct_beliefs; case E: ofold => [[d1 k]|//|//] /= [<-].
have : (fun s : dict * nat => valid s.1) (d1, k) ; last by [].
apply: (valid_ofold (I := fun s : dict * nat => valid s.1)) E => // -[d2 k2] x [d3 k3] /= V2; case: (b_ess _) => /=; last by move=> [<- _].
case Eb: dblock => [Sii|//|//] /=; case: dblock => [v|//|//] /=; rewrite /bel_correct /bel_correct_mean; case: dadd => [m|//|//] /=.
case Em: mod_inst => [d4|//|//] /= [<- _]; apply: valid_mod Em => // i i' [<-] Vi k0 b /= Hb; case: (in_hb_insert _ _ _ _ Hb) => {Hb} [[_ ->]|Hb]; last exact: (Vi k0 b Hb).
exact: (cov_block C Eb).
Qed.
Lemma skf_shape t H R r bs cfg d res : skf_correction_step junk t H R r bs cfg d = Ok res -> ~~ rejected res ->
  exists n (A : 'M[F]_n), Sigma_apos res = DM A /\ symmetric A.
Proof.
rewrite /skf_correction_step => E; case: (obind_ok E) => Sg [_ {E}]; case: check_dim_meas => //; last by case=> <-.
cbv zeta => E; do 18 (case: (obind_ok E) => ? [? {}E]).
case: E => <- _ /=.
by match goal with Y : symmetrize_covariance _ = Ok _ |- _ => exact: symm_shape Y end.
Qed.
Lemma valid_skf_finish res bs t d d' ok : (~~ rejected res -> exists n (A : 'M[F]_n), Sigma_apos res = DM A /\ symmetric A) -> valid d ->
  skf_finish junk is_psd nearest res bs t d = Ok (d', ok) -> valid d'.
Proof.
move=> Sh V; rewrite /skf_finish; case: (~~ rejected res) Sh => Sh; last by move=> [<- _].
have [n [A [EA sA]]] := Sh isT; rewrite EA; have [k [C [EC CC]]] := repaired sA; rewrite EC.
case E1: apply_corrections => [d2|//|//] /=; case E2: split_right_upper => [d3|//|//] /=; case E3: skf_correct_beliefs => [d4|//|//] /= [<- _].
exact: (valid_skf_correct CC (valid_split (valid_corrections V E1) E2) E3).
Qed.
Section Predict.
Variable predict : nat -> Z -> inst -> outcome (inst * bool).
Hypothesis predict_valid : forall id t i i' ok, valid_inst i -> predict id t i = Ok (i', ok) -> valid_inst i'.
Lemma valid_dict_bel ids t d acc d' bs : valid d -> get_dict_bel_loop predict ids t d acc = Ok (d', bs) -> valid d'.
Proof.
elim: ids d acc => [|id r IH] d acc V /=; first by move=> [<- _].
rewrite /at_inst; case G: d_find => [i|//]; rewrite /belief_or_predict.
have Vi := valid_find V G; case: exist_at_t => /=.
  case: get_at_t => [b|]; last by move=> [<- _]; exact: valid_upd.
  by apply: IH; exact: valid_upd.
case Ep: predict => [[i' ok]|//|//] /=; have Vi' := predict_valid Vi Ep.
case: (if ok then _ else _) => [b|]; last by move=> [<- _]; exact: valid_upd.
by apply: IH; exact: valid_upd.
Qed.
Lemma valid_obs_z dH z R t cfg d d' ok : valid d -> apply_observation_z junk is_psd nearest predict eps0 dH z R t cfg d = Ok (d', ok) -> valid d'.
Proof.
move=> V; rewrite /apply_observation_z; case: stack_H => [H|//|//] /=; rewrite /get_dict_bel; case E: get_dict_bel_loop => [[d1 bs]|//|//] /=.
have V1 := valid_dict_bel V E; case: bs E => [|b bs] _; first by move=> [<- _].
case: stack_mean => [m|//|//] /=; case: stack_Sigma => [S|//|//] /=; case: dmul => [hm|//|//] /=; case: dsub => [r|//|//] /=.
exact: valid_joint.
Qed.
Lemma valid_obs_r dH R r t cfg d d' ok : valid d -> apply_observation_r junk is_psd nearest predict eps0 dH R r t cfg d = Ok (d', ok) -> valid d'.
Proof.
move=> V; rewrite /apply_observation_r; case: stack_H => [H|//|//] /=; rewrite /get_dict_bel; case E: get_dict_bel_loop => [[d1 bs]|//|//] /=.
have V1 := valid_dict_bel V E; case: bs E => [|b bs] _; first by move=> [<- _].
by case: stack_Sigma => [S|//|//] /=; exact: valid_joint.
Qed.
(** IsolatedSchmidtKalmanHandler *)
Lemma valid_skf_r dH R r t cfg d d' ok : valid d -> skf_observation_r junk is_psd nearest predict dH R r t cfg d = Ok (d', ok) -> valid d'.
Proof.
move=> V; rewrite /skf_observation_r; case: stack_H => [H|//|//] /=; rewrite /get_dict_bel; case E: get_dict_bel_loop => [[d1 bs]|//|//] /=.
have V1 := valid_dict_bel V E; case: bs E => [|b bs] _; first by move=> [<- _].
case: stack_Sigma => [S|//|//] /=; case Ec: skf_correction_step => [res|//|//] /=.
apply: valid_skf_finish V1; exact: skf_shape Ec.
Qed.
Lemma valid_skf_z dH z R t cfg d d' ok : valid d -> skf_observation_z junk is_psd nearest predict eps0 dH z R t cfg d = Ok (d', ok) -> valid d'.
Proof.
move=> V; rewrite /skf_observation_z; case: stack_H => [H|//|//] /=; rewrite /get_dict_bel; case E: get_dict_bel_loop => [[d1 bs]|//|//] /=.
have V1 := valid_dict_bel V E; case: bs E => [|b bs] _; first by move=> [<- _].
case: stack_mean => [m|//|//] /=; case: stack_Sigma => [S|//|//] /=; case: dmul => [hm|//|//] /=; case: dsub => [r|//|//] /=; case: stabilize_covariance => [S1|//|//] /=.
case Ec: skf_correction_step => [res|//|//] /=; apply: valid_skf_finish V1; exact: skf_shape Ec.
Qed.
Lemma valid_skf_h h R z ids t cfg d d' ok : valid d -> skf_observation_h junk is_psd nearest predict eps0 h R z ids t cfg d = Ok (d', ok) -> valid d'.
Proof.
move=> V; rewrite /skf_observation_h /get_dict_bel; case E: get_dict_bel_loop => [[d1 bs]|//|//] /=.
have V1 := valid_dict_bel V E; case: bs E => [|b bs] _; first by move=> [<- _].
case: stack_mean => [m|//|//] /=; case: stack_Sigma => [S|//|//] /=; case: h => dH r /=; case: stack_H => [H|//|//] /=; case: stabilize_covariance => [S1|//|//] /=.
case Ec: skf_correction_step => [res|//|//] /=; case Ef: skf_finish => [[d2 ok2]|//|//] /= [<- _].
exact: (valid_skf_finish (skf_shape Ec) V1 Ef).
Qed.
(** DecoupledPropagationHandler *)
Lemma valid_dp_bel ids t d acc d' bs : valid d -> dp_get_dict_bel predict ids t d acc = Ok (d', bs) -> valid d'.
Proof.
elim: ids d acc => [|id r IH] d acc V /=; first by move=> [<- _].
rewrite /at_inst; case G: d_find => [i|//]; rewrite /belief_or_predict.
have Vi := valid_find V G; case: exist_at_t => /=; first by case: get_at_t => [b|//]; apply: IH; exact: valid_upd.
case Ep: predict => [[i' ok]|//|//] /=; have Vi' := predict_valid Vi Ep.
by case: (if ok then _ else _) => [b|//]; apply: IH; exact: valid_upd.
Qed.
Lemma valid_dp_update H R r bs S t cfg d d' ok : valid d -> dp_update junk is_psd nearest eps0 H R r bs S t cfg d = Ok (d', ok) -> valid d'.
Proof.
move=> V; rewrite /dp_update; case Es: stabilize_covariance => [Sg|//|//] /=; have [n [S' [ES _]]] := stab_shape Es; subst Sg.
case Ec: correction_step => [res|//|//] /=; case N: (~~ rejected res); last by move=> [<- _].
have [m [H' [R' [r' [_ _ Ea]]]]] := corr_shape Ec N; rewrite Ea.
have [k [C [EC CC]]] := repaired (@step_final_sym F junk n m H' R' S' cfg); rewrite EC.
case E2: split_right_upper => [d3|//|//] /=; case E3: correct_beliefs => [d4|//|//] /= [<- _].
exact: (valid_correct CC (valid_split V E2) E3).
Qed.
Lemma valid_dp_r dH R r t cfg d d' ok : valid d -> dp_apply_r junk is_psd nearest predict eps0 dH R r t cfg d = Ok (d', ok) -> valid d'.
Proof.
move=> V; rewrite /dp_apply_r; case: dp_stack_H => [H|//|//] /=; case E: dp_get_dict_bel => [[d1 bs]|//|//] /=.
by case: stack_Sigma => [S|//|//] /=; apply: valid_dp_update; exact: valid_dp_bel E.
Qed.
Lemma valid_dp_z dH z R t cfg d d' ok : valid d -> dp_apply_z junk is_psd nearest predict eps0 dH z R t cfg d = Ok (d', ok) -> valid d'.
Proof.
move=> V; rewrite /dp_apply_z; case: dp_stack_H => [H|//|//] /=; case E: dp_get_dict_bel => [[d1 bs]|//|//] /=.
case: stack_mean => [m|//|//] /=; case: stack_Sigma => [S|//|//] /=; case: dmul => [hm|//|//] /=; case: dsub => [r|//|//] /=.
by apply: valid_dp_update; exact: valid_dp_bel E.
Qed.
(** the variant with a measurement function, with numerical stabilization on (the default) *)
Lemma valid_h h pj num_iter tol R z t ids cfg d d' res : nummerical_stabilization cfg = true -> valid d ->
  apply_observation_h junk is_psd nearest predict eps0 h pj num_iter tol R z t ids cfg d = Ok (d', res) -> valid d'.
Proof.
move=> Ns V; rewrite /apply_observation_h /process_observation /process_observation_gen /get_dict_bel; case E: get_dict_bel_loop => [[d1 bs]|//|//] /=.
have V1 := valid_dict_bel V E; case: bs E => [|b bs] _; first by move=> [<- _].
move=> X; case: (obind_ok X) => o [Eo {}X]; case: (obind_ok Eo) => m [_ {}Eo]; case: (obind_ok Eo) => S [_ {}Eo]; case: (obind_ok Eo) => S1 [_ {}Eo].
cbv zeta in Eo; case: (obind_ok Eo) => it [_ {}Eo]; case: it Eo => [r|[s iter]]; first by move=> [Eo]; subst o; case: X => <- _.
move=> Eo; case: (obind_ok Eo) => Sp [Ep [E2]]; subst o; cbn beta iota zeta in X; case: (obind_ok X) => d2 [Ew [<- _]].
apply: valid_write Ew => //; move: Ep; rewrite /posterior Ns => Ep; case: (obind_ok Ep) => KH [_ {}Ep]; case: (obind_ok Ep) => U [_ {}Ep].
case: (obind_ok Ep) => S2 [_ {}Ep]; case: (obind_ok Ep) => S3 [_ {}Ep]; case: (obind_ok Ep) => S4 [Es [<-]].
by have [n [A [-> sA]]] := stab_shape Es; exact: repaired.
Qed.
(** one call of any observation function of the four handlers keeps a registry's covariances valid *)
Theorem C101_observations d : (forall id i k b, List.In (id, i) d -> List.In (k, b) (i_bel i) -> cov_dm (b_Sigma b)) ->
  forall d', (exists dH R r t cfg ok, apply_observation_r junk is_psd nearest predict eps0 dH R r t cfg d = Ok (d', ok) \/
      apply_observation_z junk is_psd nearest predict eps0 dH r R t cfg d = Ok (d', ok) \/
      skf_observation_r junk is_psd nearest predict dH R r t cfg d = Ok (d', ok) \/
      skf_observation_z junk is_psd nearest predict eps0 dH r R t cfg d = Ok (d', ok) \/
      dp_apply_r junk is_psd nearest predict eps0 dH R r t cfg d = Ok (d', ok) \/
      dp_apply_z junk is_psd nearest predict eps0 dH r R t cfg d = Ok (d', ok)) \/
    (exists h R z ids t cfg ok, skf_observation_h junk is_psd nearest predict eps0 h R z ids t cfg d = Ok (d', ok)) \/
    (exists h pj num_iter tol R z t ids cfg res, nummerical_stabilization cfg = true /\
      apply_observation_h junk is_psd nearest predict eps0 h pj num_iter tol R z t ids cfg d = Ok (d', res)) ->
  forall id i k b, List.In (id, i) d' -> List.In (k, b) (i_bel i) -> exists n (S : 'M[F]_n), b_Sigma b = DM S /\ symmetric S /\ psd S.
Proof.
move=> V d' X id i k b Hi Hb; have {}V : valid d by move=> a j Ha kk bb; exact: V Ha.
suff V' : valid d' by exact: (V' id i Hi k b Hb).
case: X => [[dH [R [r [t [cfg [ok X]]]]]]|[[h [R [z [ids [t [cfg [ok X]]]]]]]|[h [pj [num [tol [R [z [t [ids [cfg [res [Ns X]]]]]]]]]]]]].
- case: X => [|[|[|[|[]]]]]; [exact: valid_obs_r|exact: valid_obs_z|exact: valid_skf_r|exact: valid_skf_z|exact: valid_dp_r|exact: valid_dp_z].
- exact: valid_skf_h X.
- exact: valid_h Ns V X.
Qed.
End Predict.
Lemma nopredict_valid (id : nat) (t : Z) (i i' : inst) ok : valid_inst i -> Ok (i, false) = Ok (i', ok) -> valid_inst i'.
Proof. by move=> V [<- _]. Qed.

(** ** the estimators *)
Section Est.
Variable P : Type.
Variable u : models F P.
(** the noise matrices a measurement brings in are covariance matrices (a joint measurement may bring in any) *)
Definition sound_meas (m : meas P) : Prop :=
  match m_ty m with
  | PROPAGATION => forall ta mean, cov_dm (snd (u_prop u (m_id m) (m_dat m) ta (m_t m) mean))
  | PRIVATE => cov_dm (snd (fst (u_priv u (m_id m) (m_dat m))))
  | _ => True
  end.
Hypothesis joseph : use_Josephs_form (u_cfg u) = true.
Hypothesis eps_pos : 0 <= cfg_eps (u_cfg u).
Lemma valid_est d m d' s : valid d -> sound_meas m -> est junk hor is_psd nearest eps0 u d m = Ok (d', s) -> valid d'.
Proof.
move=> V; rewrite /sound_meas /est; case: (m_ty m) => O.
- by move=> [<- _].
- rewrite /est_propagate /at_inst; case G: d_find => [i|//]; have Vi := valid_find V G.
  case Gb: get_before_t => [[ta ba]|]; last by move=> [<- _].
  move: (O ta (b_mean ba)); case: u_prop => [[mb Phi] Q] /= CQ.
  case E: iso_propagate_bel => [[i' ok]|//|//] /= [<- _]; apply: valid_upd => //.
  have Vb : valid_belief ba := Vi ta ba (in_get_before _ _ _ _ Gb).
  exact: (valid_propagate Vb CQ Vi E).
- rewrite /est_private /at_inst; case G: d_find => [i|//]; have Vi := valid_find V G.
  move: O; case: u_priv => [[H R] z] /= CR; case E: iso_private => [[i' ok]|//|//] /= [<- _]; apply: valid_upd => //.
  exact: valid_private CR joseph eps_pos Vi E.
- rewrite /est_joint; case: u_joint => [[dH z] R]; case E: apply_observation_z => [[d1 ok]|//|//] /= [<- _].
  exact: (valid_obs_z nopredict_valid V E).
Qed.
(** a user's estimator: every registry a history of public calls leads to holds only covariances that are covariances *)
Theorem C101_covariances_valid (fallback : dict -> meas P -> dict * status) :
  (forall d m, valid d -> valid (fst (fallback d m))) ->
  forall (horizon : double) (calls : list hop) h, (forall c, List.In c calls -> ok_call valid_belief sound_meas c) ->
  hrun (deleg_with junk hor is_psd nearest eps0 u fallback) (new_handler horizon) calls = Ok h ->
  forall id i k b, List.In (id, i) (h_dict h) -> List.In (k, b) (i_bel i) -> exists n (S : 'M[F]_n), b_Sigma b = DM S /\ symmetric S /\ psd S.
Proof.
move=> Hf horizon calls h Hc Er id i k b Hi Hb.
have [V _] : KInv valid_belief sound_meas h.
  apply: (kept_run _ _ _ _ calls (new_handler horizon) h Hc) Er; last by split.
  move=> d m Om V; rewrite /deleg_with; case E: est => [[d' s]|e|e]; [exact: valid_est E|exact: Hf|exact: Hf].
exact: (V id i Hi k b Hb).
Qed.
End Est.
(** the shipped constant-acceleration estimator: the variances given with propagation measurements are not negative (those given with others may be anything) *)
Section Shipped.
Variable garbage : forall m n, 'M[F]_(m, n).
Variable dtf : Z -> Z -> F.
Definition sound_ex (m : meas (ex_dat F)) : Prop :=
  match m_ty m with
  | PROPAGATION => exists r, 0 <= r /\ x_R (m_dat m) = @DM F 1 1 r%:M
  | _ => True
  end.
Notation shipped := (ex junk garbage hor is_psd nearest eps0 dtf).
Lemma valid_ex d m d' s : valid d -> sound_ex m -> shipped d m = Ok (d', s) -> valid d'.
Proof.
move=> V; rewrite /sound_ex /ex; case: (m_ty m) => O.
- by move=> [<- _].
- case: O => r [r0 ER]; rewrite /ex_propagate /at_inst; case G: d_find => [i|//]; have Vi := valid_find V G.
  case Gb: get_before_t => [[ta ba]|//].
  rewrite ER; set Phi := m22 _ _ _ _; set G' := m21 _ _; set Q0 := dscale _ _.
  case: dmul => [pm|//|//] /=; case: dmul => [gz|//|//] /=; case: dadd => [mb|//|//] /=.
  rewrite {1}/G' /m21 dmul_ok /= /G' /m21 /dtr /= dmul_ok /= {1}/Q0 /dscale /deye /= dadd_ok /=.
  case E: iso_propagate_bel => [[i' ok]|//|//] /= [<- _]; apply: valid_upd => //.
  have Vb : valid_belief ba := Vi ta ba (in_get_before _ _ _ _ Gb).
  apply: (valid_propagate Vb _ Vi E).
  eexists; eexists; split; first reflexivity.
  have -> : 10%:R^-1 ^+ 6 *: (\matrix_(i0, j) ((i0 : nat) == (j : nat))%:R) = (10%:R^-1 ^+ 6)%:M :> 'M[F]_2.
    by apply/matrixP => x y; rewrite !mxE -val_eqE; case: eqP; rewrite ?mulr1 ?mulr0 ?mulr1n ?mulr0n.
  split; first by apply: symD; [apply: sym_congr; exact: tr_scalar_mx|exact: tr_scalar_mx].
  apply: psdD; first by apply: psd_congr; exact: psd_scalar.
  by apply: psd_scalar; apply: exprn_ge0; rewrite invr_ge0 ler0n.
- rewrite /ex_private /at_inst; case G: d_find => [i|//]; case: get_at_t => [ba|]; last by move=> [<- _].
  case: dmul => [hm|//|//] /=; case: dsub => [r|//|//] /=; case E: apply_observation_r => [[d1 ok]|//|//] /= [<- _].
  exact: (valid_obs_r nopredict_valid V E).
- rewrite /ex_joint; cbv zeta => E; case: (obind_ok E) => bi [_ {}E]; case: (obind_ok E) => bj [_ {}E]; case: (obind_ok E) => H [_ {}E].
  case: (obind_ok E) => v [_ {}E]; case: (obind_ok E) => z [_ {}E]; case: (obind_ok E) => r [_ {}E]; case: (obind_ok E) => -[d1 ok] [{}E [<- _]].
  exact: (valid_obs_r nopredict_valid V E).
Qed.
Theorem C101_shipped (fallback : dict -> meas (ex_dat F) -> dict * status) :
  (forall d m, valid d -> valid (fst (fallback d m))) ->
  forall (horizon : double) (calls : list hop) h, (forall c, List.In c calls -> ok_call valid_belief sound_ex c) ->
  hrun (ex_with junk garbage hor is_psd nearest eps0 dtf fallback) (new_handler horizon) calls = Ok h ->
  forall id i k b, List.In (id, i) (h_dict h) -> List.In (k, b) (i_bel i) -> exists n (S : 'M[F]_n), b_Sigma b = DM S /\ symmetric S /\ psd S.
Proof.
move=> Hf horizon calls h Hc Er id i k b Hi Hb.
have [V _] : KInv valid_belief sound_ex h.
  apply: (kept_run _ _ _ _ calls (new_handler horizon) h Hc) Er; last by split.
  move=> d m Om V; rewrite /ex_with; case E: ex => [[d' s]|e|e]; [exact: valid_ex E|exact: Hf|exact: Hf].
exact: (V id i Hi k b Hb).
Qed.
End Shipped.
End Valid.

(** the contracts are met by nearest_covariance with an eigendecomposition that is right on symmetric matrices (C86) *)
Theorem C101_repair (F : realFieldType) (junk : forall n, 'M[F]_n -> 'M[F]_n) (eig : dmat F -> dmat F * dmat F) (eps : F) : 0 <= eps ->
  (forall n (A : 'M[F]_n), symmetric A -> exists V (D : 'cV[F]_n), eig (DM A) = (DM V, DM D) /\ eigenvectors A V D) ->
  forall n (A : 'M[F]_n), symmetric A -> cov_dm (nearest_of junk eig eps (DM A)).
Proof.
move=> e0 H n A sA; have [V [D [E Ev]]] := H n A sA.
have [B [EB [CB _]]] := C86_nearest_covariance junk (conj E Ev) sA e0.
by rewrite /nearest_of EB; exists n, B.
Qed.
(** whatever holds of all beliefs and is kept by the estimator's calls is kept by every history of public calls of the handler *)
Theorem C101_kept (B M P : Type) (good : B -> Prop) (okm : meas P -> Prop) (deleg : HandlerModel.dict B M -> meas P -> HandlerModel.dict B M * status) :
  (forall d m, okm m -> good_dict (M := M) good d -> good_dict good (fst (deleg d m))) ->
  forall horizon calls h, (forall c, List.In c calls -> ok_call good okm c) -> hrun deleg (new_handler horizon) calls = Ok h ->
  forall id i k b, List.In (id, i) (h_dict h) -> List.In (k, b) (i_bel i) -> good b.
Proof.
move=> K horizon calls h Hc Er id i k b Hi Hb.
have [V _] : KInv good okm h by apply: (kept_run _ _ _ K calls (new_handler horizon) h Hc) Er; split.
exact: (V id i Hi k b Hb).
Qed.

(** a history of the kind the theorems range over: two instances, propagations, a private and a joint measurement, a delayed
    one, a redo request, a removal; a test and a repair meeting the contracts; noise variances that are not negative *)
Lemma ex_eps_ge0 (F : realFieldType) : 0 <= cfg_eps (ex_cfg F).
Proof. by rewrite /ex_cfg /=; apply: exprn_ge0; rewrite invr_ge0 ler0n. Qed.
Section Example101.
Notation Q := rat_realFieldType.
Notation D k l := (@DM Q k l).
Definition b101 : belief Q := Bel (m21 (1 : rat) 2%:R) (D 2 2 1%:M) (Zpos 5) false false true.
Definition i101 : inst (belief Q) (dmat Q) := Inst true ((Zpos 5, b101) :: nil) nil.
Definition x101 (peer : nat) : ex_dat Q := ExDat (D 1 1 (1 : rat)%:M) (D 1 1 (1 : rat)%:M) peer.
Notation M id t ty peer := (Meas id%nat (Zpos t) ty (x101 peer%nat)).
Definition calls101 : list (@hop (belief Q) (dmat Q) (ex_dat Q)) :=
  OAdd 3%nat i101 :: OAdd 7%nat i101 :: OProcess (M 3 10 PROPAGATION 0) :: OProcess (M 7 20 PROPAGATION 0) :: OProcess (M 3 20 PROPAGATION 0) ::
  OProcess (M 7 20 JOINT 3) :: OProcess (M 3 15 PRIVATE 0) :: OSchedule (Zpos 15) true :: OProcess (M 7 30 PRIVATE 0) :: ORemove 3%nat :: nil.
Example C101_example :
  (forall n (A : 'M[rat]_n), symmetric A -> (fun _ : dmat Q => false) (D n n A) = true -> psd A) /\
  (forall n (A : 'M[rat]_n), symmetric A -> cov_dm ((fun B : dmat Q => D (drows B) (drows B) 1%:M) (D n n A))) /\
  (forall c, List.In c calls101 -> ok_call (@valid_belief Q) (@sound_ex Q) c) /\
  use_Josephs_form (ex_cfg Q) = true /\ 0 <= cfg_eps (ex_cfg Q) /\
  forall deleg, exists h, hrun deleg (new_handler (d_of_Z (Zpos 10))) calls101 = Ok h.
Proof.
have C1 n : covariance (1%:M : 'M[rat]_n) by split; [exact: trmx1|exact: psd1].
split; first by [].
split; first by move=> n A _; exists n, 1%:M.
split; last first.
  split; [reflexivity|split; [exact: ex_eps_ge0|move=> deleg; apply: C102_no_failure]].
    by move=> _; case: (DoubleProofs.d_of_Z_exact (Zpos 10)) => [|-> _]; [lia|rewrite Rbasic_fun.Rabs_pos_eq; lra].
  move=> c; do 2 (case=> [<-|]; first exact: Logic.I); do 5 (case=> [<-|]; first by rewrite /= /timely; lia).
  case=> [<-|]; first by rewrite /= /timely; lia.
  case=> [<-|]; first by rewrite /= /timely; lia.
  by case=> [<-|[]].
have Vi : @good_inst (belief Q) (dmat Q) (@valid_belief Q) i101 by move=> k b [[_ <-]|[]]; exists 2%N, 1%:M.
have Vp : exists r : rat, 0 <= r /\ x_R (x101 0) = @DM Q 1 1 r%:M by exists 1; split; [exact: ler01|reflexivity].
move=> c; do 2 (case=> [<-|]; first exact: Vi); do 3 (case=> [<-|]; first exact: Vp); do 5 (case=> [<-|]; first exact: Logic.I).
case.
Qed.
End Example101.
Print Assumptions C101_covariances_valid.
Print Assumptions C101_shipped.
Print Assumptions C101_kept.
Print Assumptions C101_observations.
Print Assumptions C101_repair.
