(** C104: the iterated private observation given by a measurement function never updates. *)
From Coq Require Import ZArith List Bool Arith Lia.
From mathcomp Require Import all_ssreflect all_algebra.
From Verif Require Import Outcome DoubleModel BufModel BufProofs DMat KFModel Spec_Mat KFProofs BeliefModel IterModel.
Set Implicit Arguments. Unset Strict Implicit. Unset Printing Implicit Defensive.
Import Order.Theory GRing.Theory Num.Theory.
Local Open Scope outcome_scope.
Local Open Scope ring_scope.

Section C104.
Variable F : realFieldType.
Variable junk : forall n, 'M[F]_n -> 'M[F]_n.
Notation dmat := (dmat F).
Notation belief := (belief F).
Notation measfun := (belief -> dmat -> dmat * dmat).

(** the call dereferences a null pointer, whatever its arguments and the filter's history *)
Theorem C104_null : forall (h : measfun) num_iter small R z t cfg (l : buf belief),
  ipriv junk h num_iter small false false R z t cfg l = UB NullDeref.
Proof. by []. Qed.

Lemma obindE X Y (o : outcome X) (f : X -> outcome Y) y : obind o f = Ok y -> exists x, o = Ok x /\ f x = Ok y.
Proof. by case: o => [x|e|e] //= E; exists x. Qed.
Lemma dmul_shape (A B C : dmat) : dmul A B = Ok C -> dcols A = drows B /\ drows C = drows A /\ dcols C = dcols B.
Proof. by rewrite /dmul; case: eqP => // e [<-]. Qed.
Lemma dsub_shape (A B C : dmat) : dsub A B = Ok C -> dcols A = dcols B.
Proof. by rewrite /dsub /dzip; case: eqP => // e1; case: eqP. Qed.
(** the outer H_idx stays empty *)
Lemma loop_H (h : measfun) small tr apri Sa R z cfg : forall n iter s s', ipriv_loop junk h small false tr n apri Sa R z cfg iter s = Ok (Some s') -> p_H s' = p_H s.
Proof.
elim=> [|n IH] iter s s' /=; first by case=> ->.
case: (h _ _) => H r; case: ifP => // _ E; case: (obindE E) => r1 [_ {}E]; case: (obindE E) => HS [_ {}E]; case: (obindE E) => a [_ {}E].
case: (obindE E) => S0 [_ {}E]; case: (obindE E) => Sm [_ {}E]; case: (obindE E) => out [_]; case: out => // {}E.
case: (obindE E) => p [_ {}E]; case: (obindE E) => Si [_ {}E]; case: (obindE E) => K [_ {}E]; case: (obindE E) => Kr [_ {}E].
case: (obindE E) => idx [_ {}E]; case: (obindE E) => dx [_]; case: ifP => _; first by case=> <-.
by move/IH.
Qed.
(** with the null pointer repaired - and even with the gain's missing transpose - the call still never updates *)
Theorem C104_shadowed : forall (h : measfun) num_iter small transposed R z t cfg (l l' : buf belief) ok,
  (forall b, get_at_t t l = Some b -> (0 < bel_dim b)%N) ->
  ipriv_swapped junk h num_iter small false transposed R z t cfg l = Ok (l', ok) -> l' = l /\ ok = false.
Proof.
move=> h ni small tr R z t cfg l l' ok; rewrite /ipriv_swapped; case G: get_at_t => [b|] Hb; last by case=> <- <-.
rewrite /ipriv_rest => E; case: (obindE E) => -[s|] [Es]; last by case=> <- <-.
have EH := loop_H Es; move=> {}E; case: (obindE E) => KH [EK {}E]; case: (obindE E) => U [EU _]; exfalso.
have [_ [_ CK]] := dmul_shape EK; move: CK; rewrite EH /= => CK.
by move: (Hb b erefl) (dsub_shape EU); rewrite CK /= => L e; rewrite e in L.
Qed.
(** all three repaired, one iteration and a linear measurement: the private observation with the matrix *)
Theorem C104_repaired : forall m n (H : 'M[F]_(m, n)) (R : 'M[F]_m) (z : 'cV[F]_m) small t cfg (l : buf belief) b (mu : 'cV[F]_n) (P : 'M[F]_n),
  get_at_t t l = Some b -> b_mean b = DM mu -> b_Sigma b = DM P -> symmetric P -> symmetric R -> use_Josephs_form cfg \/ nummerical_stabilization cfg ->
  ipriv_swapped junk (fun b z => (DM H, match dmul (DM H) (b_mean b) with Ok x => match dsub z x with Ok r => r | _ => z end | _ => z end)) 1 small true true (DM R) (DM z) t cfg l =
  kf_private junk (DM H) (DM R) (DM z) t cfg l.
Proof.
move=> m n H R z small t cfg l b mu P G Em ES sP sR sC.
rewrite /ipriv_swapped /kf_private G Em dmul_ok /= dsub_ok /= /kf_private_bel ES correction_step_ok /ipriv_rest /= Em dmul_ok /= dsub_ok /=.
have -> : check_dim_meas (DM H) (DM R) (DM (z - H *m mu)) (DM P) by rewrite /check_dim_meas /= !eqxx.
rewrite /dtr /= dmul_ok /= dmul_ok /= dadd_ok /= stabilize_ok /= -/(step_S H R P cfg) -/(step_gate junk H R (z - H *m mu) P cfg).
case: step_gate => [[]|e|e] //=.
rewrite dmul_ok /= dinv_ok /= dmul_ok /= -/(step_K junk H R P cfg) dmul_ok /= /bel_correct_mean /bel_correct /=.
rewrite !dadd_ok /= dsub_ok /=.
set nm := DM (mu + step_K junk H R P cfg *m (z - H *m mu)).
set idx := bel_set_mean nm _.
have Eif : forall c : bool, (if c then @Ok (option (pstate F)) (Some (PState idx (DM H) (DM (step_K junk H R P cfg)) (DM mu)))
    else Ok (Some (PState idx (DM H) (DM (step_K junk H R P cfg)) nm))) = Ok (Some (PState idx (DM H) (DM (step_K junk H R P cfg)) (if c then DM mu else nm))) by case.
rewrite Eif -/(bel_dim b); cbn [obind p_K p_H p_idx]; rewrite dmul_ok /= {1 2}/bel_dim ES /= deye_square dsub_ok /= -/(step_U junk H R P cfg).
have -> : (if use_Josephs_form cfg
     then let! u := dmul (DM (step_U junk H R P cfg)) (DM P) in let! v := dmul u (dtr (DM (step_U junk H R P cfg))) in
          let! w := dmul (DM (step_K junk H R P cfg)) (DM R) in let! x := dmul w (dtr (DM (step_K junk H R P cfg))) in dadd v x
     else dmul (DM (step_U junk H R P cfg)) (DM P)) = Ok (DM (step_P junk H R P cfg)).
  rewrite /step_P; case: use_Josephs_form; last by rewrite dmul_ok.
  by rewrite /dtr dmul_ok /= dmul_ok /= dmul_ok /= dmul_ok /= dadd_ok.
have -> : (let! Sp := Ok (DM (step_P junk H R P cfg)) in let! Sp0 := (if nummerical_stabilization cfg then stabilize_covariance Sp (cfg_eps cfg) else Ok Sp) in
   Ok (hb_insert t (bel_set_Sigma Sp0 (bel_set_mean nm b)) l, true)) = Ok (hb_insert t (bel_set_Sigma (DM (step_final junk H R P cfg)) (bel_set_mean nm b)) l, true).
  rewrite /= /step_final; case: nummerical_stabilization sC => [_|[J|//]].
    by rewrite stabilize_ok /= [symm (symm _ + _)]symm_id //; exact: stab_sym.
  by rewrite /= symm_id // /step_P J /gain_cov; apply: symD; [exact: sym_congr|exact: sym_congr].
by rewrite /bel_correct_mean Em dadd_ok.
Qed.
(** without the transpose the gain needs as many measurement rows as the state has dimensions *)
Theorem C104_gain : forall (h : measfun) num_iter small outer R z t cfg (l l' : buf belief) ok, (0 < num_iter)%N ->
  (forall b, get_at_t t l = Some b -> forall x y, drows (h x y).1 <> bel_dim b /\ dcols (b_Sigma b) = bel_dim b) ->
  ipriv_swapped junk h num_iter small outer false R z t cfg l = Ok (l', ok) -> l' = l /\ ok = false.
Proof.
move=> h [//|k] small o R z t cfg l l' ok _; rewrite /ipriv_swapped; case G: get_at_t => [b|] Hb; last by case=> <- <-.
rewrite /ipriv_rest => E; case: (obindE E) => -[s|] [Es]; last by case=> <- <-.
exfalso; move: Es => /=; have [N C] := Hb b erefl b z; case Eh: (h b z) N => [H r] /= N.
case: ifP => // _ {}E; case: (obindE E) => HS [_ {}E]; case: (obindE E) => a [_ {}E].
case: (obindE E) => S0 [_ {}E]; case: (obindE E) => Sm [_ {}E]; case: (obindE E) => out [_]; case: out => // {}E.
case: (obindE E) => p [Ep _]; have [X _] := dmul_shape Ep; by apply: N; rewrite -X.
Qed.
End C104.

(** ** a case that meets the hypotheses: a scalar state, measured directly *)
Definition ex_t : Z := BinInt.Zpos 5.
Definition ex_b : belief rat_realFieldType := Bel (DM (1%:M : 'M_1)) (DM (1%:M : 'M_1)) ex_t false false false.
Definition ex_cfg : corr_cfg rat_realFieldType := CorrCfg false true true (d_of_Z 1) 0.
Definition ex_l : buf (belief rat_realFieldType) := cons (ex_t, ex_b) nil.
Example C104_example : forall small,
  get_at_t ex_t ex_l = Some ex_b /\ (0 < bel_dim ex_b)%N /\ symmetric (1%:M : 'M[rat_realFieldType]_1) /\ use_Josephs_form ex_cfg /\
  exists l', ipriv_swapped (fun n A => A) (fun b z => (DM (1%:M : 'M_1), match dmul (DM (1%:M : 'M_1)) (b_mean b) with Ok x => match dsub z x with Ok r => r | _ => z end | _ => z end))
    1 small true true (DM (1%:M : 'M_1)) (DM (2%:M : 'M_1)) ex_t ex_cfg ex_l = Ok (l', true).
Proof.
move=> small; split; first by []. split; first by []. split; first by rewrite /symmetric trmx1. split; first by [].
rewrite (@C104_repaired _ _ 1 1 1%:M 1%:M 2%:M small ex_t ex_cfg _ ex_b 1%:M 1%:M) //; first last.
- by left.
- by rewrite /symmetric trmx1.
- by rewrite /symmetric trmx1.
rewrite /kf_private /= dmul_ok /= dsub_ok /= /kf_private_bel [b_Sigma _]/= correction_step_ok /step_gate /= /bel_correct /bel_correct_mean /= dadd_ok /=.
by eexists.
Qed.
Definition ex_h2 : belief rat_realFieldType -> dmat rat_realFieldType -> dmat rat_realFieldType * dmat rat_realFieldType :=
  fun _ z => (DM (const_mx 1 : 'M_(2, 1)), z).
Example C104_gain_example : forall small,
  (forall b, get_at_t ex_t ex_l = Some b -> forall x y, drows (ex_h2 x y).1 <> bel_dim b /\ dcols (b_Sigma b) = bel_dim b) /\
  ipriv_swapped (fun n A => A) ex_h2 1 small true false (DM (1%:M : 'M_2)) (DM (const_mx 2%:R : 'cV_2)) ex_t ex_cfg ex_l = Abort EigenAssert.
Proof.
move=> small; split; first by move=> b [<-].
by rewrite /ipriv_swapped /ipriv_rest /= /dtr dmul_ok /= dmul_ok /= dadd_ok /= stabilize_ok /= dmul_bad.
Qed.
Print Assumptions C104_null.
Print Assumptions C104_shadowed.
Print Assumptions C104_gain.
Print Assumptions C104_repaired.
