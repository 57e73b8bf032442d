(** C72: a joint observation given by a measurement function. *)
From Coq Require Import ZArith List Bool Arith Lia.
From mathcomp Require Import all_ssreflect all_algebra.
From Verif Require Import Outcome DoubleModel BufModel BufProofs HorizonModel HorizonProofs MeasModel HandlerModel Spec_Handler DMat KFModel Spec_Mat KFProofs BeliefModel EigenModel EigenProofs IsoModel IsoProofs Spec_Joint JointProofs Props_Joint Props_Joint2 IsoTrace DPModel Spec_DP DPProofs HObsModel HObsProofs.
Set Implicit Arguments. Unset Strict Implicit. Unset Printing Implicit Defensive.
Import Order.Theory GRing.Theory Num.Theory.
Local Open Scope outcome_scope.
Local Open Scope ring_scope.

Section C72.
Variable F : realFieldType.
Variable junk : forall n, 'M[F]_n -> 'M[F]_n.
Notation dmat := (dmat F).
Notation belief := (belief F).
Notation dict := (dict belief dmat).
Notation inst := (inst belief dmat).
Notation bels := (list (nat * belief)).
Variable is_psd : dmat -> bool.
Variable nearest : dmat -> dmat.
Variable predict : nat -> Z -> inst -> outcome (inst * bool).
Variable eps0 : F.
Hypothesis nearest_dims : forall n (A : 'M[F]_n), exists B : 'M[F]_n, nearest (DM A) = DM B.
Notation measfun := (bels -> list nat -> dmat -> list (nat * dmat) * dmat).

(** the Jacobians of the participants that are not fixed *)
Definition of_free (bs : bels) (dH : list (nat * dmat)) : list (nat * dmat) :=
  List.filter (fun e => ~~ List.existsb (fun e' => b_fixed (snd e') && (fst e' =? fst e)%nat) bs) dH.
(** the observation at t of the estimators IDs meets the beliefs bs (in map order), all of them stored *)
Record observes (IDs : list nat) (bs : bels) (t : Z) (d : dict) : Prop := Observes {
  o_asc : ascending bs;
  o_ids : forall i, List.In i IDs <-> List.In i (List.map fst bs);
  o_bel : forall i b, List.In (i, b) bs -> bel_of d i t = Some b }.
(** bs' are the beliefs bs with the means of the unfixed ones replaced by the parts of the stacked vector x *)
Definition moved_to (bs bs' : bels) N (x : 'cV[F]_N) : Prop := List.map fst bs' = List.map fst bs /\
  (forall i b b', List.In (i, b) bs -> List.In (i, b') bs' -> if b_fixed b then b' = b else exists v, b' = bel_set_mean v b) /\
  stacked_mean (free bs') x (sizes (free bs)).
(** what the handler must do with the centralized filter's step on the stacked unfixed state *)
Definition as_central (us : bels) t (d : dict) m N (Hs : 'M[F]_(m, N)) (Ps : 'M[F]_N) (R : 'M[F]_m) (r : 'cV[F]_m) cfg (seen : outcome (dict * obs_res F)) : Prop :=
  match correction_step junk (DM Hs) (DM R) (DM r) (DM (Ps + eps0%:M)) cfg with
  | Ok res => if rejected res then seen = Ok (d, ObsRes REJECTED (Some (DM r))) else
      exists (S : 'M[F]_N) (dx : 'cV[F]_N) d', DM S = (if is_psd (Sigma_apos res) then Sigma_apos res else nearest (Sigma_apos res)) /\
        DM dx = delta_mean res /\ seen = Ok (d', ObsRes PROCESSED (Some (DM r))) /\ distributed junk us t d d' S dx (sizes us)
  | Abort e => seen = Abort e
  | UB e => seen = UB e
  end.

Section Run.
Variable stkd : dict -> list (nat * dmat) -> outcome dmat.   (* the virtual stack_H *)
Variables (h : measfun) (pj : belief -> dmat -> dmat) (tol : F) (IDs : list nat) (bs : bels) (m : nat) (t : Z) (d : dict).
Variables (dHf : list (nat * dmat)) (z : dmat) (R : 'M[F]_m) (r : 'cV[F]_m) (cfg : corr_cfg F).
Notation us := (free bs).
Notation ds := (sizes us).
Notation N := (sumn ds).
Hypothesis O : observes IDs bs t d.
Notation stk := (stkd d).
Variables (Hs : 'M[F]_(m, N)) (mu : 'cV[F]_N) (Ps : 'M[F]_N).
Hypothesis EH : stk (of_free bs dHf) = Ok (DM Hs).
Hypothesis Em : stacked_mean us mu ds.
Hypothesis sR : symmetric R.
Hypothesis sC : use_Josephs_form cfg \/ nummerical_stabilization cfg.
Notation Sg := (Ps + eps0%:M).
Notation K := (step_K junk Hs R Sg cfg).
Notation gate := (step_gate junk Hs R r Sg cfg).
Notation x1 := (mu + K *m r).
Notation moved := (@moved F bs).
Notation post := (IState (at_mean x1 0 us) (DM Hs) (DM K) (DM (1%:M : 'M[F]_N)) (DM Sg) (DM r)).
Lemma A : asc bs. Proof. exact: ascending_asc (o_asc O). Qed.
(** one pass of the loop, whatever produced the residual r with the Jacobians dHf *)
Lemma pass (x e : 'cV[F]_N) iter Ht Kt Pt rt r0 : h (moved x) IDs z = (dHf, DM r0) -> (if (0 < iter)%N then e = x - mu /\ r0 + Hs *m e = r else e = 0 /\ r0 = r) ->
  ((0 < iter)%N -> forall i b v, List.In (i, b) us -> forall y, pj (bel_set_mean y b) v = deye F (bel_dim b) (bel_dim b)) ->
  iterate_gen junk h pj stk bs IDs (DM R) z (DM Sg) N cfg iter (IState (at_mean x 0 us) Ht Kt (DM (1%:M : 'M[F]_N)) Pt rt) =
  let! out := gate in if out then Ok (Return (ObsRes REJECTED (Some (DM r)))) else
    Ok (Iterated (IState (at_mean (x + (K *m r - e)) 0 us) (DM Hs) (DM K) (DM (1%:M : 'M[F]_N)) (DM Sg) (DM r)) (DM (K *m r - e))).
Proof.
move=> Eh Er Hp; rewrite /iterate_gen /= -/(unfixed bs) (full_ok A) Eh drop_fixedE -/(of_free bs dHf) EH /=.
have -> : check_dim_meas (DM Hs) (DM R) (DM r0) (DM Sg) by rewrite /check_dim_meas /= !eqxx.
rewrite /=; have -> : (if (0 <? iter)%nat then
      let! e0 := state_error bs (at_mean x 0 us) N in let! J := state_jacobian pj (at_mean x 0 us) e0 N in
      let! Je := dmul J e0 in let! HJe := dmul (DM Hs) Je in let! r1 := dadd (DM r0) HJe in Ok (e0, J, r1)
    else Ok (dzero F N 1, DM (1%:M : 'M[F]_N), DM r0)) = Ok (DM e, DM (1%:M : 'M[F]_N), DM r).
  case: iter Er Hp => [|iter] /= Er Hp; first by case: Er => -> ->.
  case: Er => Ee Er; rewrite (@error_ok F us bs x mu) //; last exact: nodup_us A.
  rewrite -Ee /= (@jacobian_ok F us) //=; first by rewrite !dmul_ok /= dmul_ok /= mul1mx dadd_ok /= Er.
  - exact: at_mean_dims.
  - apply: at_mean_unfixed; exact: unfixed_idem.
  move=> i b v Hin; have [k Ek] := List.In_nth_error _ _ Hin; move: Ek; rewrite at_mean_nth.
  case En: (List.nth_error us k) => [[j c]|//] [_ <-]; exact: (Hp isT j c v (List.nth_error_In _ _ En)).
rewrite /dtr /= !dmul_ok /= trmx1 mul1mx dmul_ok /= mulmx1 dmul_ok /= dmul_ok /= dadd_ok /= stabilize_ok /= -/(step_S Hs R Sg cfg) -/gate.
case: gate => //= [[|//]] //=.
rewrite dinv_ok /= dmul_ok /= dmul_ok /= dmul_ok /= mul1mx dsub_ok /=.
by rewrite move_ok.
Qed.
(** the covariance after the loop *)
Lemma after iter : (((1 < iter)%N) -> forall i b v, List.In (i, b) us -> forall y, pj (bel_set_mean y b) v = deye F (bel_dim b) (bel_dim b)) -> symmetric Ps ->
  posterior is_psd nearest pj bs N (DM R) cfg iter post = let Sf := DM (step_final junk Hs R Sg cfg) in Ok (if is_psd Sf then Sf else nearest Sf).
Proof.
move=> Hp sP; rewrite /posterior /= dmul_ok /= deye_square dsub_ok /= -/(step_U junk Hs R Sg cfg).
have -> : (if use_Josephs_form cfg
     then let! u := dmul (DM (step_U junk Hs R Sg cfg)) (DM Sg) in let! v := dmul u (dtr (DM (step_U junk Hs R Sg cfg))) in
          let! w := dmul (DM K) (DM R) in let! x := dmul w (dtr (DM K)) in dadd v x
     else dmul (DM (step_U junk Hs R Sg cfg)) (DM Sg)) = Ok (DM (step_P junk Hs R Sg cfg)).
  rewrite /step_P; case: use_Josephs_form; last by rewrite dmul_ok.
  by rewrite /dtr dmul_ok /= dmul_ok /= dmul_ok /= dmul_ok /= dadd_ok.
rewrite /=; have -> : (if (1 <? iter)%nat then
      let! e := state_error bs (at_mean x1 0 us) N in let! L := state_jacobian pj (at_mean x1 0 us) e N in
      let! a := dmul L (DM (step_P junk Hs R Sg cfg)) in dmul a (dtr L)
    else Ok (DM (step_P junk Hs R Sg cfg))) = Ok (DM (step_P junk Hs R Sg cfg)).
  case: Nat.ltb_spec => // Li; rewrite (@error_ok F us bs x1 mu) //; last exact: nodup_us A.
  rewrite /= (@jacobian_ok F us) //=; first by rewrite /dtr !dmul_ok /= dmul_ok mul1mx trmx1 mulmx1.
  - exact: at_mean_dims.
  - apply: at_mean_unfixed; exact: unfixed_idem.
  move=> i b v Hin; have [k Ek] := List.In_nth_error _ _ Hin; move: Ek; rewrite at_mean_nth.
  case En: (List.nth_error us k) => [[j c]|//] [_ <-]; apply: (Hp _ j c v (List.nth_error_In _ _ En)); exact/ssrnat.ltP.
rewrite /step_final; have sS : symmetric Sg by apply: symD => //; exact: sym_scalar.
case: nummerical_stabilization sC => [_|[J|//]].
  rewrite /= stabilize_ok /= [symm (symm _ + _)]symm_id //; apply: symD; [exact: symm_sym|exact: sym_scalar].
rewrite /= symm_id // /step_P J /gain_cov; apply: symD; [exact: sym_congr|exact: sym_congr].
Qed.

Lemma ok_d : get_dict_bel predict IDs t d = Ok (d, bs).
Proof. apply: collect_any; [exact: A|exact: (o_ids O)|exact: (o_bel O)]. Qed.
Lemma es_N : List.fold_left (fun n (e : nat * belief) => (n + bel_dim (snd e))%nat) us 0%N = N.
Proof.
have G : forall l n, List.fold_left (fun n (e : nat * belief) => (n + bel_dim (snd e))%nat) l n = (n + sumn (sizes l))%N.
  by elim=> [|e l IH] n /=; rewrite ?addn0 // IH addnA.
by rewrite G.
Qed.
(** from the loop on *)
Notation loop ni := (iterations_gen junk h pj tol stk ni bs IDs (DM R) z (DM Sg) N cfg 0 (IState us (dempty F) (dempty F) (DM (1%:M : 'M[F]_N)) (DM Sg) (dempty F))).
Definition same_tangent : Prop := forall i b v, List.In (i, b) us -> forall y, pj (bel_set_mean y b) v = deye F (bel_dim b) (bel_dim b).
Lemma finish_process ni iter : us <> nil -> symmetric Ps -> stack_Sigma bs t d = Ok (DM Ps) -> (exists mm, stack_mean bs = Ok mm) ->
  loop ni = (let! out := gate in Ok (if out then inl (ObsRes REJECTED (Some (DM r))) else inr (post, iter))) -> ((1 < iter)%N -> same_tangent) ->
  process_observation_gen junk is_psd nearest predict eps0 h pj ni tol stkd (DM R) z t IDs cfg d =
  (let! out := gate in Ok (d, if out then inl (ObsRes REJECTED (Some (DM r))) else
     inr (let Sf := DM (step_final junk Hs R Sg cfg) in if is_psd Sf then Sf else nearest Sf, set_means (at_mean x1 0 us) bs, N, DM r))).
Proof.
move=> Ns sP ES [mm EM] EL Hp; rewrite /process_observation_gen ok_d /=.
have -> : forall X (a b : X), (if bs is nil then a else b) = b by move=> X a b; case: (bs) Ns.
rewrite EM /= ES /= stabilize_ok /= (symm_id sP) es_N deye_square EL.
by case: gate => [[]|e|e] //=; rewrite (after _ sP).
Qed.
Lemma gate_bind X (f : bool -> outcome X) g : (forall b, gate = Ok b -> f b = g b) -> (let! out := gate in f out) = (let! out := gate in g out).
Proof. by case: gate => //= b H; exact: H. Qed.
(** one iteration *)
Lemma run1 : h bs IDs z = (dHf, DM r) -> loop 1 = (let! out := gate in Ok (if out then inl (ObsRes REJECTED (Some (DM r))) else inr (post, 1%N))).
Proof.
move=> Eh; rewrite /iterations_gen -[X in IState X](at_mean_self Em) (@pass mu 0 0%N _ _ _ _ r) //; last first.
  by rewrite moved_self //; exact: A.
rewrite subr0; by case: gate => [[]|e|e].
Qed.
(** any number of iterations, when the residual is affine in the stacked mean *)
Lemma stay : (forall x, h (moved x) IDs z = (dHf, DM (r - Hs *m (x - mu)))) -> same_tangent -> gate = Ok false -> forall n iter, (0 < iter)%N ->
  exists iter', iterations_gen junk h pj tol stk n bs IDs (DM R) z (DM Sg) N cfg iter post = Ok (inr (post, iter')).
Proof.
move=> Eh Hp Eg; elim=> [|n IH] iter Li; first by exists iter.
have Ei : if (0 < iter)%N then x1 - mu = x1 - mu /\ r - Hs *m (x1 - mu) + Hs *m (x1 - mu) = r else x1 - mu = 0 /\ r - Hs *m (x1 - mu) = r by rewrite Li subrK.
rewrite /= (@pass x1 (x1 - mu) iter _ _ _ _ (r - Hs *m (x1 - mu)) (Eh x1) Ei); last by move=> _; exact: Hp.
rewrite Eg /=; have -> : x1 + (K *m r - (x1 - mu)) = x1 by rewrite addrC [mu + _]addrC addrK subrr add0r.
by case: ifP => _; [exists iter|exact: IH].
Qed.

Lemma run_any : (forall x, h (moved x) IDs z = (dHf, DM (r - Hs *m (x - mu)))) -> same_tangent -> forall ni, (0 < ni)%N ->
  exists iter, loop ni = (let! out := gate in Ok (if out then inl (ObsRes REJECTED (Some (DM r))) else inr (post, iter))).
Proof.
move=> Eh Hp [//|ni] _; have Eh0 : h (moved mu) IDs z = (dHf, DM r) by rewrite Eh subrr mulmx0 subr0.
have Ep : iterate_gen junk h pj stk bs IDs (DM R) z (DM Sg) N cfg 0 (IState us (dempty F) (dempty F) (DM (1%:M : 'M[F]_N)) (DM Sg) (dempty F)) =
  let! out := gate in if out then Ok (Return (ObsRes REJECTED (Some (DM r)))) else Ok (Iterated post (DM (K *m r))).
  by have := @pass mu 0 0%N (dempty F) (dempty F) (DM Sg) (dempty F) r Eh0; rewrite (at_mean_self Em) subr0 => -> //.
rewrite /= Ep; case Eg: gate => [[]|e|e] /=; try by exists 0%N.
by have [iter' E] := stay Eh Hp Eg ni (ltn0Sn 0); exists iter'.
Qed.
(** LinearBelief: the Jacobian of the second pass is an empty matrix *)
Lemma second_pass ni : (exists i (b : belief), List.nth_error us 0 = Some (i, b) /\ b_fixed b = false /\ (0 < bel_dim b)%N) -> (forall x : 'cV[F]_N, exists dH1 r1 (H1 : 'M[F]_(m, N)), h (moved x) IDs z = (dH1, DM (r1 : 'cV[F]_m)) /\ stk (of_free bs dH1) = Ok (DM H1)) ->
  h bs IDs z = (dHf, DM r) -> (forall b v, pj b v = deye F 0 0) -> loop ni.+2 = (let! out := gate in if out then Ok (inl (ObsRes REJECTED (Some (DM r)))) else Abort EigenAssert).
Proof.
move=> [j [c [Hin [Fx Dp]]]] Eh E0 Hp; rewrite /=.
have Eh0 : h (moved mu) IDs z = (dHf, DM r) by rewrite moved_self //; exact: A.
have Ep : iterate_gen junk h pj stk bs IDs (DM R) z (DM Sg) N cfg 0 (IState us (dempty F) (dempty F) (DM (1%:M : 'M[F]_N)) (DM Sg) (dempty F)) =
  let! out := gate in if out then Ok (Return (ObsRes REJECTED (Some (DM r)))) else Ok (Iterated post (DM (K *m r))).
  by have := @pass mu 0 0%N (dempty F) (dempty F) (DM Sg) (dempty F) r Eh0; rewrite (at_mean_self Em) subr0 => -> //.
rewrite Ep; case Eg: gate => [[]|e|e] //=.
rewrite /iterate_gen /= -/(unfixed bs) (full_ok A); have [dH1 [r1 [H1 [-> E1]]]] := Eh x1; rewrite drop_fixedE -/(of_free bs dH1) E1 /=.
have -> : check_dim_meas (DM H1) (DM R) (DM r1) (DM Sg) by rewrite /check_dim_meas /= !eqxx.
rewrite /= (@error_ok F us bs x1 mu) //=; last exact: nodup_us A.
suff -> : state_jacobian pj (at_mean x1 0 us) (DM (x1 - mu)) N = Abort EigenAssert by [].
move: (x1 - mu) => e; case Eu: (at_mean x1 0 us) => [|[i b] l].
  have := congr1 (fun l => seq.size (List.map fst l)) Eu; rewrite at_mean_ids /= => S0; exfalso; move: S0 Hin; clear; by case: (us).
have [Ec Ef] : bel_dim b = bel_dim c /\ b_fixed b = b_fixed c.
  by have := at_mean_nth x1 0 us 0; rewrite Eu [LHS]/= Hin => -[_ ->].
have [_ [D2 [_ [_ Lk]]]] := dim_rows Hin; rewrite -(dims_size us) in Lk.
rewrite /state_jacobian /= Ef Fx /= Ec D2 -[X in dblock _ X](off0 ds) meanE //= Hp set_block_bad //.
move: Dp; rewrite D2 /dim_k /=; by case: (dims us) => [|[]].
Qed.
Lemma no_pass : loop 0 = Ok (inr (IState us (dempty F) (dempty F) (DM (1%:M : 'M[F]_N)) (DM Sg) (dempty F), 0%N)).
Proof. by []. Qed.
Lemma moved_moved (x : 'cV[F]_N) : moved_to bs (moved x) x.
Proof.
split; first exact: moved_ids; split; last by have -> : free (moved x) = at_mean x 0 us := moved_unfixed A x; exact: at_mean_stacked.
move=> i b b' Hb /(moved_In A) Hb'.
case Fb: (b_fixed b).
  case: Hb' => [[Hb' _]|Hb'].
    have := find_In (nodup_bs A) Hb; have := find_In (nodup_bs A) Hb'; by move=> -> [].
  have [k Ek] := List.In_nth_error _ _ Hb'; move: Ek; rewrite at_mean_nth; case En: (List.nth_error us k) => [[j c]|//] [Ej _]; subst j.
  have := List.nth_error_In _ _ En => /List.filter_In [Hc Fc].
  by have := find_In (nodup_bs A) Hb; rewrite (find_In (nodup_bs A) Hc) => -[Ebc]; rewrite /= Ebc Fb in Fc.
case: Hb' => [[Hb' Fb']|Hb'].
  by have := find_In (nodup_bs A) Hb; rewrite (find_In (nodup_bs A) Hb') => -[Ebc]; rewrite Ebc Fb in Fb'.
have [k Ek] := List.In_nth_error _ _ Hb'; move: Ek; rewrite at_mean_nth; case En: (List.nth_error us k) => [[j c]|//] [Ej Eb]; subst j.
have := List.nth_error_In _ _ En => /List.filter_In [Hc Fc].
have := find_In (nodup_bs A) Hb; rewrite (find_In (nodup_bs A) Hc) => -[Ebc]; rewrite -Ebc -Eb; eexists; reflexivity.
Qed.
End Run.
Lemma bs_some (bs : bels) (dHf : list (nat * dmat)) m t d : participants (of_free bs dHf) (free bs) m t d -> bs <> nil.
Proof. by move=> P E; apply: (p_some P); rewrite E. Qed.
Lemma some_first bs (dHf : list (nat * dmat)) m t d : participants (of_free bs dHf) (free bs) m t d ->
  exists i (b : belief), List.nth_error (free bs) 0 = Some (i, b) /\ b_fixed b = false /\ (0 < bel_dim b)%N.
Proof.
move=> P; have := p_some P; case Eu: (free bs) => [//|[i b] l] _.
have Hc : List.In (i, b) (free bs) by rewrite Eu; left.
by exists i, b; split=> //; split; [have [] := p_bel P Hc|have [] := p_sym P Hc].
Qed.
Lemma finish h pj tol IDs bs m t (d : dict) dHf z (R : 'M[F]_m) (r : 'cV[F]_m) cfg (Hs : 'M[F]_(m, sumn (sizes (free bs)))) (mu : 'cV[F]_(sumn (sizes (free bs)))) (Ps : 'M[F]_(sumn (sizes (free bs)))) ni iter :
  observes IDs bs t d -> participants (of_free bs dHf) (free bs) m t d -> stacked_mean (free bs) mu (sizes (free bs)) -> symmetric R ->
  use_Josephs_form cfg \/ nummerical_stabilization cfg -> symmetric Ps -> stack_Sigma bs t d = Ok (DM Ps) -> (exists mm, stack_mean bs = Ok mm) ->
  iterations_gen junk h pj tol (@stack_H F) ni bs IDs (DM R) z (DM (Ps + eps0%:M)) (sumn (sizes (free bs))) cfg 0
    (IState (free bs) (dempty F) (dempty F) (DM (1%:M : 'M[F]_(sumn (sizes (free bs))))) (DM (Ps + eps0%:M)) (dempty F)) =
    (let! out := step_gate junk Hs R r (Ps + eps0%:M) cfg in Ok (if out then inl (ObsRes REJECTED (Some (DM r))) else
       inr (IState (at_mean (mu + step_K junk Hs R (Ps + eps0%:M) cfg *m r) 0 (free bs)) (DM Hs) (DM (step_K junk Hs R (Ps + eps0%:M) cfg)) (DM (1%:M : 'M[F]_(sumn (sizes (free bs))))) (DM (Ps + eps0%:M)) (DM r), iter))) ->
  ((1 < iter)%N -> same_tangent pj bs) ->
  as_central (free bs) t d Hs Ps R r cfg (apply_observation_h junk is_psd nearest predict eps0 h pj ni tol (DM R) z t IDs cfg d).
Proof.
move=> O P Em sR sC sP ES EM EL Hp; rewrite /as_central /apply_observation_h /process_observation.
rewrite (finish_process (stkd := fun _ => @stack_H F) O Em sR sC (p_some P) sP ES EM EL Hp) correction_step_ok.
case: step_gate => [[]|e|e] //=.
set Sf := step_final _ _ _ _ _; have [X EX] : exists X : 'M[F]_(sumn (sizes (free bs))), DM X = (if is_psd (DM Sf) then DM Sf else nearest (DM Sf)).
  by case: is_psd; [exists Sf|have [B EB] := nearest_dims Sf; exists B].
rewrite -EX -/(moved (mu + _)) (write_moved junk _ (DM X) t d (ascending_asc (o_asc O)) Em).
have [d' [E D]] := dist junk P X (step_K junk Hs R (Ps + eps0%:M) cfg *m r); rewrite E /=.
by eexists X, _, d'.
Qed.

(** the joint mean and covariance of the unfixed participants, which the fixed ones do not enter *)
Lemma mean_free bs (dHf : list (nat * dmat)) m t d : participants (of_free bs dHf) (free bs) m t d ->
  exists mu : 'cV[F]_(sumn (sizes (free bs))), stack_mean bs = Ok (DM mu) /\ stacked_mean (free bs) mu (sizes (free bs)).
Proof. move=> P; apply: (stack_mean_spec _ (erefl : unfixed bs = free bs)) => i b Hin; exact: (p_mean P Hin). Qed.
Lemma cov_free bs (dHf : list (nat * dmat)) m t d : participants (of_free bs dHf) (free bs) m t d ->
  exists A : 'M[F]_(sumn (sizes (free bs))), stack_Sigma bs t d = Ok (DM A) /\ stacked_cov (free bs) t d A (sizes (free bs)).
Proof.
move=> P; have [A [E SA]] := cov_ok P; exists A; split=> //.
move: E; rewrite !stack_SigmaE /=; by rewrite [unfixed (free bs)]unfixed_idem.
Qed.
Lemma H_unique bs (dHf : list (nat * dmat)) m t d (H1 H2 : 'M[F]_(m, sumn (sizes (free bs)))) : participants (of_free bs dHf) (free bs) m t d ->
  stacked_H (of_free bs dHf) H1 (sizes (free bs)) -> stacked_H (of_free bs dHf) H2 (sizes (free bs)) -> H1 = H2.
Proof.
move=> P S1 S2; set ds := sizes (free bs); apply: trmx_inj; apply/matrixP => a b; have [k [x [Hk [Hx Ea]]]] := locate (ltn_ord a).
have [[i X] En] : exists e, List.nth_error (of_free bs dHf) k = Some e.
  case E: (List.nth_error (of_free bs dHf) k) => [e|]; first by exists e.
  move/List.nth_error_None: E => /ssrnat.leP; rewrite -(List.map_length fst) (p_ids P) List.map_length leqNgt.
  by move: Hk; rewrite /ds -[sizes _]/(dims (free bs)) dims_size => ->.
have /DM_inj/matrixP/(_ b (Ordinal Hx)) : DM (H1 *m (sel F ds k)^T) = DM (H2 *m (sel F ds k)^T).
  by apply: Ok_inj; rewrite -!colsE // (S1 _ _ _ En) (S2 _ _ _ En).
rewrite !sel_mulr //= -Ea !mxE; by rewrite !entryE.
Qed.

(** ** C72: whatever h, only the participants' entries at t change, and they change only if the result is PROCESSED *)
Definition processed (o : obs_res F) : bool := match o_status o with PROCESSED => true | _ => false end.
Lemma bind_ok X Y (o : outcome X) (f : X -> outcome Y) y : obind o f = Ok y -> exists x, o = Ok x /\ f x = Ok y.
Proof. by case: o => [x|e|e] //= E; exists x. Qed.
Ltac next := let E := fresh in intro E; apply bind_ok in E; destruct E as [? [_ E]]; revert E.
Lemma returns_iter h pj bs IDs R z Sa es cfg iter s o : iterate junk h pj bs IDs R z Sa es cfg iter s = Ok (Return o) -> processed o = false.
Proof.
rewrite /iterate /iterate_gen; case: (h _ _ _) => dH r0; next; case: ifP => _; first by case=> <-.
next; case: x0 => -[e J] r; do 6 next; next; case: ifP => _; first by case=> <-.
by repeat next.
Qed.
Lemma returns_loop h pj tol R z Sa es cfg bs IDs o : forall n iter s,
  iterations junk h pj tol n bs IDs R z Sa es cfg iter s = Ok (inl o) -> processed o = false.
Proof.
elim=> [//|n IH] iter s; rewrite /iterations /= -/(iterate junk h pj) -/(iterations junk h pj tol) => E; have [[o'|s' dx] [E1]] := bind_ok E; first by case=> <-; exact: returns_iter E1.
case: ifP => // _; exact: IH.
Qed.
Theorem C72_untouched : forall h pj num_iter tol R z t IDs cfg (d d' : dict) o,
  apply_observation_h junk is_psd nearest predict eps0 h pj num_iter tol R z t IDs cfg d = Ok (d', o) -> touched t IDs d d' (processed o).
Proof.
move=> h pj ni tol R z t IDs cfg d d' o; rewrite /apply_observation_h /process_observation /process_observation_gen => E.
have {E} [[d1 q] [E E']] := bind_ok E; have {E} [[d0 bs] [Eb E]] := bind_ok E; move: E.
case: bs Eb => [|e bs] Eb E; first by case: E E' => <- <- [<- <-]; exact: touched_of Eb _ _.
have {E} [mm [_ E]] := bind_ok E; have {E} [Sa [_ E]] := bind_ok E; have {E} [Sb [_ E]] := bind_ok E; have {E} [[o'|[s iter]] [El E]] := bind_ok E.
  by case: E E' => <- <- [<- <-]; rewrite (returns_loop El); exact: touched_of Eb _ _.
have {E} [Sp [_ E]] := bind_ok E; case: E E' => <- <- E; have {E} [d2 [Ew E]] := bind_ok E; case: E => <- <-; apply: (touched_of Eb) => // _.
have := near_write Ew; have -> // : List.map fst (set_means (s_bel s) (e :: bs)) = List.map fst (e :: bs).
by rewrite /set_means List.map_map; apply: List.map_ext => x; case: smap_find.
Qed.
(** one iteration: the centralized correction with the Jacobians and the residual h returns *)
Theorem C72_one_iteration : forall h pj tol IDs bs m t (d : dict) dHf z (R : 'M[F]_m) (r : 'cV[F]_m) cfg,
  observes IDs bs t d -> participants (of_free bs dHf) (free bs) m t d -> h bs IDs z = (dHf, DM r) ->
  symmetric R -> use_Josephs_form cfg \/ nummerical_stabilization cfg ->
  exists (Hs : 'M[F]_(m, sumn (sizes (free bs)))) (Ps : 'M[F]_(sumn (sizes (free bs)))),
  stacked_H (of_free bs dHf) Hs (sizes (free bs)) /\ stacked_cov (free bs) t d Ps (sizes (free bs)) /\
  as_central (free bs) t d Hs Ps R r cfg (apply_observation_h junk is_psd nearest predict eps0 h pj 1 tol (DM R) z t IDs cfg d).
Proof.
move=> h pj tol IDs bs m t d dHf z R r cfg O P Eh sR sC.
have [Hs [EH SH]] := H_ok P; have [Ps [EP SP]] := cov_free P; have [mu [EM SM]] := mean_free P.
exists Hs, Ps; split=> //; split=> //; have [sP _] := SP.
apply: (finish (iter := 1) O P SM sR sC sP EP) => //; first by exists (DM mu).
exact: (run1 (stkd := fun _ => @stack_H F) pj tol R cfg O Ps EH SM Eh).
Qed.
(** any number of iterations, any tolerance: the residual of h is affine in the unfixed means and the belief's tangent space does not depend on the point *)
Theorem C72_any_iterations : forall h pj num_iter tol IDs bs m t (d : dict) dHf z (R : 'M[F]_m) (c : 'cV[F]_m) cfg (Hs : 'M[F]_(m, sumn (sizes (free bs)))),
  (0 < num_iter)%N -> observes IDs bs t d -> participants (of_free bs dHf) (free bs) m t d -> stacked_H (of_free bs dHf) Hs (sizes (free bs)) ->
  (forall bs' (x : 'cV[F]_(sumn (sizes (free bs)))), moved_to bs bs' x -> h bs' IDs z = (dHf, DM (c - Hs *m x))) ->
  (forall b v, pj b v = deye F (bel_dim b) (bel_dim b)) ->
  symmetric R -> use_Josephs_form cfg \/ nummerical_stabilization cfg ->
  exists (mu : 'cV[F]_(sumn (sizes (free bs)))) (Ps : 'M[F]_(sumn (sizes (free bs)))),
  stacked_mean (free bs) mu (sizes (free bs)) /\ stacked_cov (free bs) t d Ps (sizes (free bs)) /\
  as_central (free bs) t d Hs Ps R (c - Hs *m mu) cfg (apply_observation_h junk is_psd nearest predict eps0 h pj num_iter tol (DM R) z t IDs cfg d).
Proof.
move=> h pj ni tol IDs bs m t d dHf z R c cfg Hs L O P SH Eh Hp sR sC.
have [Hs' [EH SH']] := H_ok P; have [Ps [EP SP]] := cov_free P; have [mu [EM SM]] := mean_free P.
have ? := H_unique P SH SH'; subst Hs'.
exists mu, Ps; split=> //; split=> //; have [sP _] := SP.
have Ea x : h (moved (bs := bs) x) IDs z = (dHf, DM (c - Hs *m mu - Hs *m (x - mu))).
  by rewrite (Eh _ x (moved_moved O x)) mulmxBr opprB addrA subrK.
have T : same_tangent pj bs by move=> i b v _ y; rewrite Hp.
have [iter E] := run_any (stkd := fun _ => @stack_H F) tol R cfg O Ps EH SM Ea T L.
by apply: (finish (iter := iter) O P SM sR sC sP EP) => //; exists (DM mu).
Qed.
(** LinearBelief's own Jacobian is an empty matrix: a second iteration aborts; so does a run without iterations *)
Theorem C72_linear_belief_aborts : forall h num_iter tol IDs bs m t (d : dict) dHf z (R : 'M[F]_m) (c : 'cV[F]_m) cfg (Hs : 'M[F]_(m, sumn (sizes (free bs)))),
  (1 < num_iter)%N -> observes IDs bs t d -> participants (of_free bs dHf) (free bs) m t d -> stacked_H (of_free bs dHf) Hs (sizes (free bs)) ->
  (forall bs' (x : 'cV[F]_(sumn (sizes (free bs)))), moved_to bs bs' x -> h bs' IDs z = (dHf, DM (c - Hs *m x))) ->
  symmetric R -> use_outlier_rejection cfg = false ->
  apply_observation_h junk is_psd nearest predict eps0 h (fun b v => bel_plus_jacobian v b) num_iter tol (DM R) z t IDs cfg d = Abort EigenAssert.
Proof.
move=> h n tol IDs bs m t d dHf z R c cfg Hs Ln O P SH Eh sR nR.
have [Hs' [EH SH']] := H_ok P; have [Ps [EP [sP _]]] := cov_free P; have [mu [EM SM]] := mean_free P.
have ? := H_unique P SH SH'; subst Hs'.
rewrite /apply_observation_h /process_observation /process_observation_gen (ok_d O) /=.
have -> : forall X (a b : X), (if bs is nil then a else b) = b by move=> X a b; case: (bs) (bs_some P).
rewrite EM /= EP /= stabilize_ok /= (symm_id sP) es_N deye_square.
have [ni En] : exists k, n = k.+2 by case: (n) Ln => [//|[//|k]] _; exists k.
have L := second_pass (stkd := fun _ => @stack_H F) (h := h) (z := z) (r := c - Hs *m mu) (pj := fun b v => bel_plus_jacobian v b) tol R cfg O Ps EH SM ni (some_first P); rewrite -En in L.
rewrite L //; first by rewrite /step_gate nR.
- by move=> x; exists dHf, (c - Hs *m x), Hs; rewrite (Eh _ x (moved_moved O x)).
- by rewrite -{1}(moved_self (ascending_asc (o_asc O)) SM) (Eh _ mu (moved_moved O mu)).
Qed.
Lemma dsub_bad n p q r (A : 'M[F]_(n, p)) (B : 'M[F]_(q, r)) : q <> n -> dsub (DM A) (DM B) = Abort EigenAssert.
Proof. by move=> Ne; rewrite /dsub /dzip /=; case: eqP. Qed.
Theorem C72_no_iteration_aborts : forall h pj tol IDs bs m t (d : dict) dHf z R cfg,
  observes IDs bs t d -> participants (of_free bs dHf) (free bs) m t d ->
  apply_observation_h junk is_psd nearest predict eps0 h pj 0 tol R z t IDs cfg d = Abort EigenAssert.
Proof.
move=> h pj tol IDs bs m t d dHf z R cfg O P.
have [Ps [EP [sP _]]] := cov_free P; have [mu [EM SM]] := mean_free P.
rewrite /apply_observation_h /process_observation /process_observation_gen (ok_d O) /=.
have -> : forall X (a b : X), (if bs is nil then a else b) = b by move=> X a b; case: (bs) (bs_some P).
rewrite EM /= EP /= stabilize_ok /= (symm_id sP) es_N.
have Np : (0 < sumn (sizes (free bs)))%N.
  move: (p_some P) (p_sym P); case: (free bs) => [//|[i b] l] _ /(_ i b (or_introl erefl)) [_ Hb] /=; exact: leq_trans Hb (leq_addr _ _).
rewrite /posterior /= /dempty dmul_ok /= dsub_bad //; by move: Np => /[swap] <-.
Qed.
End C72.

(** two correlated free participants, a fixed one, and a linear measurement function z - (x2 - x5) + 3 (x7 - 1) *)
Section Example72.
Let Q := rat_realFieldType.
Let c1 (x : Q) : dmat Q := DM (x%:M : 'M[Q]_1).
Let b (x s : Q) : belief Q := Bel (c1 x) (c1 s) Z0 false false true.
Let b7 : belief Q := Bel (c1 1) (c1 1) Z0 true false true.
Let d0 : dict (belief Q) (dmat Q) :=
  [:: (7, Inst true [:: (Z0, b7)] [::]);
      (5, Inst true [:: (Z0, b 3%:R 4%:R)] [:: (2, [:: (Z0, c1 1)])]);
      (2, Inst true [:: (Z0, b 2%:R 3%:R)] [:: (5, [:: (Z0, c1 2%:R)])])]%N.
Let H0 : list (nat * dmat Q) := [:: (2, c1 1); (5, c1 (- 1)); (7, c1 3%:R)]%N.
Let bs0 : list (nat * belief Q) := [:: (2, b 2%:R 3%:R); (5, b 3%:R 4%:R); (7, b7)]%N.
Let ids0 : list nat := [:: 5; 7; 2; 5]%N.
Let val (i : nat) (bs : list (nat * belief Q)) : Q := match smap_find i bs with Some x => entry (b_mean x) 0 0 | None => 0 end.
Let h0 (bs : list (nat * belief Q)) (ids : list nat) (z : dmat Q) : list (nat * dmat Q) * dmat Q :=
  (H0, c1 (entry z 0 0 - (val 2 bs - val 5 bs) - 3%:R * (val 7 bs - 1))).
Let Hs0 : 'M[Q]_(1, sumn (sizes (free bs0))) := \row_j (if (j : nat) == 0%N then 1 else - 1).
Lemma c1_tr x : dtr (c1 x) = c1 x.
Proof. by rewrite /dtr /c1 /= tr_scalar_mx. Qed.
Example C72_example : observes ids0 bs0 Z0 d0 /\ participants (of_free bs0 H0) (free bs0) 1 Z0 d0 /\ stacked_H (of_free bs0 H0) Hs0 (sizes (free bs0)) /\
  (forall bs' (x : 'cV[Q]_(sumn (sizes (free bs0)))), moved_to bs0 bs' x -> h0 bs' ids0 (c1 4%:R) = (H0, DM ((4%:R%:M : 'M[Q]_1) - Hs0 *m x))) /\
  List.map fst (free bs0) <> List.map fst bs0 /\ get_Sigma_IJ 2 5 Z0 d0 <> Ok (dempty Q).
Proof.
have G25 : get_Sigma_IJ 2 5 Z0 d0 = Ok (c1 2%:R).
  by rewrite /get_Sigma_IJ /= c1_tr /c1 dmul_ok mulmx1.
have nnil T k : List.nth_error (@nil T) k = None by case: k.
split; last split; last split; last split; last split.
- split=> /=.
  + by case=> [|[|[|k]]] [|[|[|l]]] //= i j bi bj; rewrite ?nnil // => -[<- _] [<- _].
  + by move=> i; tauto.
  + by move=> i bb [[<- <-]|[[<- <-]|[[<- <-]|//]]].
- split=> //=.
  + by case=> [|[|k]] [|[|l]] //= i j bi bj; rewrite ?nnil // => -[<- _] [<- _].
  + case=> [|[|k]] //= i Hk bb; rewrite ?nnil // => -[_ <-] [_ <-]; by [].
  + by move=> i bb [[<- <-]|[[<- <-]|//]].
  + by move=> i bb [[_ <-]|[[_ <-]|//]] /=; rewrite c1_tr.
  + by move=> i bb [[_ <-]|[[_ <-]|//]].
  + move=> id i; case: ifP => _; first by case=> <-; repeat constructor; case.
    case: ifP => _; first by case=> <-; repeat constructor; case.
    by case: ifP => // _ [<-] /=; repeat constructor => /=; case.
  + move=> i bb j X [[<- <-]|[[<- <-]|//]]; rewrite /fac_of /= /ccf_at /=; do !case: ifP => //= _; by case=> <-.
  + move=> i j bi bj [[<- <-]|[[<- <-]|//]] [[<- <-]|[[<- <-]|//]] // _.
    by exists (c1 2%:R); split=> //; right.
- case=> [|[|k]] i X E; last by move: E; rewrite /= nnil.
  + rewrite colsE //; case: E => _ <-; congr (Ok (DM _)); apply/matrixP => a c; rewrite sel_mulr // !ord1 /=; by rewrite (@entry_in _ _ _ Hs0 0 0 erefl erefl) !mxE.
  + rewrite colsE //; case: E => _ <-; congr (Ok (DM _)); apply/matrixP => a c; rewrite sel_mulr // !ord1 /=; by rewrite (@entry_in _ _ _ Hs0 0 1 erefl erefl) !mxE.
- move=> bs' x [Ei [Em Es]].
  case: bs' Ei Em Es => [//|[i2 b2] [//|[i5 b5] [//|[i7 b7'] [|//]]]] // Ei; case: Ei => -> -> -> Em Es.
  have [v2 E2] := Em 2%N _ b2 (or_introl erefl) (or_introl erefl).
  have [v5 E5] := Em 5%N _ b5 (or_intror (or_introl erefl)) (or_intror (or_introl erefl)).
  have E7 : b7' = b7 := Em 7%N _ b7' (or_intror (or_intror (or_introl erefl))) (or_intror (or_intror (or_introl erefl))).
  subst b2 b5 b7'; rewrite /h0 /val /=; congr (_, DM _).
  have M2 := Es 0%N _ _ erefl; have M5 := Es 1%N _ _ erefl.
  rewrite meanE //= in M2; rewrite meanE //= in M5; have {}M2 := Ok_inj M2; have {}M5 := Ok_inj M5.
  have e11 (A : 'M[Q]_1) : entry (DM A) 0 0 = A 0 0 by exact: (entryE A ord0 ord0).
  apply/matrixP => a c; rewrite -M2 -M5 !ord1 !e11 !mxE /= !mulr1n subrr mulr0 subr0 !big_ord_recl big_ord0 !mxE /= addr0.
  by rewrite !big_ord0 !mul1r !mul0r !addr0 add0r mulN1r.

- by move=> /(congr1 (@seq.size _)).
- by rewrite G25 /c1 => /(f_equal (fun o => if o is Ok x then drows x else 0%N)).
Qed.
(** the hypotheses of C72_untouched: such a run goes through *)
Example C72_example_run : exists d' o, apply_observation_h (fun n A => A) (fun _ => true) id (fun _ _ i => Ok (i, false)) 0 h0
   (fun (b : belief Q) _ => deye Q (bel_dim b) (bel_dim b)) 10 1 (DM (1%:M : 'M[Q]_1)) (c1 4%:R) Z0 ids0 (CorrCfg false true true (d_of_Z 1) 0) d0 = Ok (d', o) /\ processed o.
Proof.
have [O [P [SH [Eh _]]]] := C72_example.
have nd n (A : 'M[Q]_n) : exists B : 'M[Q]_n, id (DM A) = DM B by exists A.
have [|||mu [Ps [_ [_]]]] := @C72_any_iterations Q (fun n A => A) (fun _ => true) id (fun _ _ i => Ok (i, false)) 0 nd h0
   (fun (b : belief Q) _ => deye Q (bel_dim b) (bel_dim b)) 10 1 ids0 bs0 1 Z0 d0 H0 (c1 4%:R) 1%:M 4%:R%:M (CorrCfg false true true (d_of_Z 1) 0) Hs0 erefl O P SH Eh.
- by [].
- by rewrite /symmetric trmx1.
- by left.
rewrite /as_central correction_step_ok /= => -[S [dx [d' [_ [_ [E _]]]]]]; exists d'; eexists; split; first exact: E.
by [].
Qed.
End Example72.
Print Assumptions C72_untouched.
Print Assumptions C72_one_iteration.
Print Assumptions C72_any_iterations.
Print Assumptions C72_linear_belief_aborts.
Print Assumptions C72_no_iteration_aborts.
