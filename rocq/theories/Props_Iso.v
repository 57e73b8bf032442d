(** Properties of isolated instances and cross-covariance bookkeeping: C34. *)
From Coq Require Import ZArith List Bool Arith Lia.
From mathcomp Require Import all_ssreflect all_algebra.
From Verif Require Import Outcome DoubleModel BufModel BufProofs HorizonModel MeasModel HandlerModel Spec_Handler DMat KFModel BeliefModel EigenModel EigenProofs IsoModel IsoProofs.
Set Implicit Arguments. Unset Strict Implicit. Unset Printing Implicit Defensive.
Import GRing.Theory Num.Theory.
Local Open Scope outcome_scope.
Local Open Scope ring_scope.

Section Props.
Variable F : realFieldType.
Notation dmat := (dmat F).
Notation belief := (belief F).
Notation inst := (inst belief dmat).
Notation dict := (dict belief dmat).

Lemma dtr_tr (A : dmat) : dtr (dtr A) = A.
Proof. by case: A => m n A; rewrite /dtr /= trmxK. Qed.
Lemma deye_tr n : dtr (deye F n n) = deye F n n.
Proof. by rewrite deye_square /dtr /= trmx1. Qed.
Lemma dmul_eye (A : dmat) : dmul A (deye F (dcols A) (dcols A)) = Ok A.
Proof. by rewrite deye_square [A]DM_eta dmul_ok mulmx1. Qed.

(** * C34: reading back a cross-covariance *)
Theorem C34_set_get : forall (I J : nat) (S : dmat) t (d : dict),
  I <> J -> d_find I d <> None -> d_find J d <> None -> dsize S <> 0%N ->
  exists d', set_Sigma_IJ I J S t d = Ok d' /\
    get_Sigma_IJ I J t d' = Ok S /\ get_Sigma_IJ J I t d' = Ok (dtr S) /\
    (forall K L k, ~ (k = t /\ (K = I /\ L = J \/ K = J /\ L = I)) -> get_Sigma_IJ K L k d' = get_Sigma_IJ K L k d) /\
    (forall id k, bel_of d' id k = bel_of d id k).
Proof.
move=> I J S t d N.
case GI: (d_find I d) => [i|//] _; case GJ: (d_find J d) => [j|//] _ Hs.
case: (set_Sigma_spec S t N GI GJ) => d' [E [_ [B [NE [EN [F1 [F2 F3]]]]]]].
exists d'; split=> //.
have [i' [GI' _]] := EN _ _ GI; have [j' [GJ' _]] := EN _ _ GJ.
have Hb : dsize S != 0%N by apply/eqP.
have Hs' : (dsize (dtr S) != 0)%N by rewrite /dsize mulnC; apply/eqP.
have Hd : dsize (deye F (dcols S) (dcols S)) != 0%N.
  by move: Hs; rewrite /dsize /= => H; apply/eqP => H2; apply: H; move/eqP: H2; rewrite muln_eq0 orbb => /eqP ->; rewrite muln0.
have Hr : dsize (deye F (drows S) (drows S)) != 0%N.
  by move: Hs; rewrite /dsize /= => H; apply/eqP => H2; apply: H; move/eqP: H2; rewrite muln_eq0 orbb => /eqP ->; rewrite mul0n.
have K : get_Sigma_IJ I J t d' = Ok S /\ get_Sigma_IJ J I t d' = Ok (dtr S).
  rewrite (get_SigmaE _ GI' GJ') (get_SigmaE _ GJ' GI').
  case: (Nat.ltb_spec I J) F1 F2 => L.
    rewrite (Nat.min_l I J); last lia.
    rewrite (Nat.max_r I J); last lia.
    move=> -> ->; cbv zeta; rewrite /odflt /oapp Hb Hd [andb _ _]/= deye_tr dmul_eye.
    have -> : (J <? I)%nat = false by apply/Nat.ltb_ge; lia.
    by [].
  rewrite (Nat.min_r I J); last lia.
  rewrite (Nat.max_l I J); last lia.
  move=> -> ->.
  have -> : (J <? I)%nat = true by apply/Nat.ltb_lt; lia.
  have X : dmul (dtr S) (dtr (deye F (dcols (dtr S)) (dcols (dtr S)))) = Ok (dtr S) by rewrite deye_tr dmul_eye.
  by cbv zeta; rewrite /odflt /oapp Hs' Hr [andb _ _]/= X /= dtr_tr.
case: K => K1 K2; split=> //; split=> //; split=> // K L k H.
apply: get_Sigma_ext; try exact: iff_sym.
  by apply: F3 => -[E1 [E2 E3]]; apply: H; split=> //; lia.
by apply: F3 => -[E1 [E2 E3]]; apply: H; split=> //; lia.
Qed.
(** what happens outside these preconditions: a matrix without entries reads back as the 0x0 matrix, the pair (I,I) reads back as the
    identity, and an unregistered instance is a null pointer *)
Theorem C34_empty : forall (I J : nat) (S : dmat) t (d : dict),
  I <> J -> d_find I d <> None -> d_find J d <> None -> dsize S = 0%N ->
  exists d', set_Sigma_IJ I J S t d = Ok d' /\ get_Sigma_IJ I J t d' = Ok (dempty F).
Proof.
move=> I J S t d N.
case GI: (d_find I d) => [i|//] _; case GJ: (d_find J d) => [j|//] _ Hs.
case: (set_Sigma_spec S t N GI GJ) => d' [E [_ [B [NE [EN [F1 [F2 F3]]]]]]].
exists d'; split=> //.
have [i' [GI' _]] := EN _ _ GI; have [j' [GJ' _]] := EN _ _ GJ.
rewrite (get_SigmaE _ GI' GJ'); case: (Nat.ltb_spec I J) F1 F2 => L.
  rewrite (Nat.min_l I J); last lia.
  rewrite (Nat.max_r I J); last lia.
  by move=> -> _; cbv zeta; rewrite /odflt /oapp Hs.
rewrite (Nat.min_r I J); last lia.
rewrite (Nat.max_l I J); last lia.
by move=> -> _; cbv zeta; rewrite /odflt /oapp {2}/dsize /= mulnC -/(dsize S) Hs andbF.
Qed.
Theorem C34_self : forall (I : nat) (S : dmat) t (d : dict), d_find I d <> None -> dsize S <> 0%N ->
  exists d', set_Sigma_IJ I I S t d = Ok d' /\ get_Sigma_IJ I I t d' = Ok (deye F (drows S) (drows S)).
Proof.
move=> I S t d; case GI: (d_find I d) => [i|//] _ Hs.
rewrite /set_Sigma_IJ Nat.ltb_irrefl /mod_inst /at_inst GI /= find_upd Nat.eqb_refl GI /=.
eexists; split; first by [].
set d1 := d_upd I _ d; set ii := with_ccf (ccf_set I t (deye F _ _) _) _.
have G' : d_find I (d_upd I ii d1) = Some ii by rewrite find_upd Nat.eqb_refl /d1 find_upd Nat.eqb_refl GI.
rewrite (get_SigmaE _ G' G') Nat.ltb_irrefl /fac_of G' -fac_ccf_at /= !fac_set Nat.eqb_refl Z.eqb_refl /=.
have -> : dsize (deye F (drows S) (drows S)) != 0%N.
  by move: Hs; rewrite /dsize /= => H; apply/eqP => H2; apply: H; move/eqP: H2; rewrite muln_eq0 orbb => /eqP ->; rewrite mul0n.
by rewrite deye_tr -{1}[drows S]/(dcols (deye F (drows S) (drows S))) dmul_eye /= deye_tr.
Qed.
Theorem C34_missing : forall (I J : nat) (S : dmat) t (d : dict), d_find I d = None \/ d_find J d = None ->
  set_Sigma_IJ I J S t d = UB NullDeref /\ get_Sigma_IJ I J t d = UB NullDeref.
Proof.
move=> I J S t d H; split; last exact: get_Sigma_null.
rewrite /set_Sigma_IJ /mod_inst /at_inst.
by case: Nat.ltb_spec => L; case GI: (d_find I d) H => [i|] H; case GJ: (d_find J d) H => [j|] H //=;
  rewrite ?find_upd ?GI ?GJ //=; case: H => // H; case: Nat.eqb_spec => // E; subst; rewrite ?GI in GJ; congruence.
Qed.
End Props.
(** a case with the larger ID first, different dimensions, prior factors, a third instance and another time *)
Example C34_example : exists d : dict (belief rat_realFieldType) (dmat rat_realFieldType),
  d_find 7 d <> None /\ d_find 2 d <> None /\ get_Sigma_IJ 2 7 (Zpos 5) d <> Ok (dempty _) /\
  dsize (dzero rat_realFieldType 2 3) <> 0%N /\ set_Sigma_IJ 7 2 (dzero rat_realFieldType 2 3) (Zpos 5) d <> Ok d.
Proof.
pose o : dmat rat_realFieldType := DM (1%:M : 'M_1).
exists [:: (2, Inst true nil [:: (7, [:: (Zpos 5, o)])]); (7, Inst false nil [:: (2, [:: (Zpos 5, o)])])]%N.
do 2 (split; first by []).
split.
  rewrite /get_Sigma_IJ /= /ccf_get /= /get_at_t /= /dsize /= /o /dtr /= trmx1 dmul_ok.
  by move=> H; have := f_equal (fun x => match x with Ok y => drows y | _ => 0%N end) H.
by split.
Qed.
Print Assumptions C34_set_get.
Print Assumptions C34_empty.
Print Assumptions C34_self.
Print Assumptions C34_missing.
