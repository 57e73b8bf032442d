(** C69: an observation of the DecoupledPropagationHandler is the centralized update of the full state. *)
From Coq Require Import ZArith List Bool Arith Lia.
From mathcomp Require Import all_ssreflect all_algebra.
From Verif Require Import Outcome DoubleModel BufModel BufProofs HorizonModel HorizonProofs MeasModel HandlerModel Spec_Handler DMat KFModel Spec_Mat KFProofs BeliefModel EigenModel EigenProofs IsoModel IsoProofs Spec_Joint JointProofs Props_Joint Props_Joint2 IsoTrace DPModel Spec_DP DPProofs.
Set Implicit Arguments. Unset Strict Implicit. Unset Printing Implicit Defensive.
Import GRing.Theory Num.Theory.
Local Open Scope outcome_scope.
Local Open Scope ring_scope.

Section C69.
Variable F : realFieldType.
Variable junk : forall n, 'M[F]_n -> 'M[F]_n.
Notation dmat := (dmat F).
Notation belief := (belief F).
Notation dict := (dict belief dmat).
Notation inst := (inst belief dmat).
Variable is_psd : dmat -> bool.
Variable nearest : dmat -> dmat.
Variable predict : nat -> Z -> inst -> outcome (inst * bool).
Variable eps0 : F.
(** the eigenvalue-based repair of a symmetric matrix is a symmetric matrix of the same size *)
Hypothesis nearest_dims : forall n (A : 'M[F]_n), symmetric A -> exists B : 'M[F]_n, nearest (DM A) = DM B /\ symmetric B.

(** nothing is touched at other times *)
Definition only_at (t : Z) (d d' : dict) : Prop := List.map fst d' = List.map fst d /\ forall s, s <> t ->
  (forall id, bel_of d' id s = bel_of d id s) /\ (forall i j, get_Sigma_IJ i j s d' = get_Sigma_IJ i j s d).
(** the centralized filter's step on the full state, and what the handler must do with its result *)
Definition as_full ids ds (t : Z) (mu : 'cV[F]_(sumn ds)) (P : 'M[F]_(sumn ds)) m (Hs : 'M[F]_(m, sumn ds)) (R : 'M[F]_m) (r : 'cV[F]_m) cfg d (seen : outcome (dict * bool)) : Prop :=
  match correction_step junk (DM Hs) (DM R) (DM r) (DM (P + eps0%:M)) cfg with
  | Ok res => if rejected res then seen = Ok (d, false) else
      exists (S : 'M[F]_(sumn ds)) (dx : 'cV[F]_(sumn ds)) d', DM S = (if is_psd (Sigma_apos res) then Sigma_apos res else nearest (Sigma_apos res)) /\
        DM dx = delta_mean res /\ seen = Ok (d', true) /\ shows ids t (mu + dx) S d' /\ registered ids ds t d' /\ symmetric S /\ only_at t d d'
  | Abort e => seen = Abort e
  | UB e => seen = UB e
  end.

Section Proof.
Variables (ids : list nat) (t : Z) (d : dict).
Notation bs := (bels d t ids).
Notation ds := (dims bs).
Variables (mu : 'cV[F]_(sumn ds)) (P : 'M[F]_(sumn ds)).
Hypothesis G : registered ids ds t d.
Hypothesis S : shows ids t mu P d.
Hypothesis sP : symmetric P.
Lemma written (A : 'M[F]_(sumn ds)) (dx : 'cV[F]_(sumn ds)) : exists d1 d', split_right_upper (DM A) bs t d = Ok d1 /\ correct_beliefs (DM A) (DM dx) bs t d1 = Ok d' /\
  shows ids t (mu + dx) A d' /\ registered ids ds t d' /\ only_at t d d'.
Proof.
have [d1 [d' [E1 [E2 [K [B [Fc Fo]]]]]]] := obs_write G S A dx; exists d1, d'; split=> //; split=> //.
have Bo id k : List.nth_error ids k = Some id -> exists i' b', d_find id d' = Some i' /\ bel_of d' id t = Some b' /\ b_mean b' = DM (sel F ds k *m (mu + dx)) /\ b_Sigma b' = DM (sel F ds k *m A *m (sel F ds k)^T).
  move=> En; have [i [b [_ [_ [Gi _]]]]] := reg_ids G (List.nth_error_In _ _ En).
  have := B id; rewrite Gi => -[i' [b' [Gi' [_ [_ [Eb [_ Hk]]]]]]]; have [Em Es] := Hk _ En.
  by exists i', b'; rewrite /bel_of Gi' /bel_at Eb get_ins Z.eqb_refl.
have Lk k id : List.nth_error ids k = Some id -> (k < seq.size ds)%N.
  by move=> En; have [b Eb] := bs_nth t d En; have [_ [_ [_ [_ [_ L]]]]] := bs_at G S Eb.
split; [split|split].
- move=> k id En; have [i' [b' [_ [Eb [Em Es]]]]] := Bo _ _ En; exists b'; split=> //.
  by rewrite meanE ?blkE ?Em ?Es //; exact: Lk En.
- move=> k l i j Ei Ej L; have [Fi Fj] := Fc _ _ _ _ Ei Ej L.
  have Hk := Lk _ _ Ei; have Hl := Lk _ _ Ej.
  have [ii [_ [Gi _]]] := Bo _ _ Ei; have [jj [_ [Gj _]]] := Bo _ _ Ej.
  have Ms : dsize (DM (sel F ds k *m A *m (sel F ds l)^T)) != 0%N.
    by rewrite /dsize /= muln_eq0 negb_or -!lt0n (g_pos G Hk) (g_pos G Hl).
  have [||-> _] := read_pair (g_asc G Ei Ej L) _ _ Ms Fi Fj; rewrite ?Gi ?Gj //.
  by eexists; split; [reflexivity|rewrite /zero_if_none Ms blkE].
- split; [by move=> id; rewrite K; exact: (g_ids G)|by rewrite K; exact: (g_once G)|exact: (g_asc G)|exact: (g_some G)|exact: (g_len G)|exact: (g_pos G)|].
  move=> id i' Gi'; have := B id; case Gi: (d_find id d) => [i|]; last by rewrite Gi'.
  case=> i2 [b' [Gi2 [_ [_ [Eb [Fx Hk]]]]]]; move: Gi2; rewrite Gi' => -[Ei]; subst i2.
  have Hin : List.In id ids by apply/(g_ids G); exact: reg_key Gi.
  have [k En] := List.In_nth_error _ _ Hin; have [Em Es] := Hk _ En.
  have [b [tl [bl [Eg [Fb [El Ed]]]]]] := g_bel G Gi.
  have Db : bel_dim b = dim_k ds k.
    have [b0 E0] := bs_nth t d En; have [_ [D0 _]] := dim_rows E0; have [_ [E1' _]] := bs_at G S E0.
    by move: E1'; rewrite /bel_of Gi /bel_at Eg => -[->].
  have [[tl' bl'] [El' X]] := latest_insert t b' (i_bel i).
  exists b', tl', bl'; rewrite Eb get_ins Z.eqb_refl; split=> //; split=> //; split=> //.
  have -> : bel_dim b' = dim_k ds k by rewrite /bel_dim Es.
  by case: X => [[_ ->]|]; [rewrite /bel_dim Es|rewrite El => -[_ <-]; rewrite Ed].
- split=> // s Ns; split.
    move=> id; have := B id; rewrite /bel_of; case: (d_find id d) => [i|]; last by move=> ->.
    by case=> i' [b' [-> [_ [_ [Eb _]]]]]; rewrite /bel_at Eb get_ins; case: Z.eqb_spec.
  have Nn id : d_find id d = None <-> d_find id d' = None.
    by have := B id; case: (d_find id d) => [i|]; [case=> i' [b' [-> _]]|move=> ->].
  by move=> i j; apply: get_Sigma_ext; [split=> /Nn|split=> /Nn|exact: Fo|exact: Fo].
Qed.
Lemma update_full m (Hs : 'M[F]_(m, sumn ds)) (R : 'M[F]_m) (r : 'cV[F]_m) cfg :
  as_full ids t mu P Hs R r cfg d (dp_update junk is_psd nearest eps0 (DM Hs) (DM R) (DM r) bs (DM P) t cfg d).
Proof.
rewrite /as_full /dp_update stabilize_ok (symm_id sP) /= correction_step_ok.
case: step_gate => [rej|e|e] //=; case: rej => //=.
set Sf := step_final _ _ _ _ _; have [X [EX sX]] : exists X : 'M[F]_(sumn ds), DM X = (if is_psd (DM Sf) then DM Sf else nearest (DM Sf)) /\ symmetric X.
  have sS : symmetric Sf by exact: step_final_sym.
  by case: is_psd; [exists Sf|have [B [EB sB]] := nearest_dims sS; exists B].
rewrite -EX; have [d1 [d' [E1 [E2 [Sh [Rg Oa]]]]]] := written X (step_K junk Hs R (P + eps0%:M) cfg *m r); rewrite E1 /= E2 /=.
by exists X, (step_K junk Hs R (P + eps0%:M) cfg *m r), d'.
Qed.
End Proof.

Theorem C69_measurement : forall ids ds t (mu : 'cV[F]_(sumn ds)) (P : 'M[F]_(sumn ds)) d dH m (R : 'M[F]_m) (z : 'cV[F]_m) cfg,
  registered ids ds t d -> shows ids t mu P d -> symmetric P -> fits ids ds dH m ->
  exists Hs : 'M[F]_(m, sumn ds), spread ids dH Hs /\
    as_full ids t mu P Hs R (z - Hs *m mu) cfg d (dp_apply_z junk is_psd nearest predict eps0 dH (DM z) (DM R) t cfg d).
Proof.
move=> ids ds t mu P d dH m R z cfg G S sP Ft; have E := reg_dims G S; subst ds.
have [Hs [EH SH]] := obs_H G S Ft; exists Hs; split=> //.
rewrite /dp_apply_z EH /= (obs_bel _ G) /= (obs_mean G S) /= (obs_cov G S sP) /= dmul_ok /= dsub_ok /=.
exact: update_full.
Qed.
Theorem C69_residual : forall ids ds t (mu : 'cV[F]_(sumn ds)) (P : 'M[F]_(sumn ds)) d dH m (R : 'M[F]_m) (r : 'cV[F]_m) cfg,
  registered ids ds t d -> shows ids t mu P d -> symmetric P -> fits ids ds dH m ->
  exists Hs : 'M[F]_(m, sumn ds), spread ids dH Hs /\
    as_full ids t mu P Hs R r cfg d (dp_apply_r junk is_psd nearest predict eps0 dH (DM R) (DM r) t cfg d).
Proof.
move=> ids ds t mu P d dH m R r cfg G S sP Ft; have E := reg_dims G S; subst ds.
have [Hs [EH SH]] := obs_H G S Ft; exists Hs; split=> //.
by rewrite /dp_apply_r EH /= (obs_bel _ G) /= (obs_cov G S sP) /=; exact: update_full.
Qed.
(** a registered instance without any belief makes every observation dereference a null pointer, even one that does not involve it *)
Theorem C69_needs_beliefs : forall dH (R r : dmat) t cfg d e, List.In e d -> i_bel (snd e) = nil ->
  dp_apply_r junk is_psd nearest predict eps0 dH R r t cfg d = UB NullDeref /\ dp_apply_z junk is_psd nearest predict eps0 dH r R t cfg d = UB NullDeref.
Proof.
move=> dH R r t cfg d e He Ne; have E : dp_dims d = UB NullDeref.
  rewrite /dp_dims; move: (0%nat, nil) => s; elim: d s He => [//|x d IH] s /= [Ex|He].
    by rewrite Ex Ne.
  by case: get_latest => [[tl b]|] //=; exact: IH.
by rewrite /dp_apply_r /dp_apply_z /dp_stack_H E.
Qed.
(** an instance that stores no belief at the time of the observation and cannot predict one makes the whole observation fail (an
    exception, unless something fails before): the update is never applied to the remaining instances alone *)
Theorem C69_no_partial_update : forall dH (R r : dmat) t cfg d id i,
  d_find id d = Some i -> get_at_t t (i_bel i) = None -> (forall i' ok, predict id t i = Ok (i', ok) -> ok = false) ->
  ~~ is_ok (dp_apply_r junk is_psd nearest predict eps0 dH R r t cfg d) /\ ~~ is_ok (dp_apply_z junk is_psd nearest predict eps0 dH r R t cfg d).
Proof.
move=> dH R r t cfg d id i G N P.
have X : forall l (d0 : dict) acc, List.In id l -> d_find id d0 = Some i -> ~~ is_ok (dp_get_dict_bel predict l t d0 acc).
  elim=> [//|x l IH] d0 acc Hx G0; cbn [dp_get_dict_bel]; rewrite /at_inst.
  case: (Nat.eqb_spec id x) => [<-|Nx].
    rewrite G0 /belief_or_predict; case: exist_at_t; first by rewrite N.
    case E: (predict id t i) => [[i' ok]| |] //=.
    by rewrite (P _ _ E).
  case: (d_find x d0) => [j|] //=; case: belief_or_predict => [[j' [b|]]| |] //=; apply: IH; first by case: Hx => // Ex; case: Nx.
  by rewrite find_upd; case: Nat.eqb_spec.
have := X _ d nil (reg_key G) G; rewrite /dp_apply_r /dp_apply_z.
by case: dp_stack_H => [H| |] //=; case: dp_get_dict_bel => [[d' bs]| |].
Qed.
End C69.
Print Assumptions C69_measurement.
