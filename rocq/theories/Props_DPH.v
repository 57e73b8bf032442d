(** C103: an observation of the DecoupledPropagationHandler given by a measurement function. *)
From Coq Require Import ZArith List Bool Arith Lia.
From mathcomp Require Import all_ssreflect all_algebra.
From Verif Require Import Outcome DoubleModel BufModel BufProofs HorizonModel HorizonProofs MeasModel HandlerModel Spec_Handler DMat KFModel Spec_Mat KFProofs BeliefModel EigenModel EigenProofs IsoModel IsoProofs Spec_Joint JointProofs Props_Joint Props_Joint2 IsoTrace DPModel Spec_DP DPProofs Props_DP Props_DP2 HObsModel HObsProofs Props_HObs DPHModel.
Set Implicit Arguments. Unset Strict Implicit. Unset Printing Implicit Defensive.
Import Order.Theory GRing.Theory Num.Theory.
Local Open Scope outcome_scope.
Local Open Scope ring_scope.

Section C103.
Variable F : realFieldType.
Variable junk : forall n, 'M[F]_n -> 'M[F]_n.
Notation dmat := (dmat F).
Notation belief := (belief F).
Notation dict := (dict belief dmat).
Notation inst := (inst belief dmat).
Notation pairs := (list (nat * belief)).
Variable is_psd : dmat -> bool.
Variable nearest : dmat -> dmat.
Variable predict : nat -> Z -> inst -> outcome (inst * bool).
Variable eps0 : F.
Notation measfun := (pairs -> list nat -> dmat -> list (nat * dmat) * dmat).
Notation apply_h h pj ni tol := (dp_apply_h junk is_psd nearest predict eps0 h pj ni tol).

(** the beliefs handed to the measurement function: those of the instances ids stored at t, with the parts of x as means *)
Definition at_state ids ds (t : Z) (d : dict) (bs : pairs) (x : 'cV[F]_(sumn ds)) : Prop := List.map fst bs = ids /\
  forall k id b', List.nth_error bs k = Some (id, b') -> exists b v, bel_of d id t = Some b /\ b' = bel_set_mean v b /\ dblock (DM x) (off ds k) 0 (dim_k ds k) 1 = Ok v.
(** what the handler must do with the centralized filter's step on the full state *)
Definition as_full_h ids ds (t : Z) (mu : 'cV[F]_(sumn ds)) (P : 'M[F]_(sumn ds)) m (Hs : 'M[F]_(m, sumn ds)) (R : 'M[F]_m) (r : 'cV[F]_m) cfg d (seen : outcome (dict * obs_res F)) : Prop :=
  match correction_step junk (DM Hs) (DM R) (DM r) (DM (P + eps0%:M)) cfg with
  | Ok res => if rejected res then seen = Ok (d, ObsRes REJECTED (Some (DM r))) else
      exists (S : 'M[F]_(sumn ds)) (dx : 'cV[F]_(sumn ds)) d', DM S = (if is_psd (Sigma_apos res) then Sigma_apos res else nearest (Sigma_apos res)) /\
        DM dx = delta_mean res /\ seen = Ok (d', ObsRes PROCESSED (Some (DM r))) /\ shows ids t (mu + dx) S d' /\ registered ids ds t d' /\ symmetric S /\ only_at t d d'
  | Abort e => seen = Abort e
  | UB e => seen = UB e
  end.

(** ** all registered instances take part, none is fixed *)
Section Core.
Variables (h : measfun) (pj : belief -> dmat -> dmat) (tol : F) (IDs : list nat) (bs : pairs) (m : nat) (t : Z) (d : dict).
Variables (dH : list (nat * dmat)) (z : dmat) (R : 'M[F]_m) (r : 'cV[F]_m) (cfg : corr_cfg F).
Hypothesis O : observes IDs bs t d.
Lemma all_free (l : pairs) : (forall e, List.In e l -> b_fixed (snd e) = false) -> free l = l.
Proof. rewrite /free; elim: l => [//|e l IH] H /=; rewrite (H e (or_introl erefl)) /= IH // => x Hx; apply: H; by right. Qed.
Lemma of_free_id : free bs = bs -> of_free bs dH = dH.
Proof.
move=> Eb; have Fx e : List.In e bs -> b_fixed (snd e) = false by rewrite -{1}Eb => /List.filter_In [_ /negbTE].
rewrite /of_free; elim: dH => [//|e l IH] /=; rewrite IH.
suff -> : List.existsb (fun e' : nat * belief => b_fixed e'.2 && (e'.1 =? e.1)%nat) bs = false by [].
by apply/negbTE/negP => /List.existsb_exists [x [Hx]]; rewrite (Fx _ Hx).
Qed.
Definition finish_at us (mu : 'cV[F]_(sumn (dims us))) (P : 'M[F]_(sumn (dims us))) (Hs : 'M[F]_(m, sumn (dims us))) : outcome (dict * obs_res F) :=
  let! out := step_gate junk Hs R r (P + eps0%:M) cfg in
  if out then Ok (d, ObsRes REJECTED (Some (DM r))) else
  let Sf := DM (step_final junk Hs R (P + eps0%:M) cfg) in let Sp := if is_psd Sf then Sf else nearest Sf in
  let! d1 := split_right_upper Sp us t d in
  let! d2 := correct_beliefs Sp (DM (step_K junk Hs R (P + eps0%:M) cfg *m r)) us t d1 in Ok (d2, ObsRes PROCESSED (Some (DM r))).
Lemma core us : free bs = us -> us = bs -> forall (Hs : 'M[F]_(m, sumn (dims us))) (mu : 'cV[F]_(sumn (dims us))) (P : 'M[F]_(sumn (dims us))) ni,
  bs <> nil -> dp_stack_H dH d = Ok (DM Hs) -> stacked_mean us mu (dims us) -> symmetric R -> use_Josephs_form cfg \/ nummerical_stabilization cfg ->
  symmetric P -> stack_mean bs = Ok (DM mu) -> stack_Sigma bs t d = Ok (DM P) ->
  (ni = 1%N /\ h bs IDs z = (dH, DM r)) \/ ((0 < ni)%N /\ (forall bs' (x : 'cV[F]_(sumn (dims us))), at_state (List.map fst bs) t d bs' x -> h bs' IDs z = (dH, DM (r - Hs *m (x - mu)))) /\ forall b v, pj b v = deye F (bel_dim b) (bel_dim b)) ->
  apply_h h pj ni tol (DM R) z t IDs cfg d = finish_at mu P Hs.
Proof.
move=> Eu; case: us / Eu => Eb Hs mu P ni Nn EH SM sR sC sP EM EP Hni.
have A := ascending_asc (o_asc O).
have EH' : dp_stack_H (of_free bs dH) d = Ok (DM Hs) by rewrite of_free_id.
have Nf : free bs <> nil by rewrite Eb.
have HM : exists mm, stack_mean bs = Ok mm by exists (DM mu).
have [iter [EL HT]] : exists iter, iterations_gen junk h pj tol (fun dH => dp_stack_H dH d) ni bs IDs (DM R) z (DM (P + eps0%:M)) (sumn (dims (free bs))) cfg 0
    (IState (free bs) (dempty F) (dempty F) (DM (1%:M : 'M[F]_(sumn (dims (free bs))))) (DM (P + eps0%:M)) (dempty F)) =
    (let! out := step_gate junk Hs R r (P + eps0%:M) cfg in Ok (if out then inl (ObsRes REJECTED (Some (DM r))) else
       inr (IState (at_mean (mu + step_K junk Hs R (P + eps0%:M) cfg *m r) 0 (free bs)) (DM Hs) (DM (step_K junk Hs R (P + eps0%:M) cfg)) (DM (1%:M : 'M[F]_(sumn (dims (free bs))))) (DM (P + eps0%:M)) (DM r), iter))) /\
    ((1 < iter)%N -> same_tangent pj bs).
  case: Hni => [[-> Eh]|[L [Eh Hp]]].
    exists 1%N; split=> //; exact: (run1 junk eps0 (stkd := fun d dH => dp_stack_H dH d) pj tol R cfg O P EH' SM Eh).
  have T : same_tangent pj bs by move=> i b v _ y; rewrite Hp.
  have Ea x : h (moved (bs := bs) x) IDs z = (dH, DM (r - Hs *m (x - mu))).
    apply: Eh; have [Ei [Em Es]] := moved_moved O x; split; first exact: Ei.
    move=> k id b' En; have Hin := List.nth_error_In _ _ En.
    have /List.in_map_iff [[id' b] [/= Eid Hb]] : List.In id (List.map fst bs) by rewrite -Ei; apply/List.in_map_iff; exists (id, b').
    subst id'; have := Em _ _ _ Hb Hin; have -> : b_fixed b = false by move: Hb; rewrite -Eb => /List.filter_In [_ /negbTE].
    case=> v Ev; exists b, v; split; first exact: (o_bel O Hb).
    split=> //; have Efm : free (moved (bs := bs) x) = moved (bs := bs) x.
      apply: all_free => -[i c] Hc /=; have /List.in_map_iff [[i' b0] [/= Ei0 Hb0]] : List.In i (List.map fst bs) by rewrite -Ei; apply/List.in_map_iff; exists (i, c).
      subst i'; have := Em _ _ _ Hb0 Hc; have F0 : b_fixed b0 = false by move: Hb0; rewrite -Eb => /List.filter_In [_ /negbTE].
      by rewrite F0 => -[w ->].
    have := Es k id b'; rewrite Efm => /(_ En); by rewrite Ev.
  have [iter E] := run_any junk eps0 (stkd := fun d dH => dp_stack_H dH d) tol R cfg O P EH' SM Ea T L.
  by exists iter.
rewrite /dp_apply_h (finish_process is_psd nearest predict (stkd := fun d dH => dp_stack_H dH d) O SM sR sC Nf sP EP HM EL HT) /finish_at.
case: step_gate => [[]|e|e] //=.
rewrite -/(moved (mu + _)).
rewrite split_moved //; case: split_right_upper => //= d1.
by rewrite (beliefs_moved _ _ _ _ A SM).
Qed.
End Core.
(** the eigenvalue-based repair of a symmetric matrix is a symmetric matrix of the same size *)
Hypothesis nearest_dims : forall n (A : 'M[F]_n), symmetric A -> exists B : 'M[F]_n, nearest (DM A) = DM B /\ symmetric B.
Lemma keys_bels (d : dict) t ids : List.map fst (bels d t ids) = ids.
Proof. by rewrite /bels List.map_map List.map_id. Qed.
Section Whole.
Variables (IDs ids : list nat) (t : Z) (d : dict).
Notation bs := (bels d t ids).
Notation ds := (dims bs).
Variables (mu : 'cV[F]_(sumn ds)) (P : 'M[F]_(sumn ds)).
Hypothesis G : registered ids ds t d.
Hypothesis S : shows ids t mu P d.
Hypothesis sP : symmetric P.
Hypothesis all_take_part : forall i, List.In i IDs <-> List.In i ids.
Lemma reg_observes : observes IDs bs t d.
Proof.
split; [exact: (bs_asc G)|by move=> i; rewrite keys_bels|].
by move=> i b Hin; have [k Ek] := List.In_nth_error _ _ Hin; have [_ [-> _]] := bs_at G S Ek.
Qed.
Lemma reg_state : at_state ids t d bs mu.
Proof.
split; first exact: keys_bels.
move=> k id b En; have [Ei [Eb [_ [Em [_ Lk]]]]] := bs_at G S En; exists b, (b_mean b); split=> //; split; first by case: (b).
by rewrite meanE // Em.
Qed.
Lemma reg_mean : stacked_mean bs mu ds.
Proof. by move=> k id b En; have [Ei [Eb [_ [Em [_ Lk]]]]] := bs_at G S En; rewrite meanE // Em. Qed.
Lemma spread_unique m dH (H1 H2 : 'M[F]_(m, sumn ds)) : spread ids dH H1 -> spread ids dH H2 -> H1 = H2.
Proof.
move=> S1 S2; apply: trmx_inj; apply/matrixP => a b; have [k [x [Hk [Hx Ea]]]] := locate (ltn_ord a).
have [id En] : exists id, List.nth_error ids k = Some id.
  case E: (List.nth_error ids k) => [e|]; first by exists e.
  by move/List.nth_error_None: E => /ssrnat.leP; rewrite -[length _]/(seq.size ids) (g_len G) leqNgt Hk.
have [X1 Y1] := S1 _ _ En; have [X2 Y2] := S2 _ _ En.
have : dblock (DM H1) 0 (off ds k) m (dim_k ds k) = dblock (DM H2) 0 (off ds k) m (dim_k ds k).
  case: (List.in_dec Nat.eq_dec id (List.map fst dH)) => [/List.in_map_iff [[i X] [/= Ei HX]]|N]; last by rewrite Y1 // Y2.
  by subst i; rewrite (X1 _ HX) (X2 _ HX).
rewrite !colsE // => E; have /matrixP/(_ b (Ordinal Hx)) := DM_inj (Ok_inj E).
rewrite !sel_mulr //= -Ea !mxE; by rewrite !entryE.
Qed.
Lemma whole h pj ni tol dH m (Hs : 'M[F]_(m, sumn ds)) (R : 'M[F]_m) (r : 'cV[F]_m) z cfg : dp_stack_H dH d = Ok (DM Hs) -> symmetric R ->
  use_Josephs_form cfg \/ nummerical_stabilization cfg ->
  (ni = 1%N /\ h bs IDs z = (dH, DM r)) \/ ((0 < ni)%N /\ (forall bs' (x : 'cV[F]_(sumn ds)), at_state ids t d bs' x -> h bs' IDs z = (dH, DM (r - Hs *m (x - mu)))) /\ forall b v, pj b v = deye F (bel_dim b) (bel_dim b)) ->
  as_full_h ids t mu P Hs R r cfg d (apply_h h pj ni tol (DM R) z t IDs cfg d).
Proof.
move=> EH sR sC Hni; rewrite (core (r := r) tol reg_observes (bs_free G S) erefl (DPProofs.bs_some G) EH reg_mean sR sC sP (obs_mean G S) (obs_cov G S sP)); last by rewrite keys_bels.
rewrite /as_full_h /finish_at correction_step_ok; case: step_gate => [[]|e|e] //=.
set Sf := step_final _ _ _ _ _; have [X [EX sX]] : exists X : 'M[F]_(sumn ds), DM X = (if is_psd (DM Sf) then DM Sf else nearest (DM Sf)) /\ symmetric X.
  have sS : symmetric Sf by exact: step_final_sym.
  by case: is_psd; [exists Sf|have [B [EB sB]] := nearest_dims sS; exists B].
rewrite -EX; have [d1 [d' [E1 [E2 [Sh [Rg Oa]]]]]] := written G S X (step_K junk Hs R (P + eps0%:M) cfg *m r); rewrite E1 /= E2 /=.
by eexists X, _, d'.
Qed.
End Whole.

(** one iteration: the centralized update of the full state with the Jacobians and the residual h returns at the stored state *)
Theorem C103_one_iteration : forall h pj tol IDs ids ds t (mu : 'cV[F]_(sumn ds)) (P : 'M[F]_(sumn ds)) d dH m (R : 'M[F]_m) (r : 'cV[F]_m) z cfg,
  registered ids ds t d -> shows ids t mu P d -> symmetric P -> (forall i, List.In i IDs <-> List.In i ids) -> fits ids ds dH m ->
  symmetric R -> use_Josephs_form cfg \/ nummerical_stabilization cfg ->
  (forall bs, at_state ids t d bs mu -> h bs IDs z = (dH, DM r)) ->
  exists Hs : 'M[F]_(m, sumn ds), spread ids dH Hs /\ as_full_h ids t mu P Hs R r cfg d (apply_h h pj 1 tol (DM R) z t IDs cfg d).
Proof.
move=> h pj tol IDs ids ds t mu P d dH m R r z cfg G S sP HI Ft sR sC Eh; have E := reg_dims G S; subst ds.
have [Hs [EH SH]] := obs_H G S Ft; exists Hs; split=> //; apply: (whole G S sP HI tol EH sR sC); left; split=> //; apply: Eh; exact: (reg_state G S).
Qed.
(** any number of iterations and any tolerance, when the residual is affine in the state *)
Theorem C103_any_iterations : forall h pj num_iter tol IDs ids ds t (mu : 'cV[F]_(sumn ds)) (P : 'M[F]_(sumn ds)) d dH m (Hs : 'M[F]_(m, sumn ds)) (R : 'M[F]_m) (c : 'cV[F]_m) z cfg,
  (0 < num_iter)%N -> registered ids ds t d -> shows ids t mu P d -> symmetric P -> (forall i, List.In i IDs <-> List.In i ids) -> fits ids ds dH m -> spread ids dH Hs ->
  symmetric R -> use_Josephs_form cfg \/ nummerical_stabilization cfg ->
  (forall bs (x : 'cV[F]_(sumn ds)), at_state ids t d bs x -> h bs IDs z = (dH, DM (c - Hs *m x))) ->
  (forall b v, pj b v = deye F (bel_dim b) (bel_dim b)) ->
  as_full_h ids t mu P Hs R (c - Hs *m mu) cfg d (apply_h h pj num_iter tol (DM R) z t IDs cfg d).
Proof.
move=> h pj ni tol IDs ids ds t mu P d dH m Hs R c z cfg L G S sP HI Ft SH sR sC Eh Hp; have E := reg_dims G S; subst ds.
have [Hs' [EH SH']] := obs_H G S Ft; have ? := spread_unique G SH SH'; subst Hs'.
apply: (whole G S sP HI tol EH sR sC); right; split=> //; split=> // bs x Hx; by rewrite (Eh _ x Hx) mulmxBr opprB addrA subrK.
Qed.

(** ** somebody does not take part, or is fixed *)
Lemma obindE X Y (o : outcome X) (f : X -> outcome Y) y : obind o f = Ok y -> exists x, o = Ok x /\ f x = Ok y.
Proof. by case: o => [x|e|e] //= E; exists x. Qed.
Lemma set_block_dims (A B C : dmat) i j p q : dset_block A i j p q B = Ok C -> drows C = drows A /\ dcols C = dcols A.
Proof. by rewrite /dset_block; case: ifP => // _ [<-]. Qed.
Lemma ofold_inv X Y (I : X -> Prop) (f : X -> Y -> outcome X) l : (forall s e s', I s -> f s e = Ok s' -> I s') -> forall s s', I s -> ofold f s l = Ok s' -> I s'.
Proof.
move=> Hf; elim: l => [|e l IH] s s' Hs /=; first by case=> <-.
by case E: (f s e) => [s1|//|//] /=; apply: IH; exact: Hf E.
Qed.
Lemma stack_Sigma_dims (bs : pairs) t (d : dict) A : stack_Sigma bs t d = Ok A -> exists B : 'M[F]_(sumn (dims (free bs))), A = DM B.
Proof.
rewrite stack_SigmaE /= -/(free bs) => E0; case: (obindE E0) => -[Sg n] [E1 E2].
have [R C] : drows Sg = sumn (dims (free bs)) /\ dcols Sg = sumn (dims (free bs)).
  apply: (ofold_inv (I := fun s => drows s.1 = sumn (dims (free bs)) /\ dcols s.1 = sumn (dims (free bs))) _ _ E1) => // s e s' [R C].
  rewrite /outer => E3; case: (obindE E3) => -[B k] [EB [<-]] /=.
  apply: (ofold_inv (I := fun s => drows s.1 = sumn (dims (free bs)) /\ dcols s.1 = sumn (dims (free bs))) _ _ EB) => // s1 e1 s2 [R1 C1].
  rewrite /inner => E4; case: (obindE E4) => M [EM [<-]] /=; move: EM; case: ifP => _; first by case/set_block_dims => -> ->.
  case: ifP => _; last by case=> <-.
  move=> E5; case: (obindE E5) => X [_]; case: ifP => _; last by case=> <-.
  move=> E6; case: (obindE E6) => Y [/set_block_dims [RY CY]] /set_block_dims [-> ->]; by rewrite RY CY.
by case: Sg R C E2 {E1} => p q M /= R C; subst p q; rewrite symmetrize_ok => -[<-]; eexists.
Qed.
Lemma stack_H_dims dH (d : dict) n dl H : dp_dims d = Ok (n, dl) -> dp_stack_H dH d = Ok H -> dcols H = n.
Proof.
rewrite /dp_stack_H => -> /= E0; case: (obindE E0) => -[A k] [E [<-]].
apply: (ofold_inv (I := fun s : dmat * nat => dcols s.1 = n) _ _ E) => // s e s' Cs E1; case: (obindE E1) => B [EB [<-]] /=.
by move: EB; case: smap_find => [X /set_block_dims [_ ->]|[<-]].
Qed.
(** every registered instance has a belief at t, of the size of its newest one *)
Definition all_current (t : Z) (d : dict) : Prop := List.NoDup (List.map fst d) /\
  forall id i, d_find id d = Some i -> exists b tl bl, get_at_t t (i_bel i) = Some b /\ get_latest (i_bel i) = Some (tl, bl) /\ bel_dim bl = bel_dim b.
Lemma collected t (d : dict) IDs d1 bs : all_current t d -> get_dict_bel predict IDs t d = Ok (d1, bs) ->
  d1 = d /\ asc bs /\ (forall i b, List.In (i, b) bs <-> List.In i IDs /\ bel_of d i t = Some b) /\ (forall i, List.In i IDs -> bel_of d i t <> None).
Proof.
move=> [_ H] E; have Hi : forall i, List.In i IDs -> bel_of d i t <> None.
  have : is_ok (get_dict_bel predict IDs t d) by rewrite E.
  rewrite /get_dict_bel; elim: (IDs) (@nil (nat * belief)) => [//|x l IH] acc /=; rewrite /at_inst; case Gx: (d_find x d) => [i|//].
  have [b [tl [bl [Eb _]]]] := H _ _ Gx.
  have Ex : exist_at_t t (i_bel i) = true by apply/exist_at_iff; exists b; exact: (get_at_In _ _ _ Eb).
  rewrite /belief_or_predict Ex /= Eb upd_same // => /IH Hl j [<-|/Hl //].
  by rewrite /bel_of Gx /bel_at Eb.
have [|||r [Er [Ar Hr]]] := @collect_loop F predict t d IDs nil => //.
move: E; rewrite /get_dict_bel Er => -[<- <-]; split=> //; split=> //; split=> // i b; rewrite Hr /=; tauto.
Qed.
Lemma sum_less (f : nat -> nat) (l l' : list nat) x : List.NoDup l -> List.NoDup l' -> (forall i, List.In i l -> List.In i l') -> List.In x l' -> ~ List.In x l -> (0 < f x)%N ->
  (sumn (List.map f l) < sumn (List.map f l'))%N.
Proof.
move=> N1 N2 Hs Hx Nx Px.
have Nx1 : List.NoDup (x :: l) by constructor.
suff : (sumn (List.map f (x :: l)) <= sumn (List.map f l'))%N by rewrite /=; apply: leq_trans; rewrite -[ltnLHS]add0n ltn_add2r.
have {}Hs : forall i, List.In i (x :: l) -> List.In i l' by move=> i [<-|/Hs].
elim: (x :: l) l' Nx1 N2 Hs {N1 Hx Nx} => [//|y r IH] l' Ny N2 Hs.
case: (List.in_split _ _ (Hs y (or_introl erefl))) => a [b Ea]; subst l'.
case: (proj1 (List.NoDup_cons_iff _ _) Ny) => Nin Nr; have N3 := List.NoDup_remove_1 _ _ _ N2.
have -> : sumn (List.map f (a ++ y :: b)) = (f y + sumn (List.map f (a ++ b)))%N.
  elim: (a) => [//|u v /= ->]; by rewrite !addnA [(f u + f y)%N]addnC.
rewrite /= leq_add2l; apply: IH => // i Hi; have := Hs i (or_intror Hi) => /List.in_app_iff [Ha|[Ey|Hb]]; apply/List.in_app_iff; [by left| |by right].
by subst i.
Qed.
Lemma perm_sum (l l' : list (nat * nat)) : Permutation.Permutation l l' -> sumn (List.map snd l) = sumn (List.map snd l').
Proof. by elim=> //= [y l1 l2 _ ->|y w l1|l1 l2 l3 _ -> _ ->] //; rewrite !addnA [(w.2 + _)%N]addnC. Qed.
(** the columns of all instances, and those of the unfixed participants *)
Lemma fewer t (d : dict) IDs (bs : pairs) x bx : all_current t d -> asc bs -> (forall i b, List.In (i, b) bs -> List.In i IDs /\ bel_of d i t = Some b) ->
  bel_of d x t = Some bx -> (0 < bel_dim bx)%N -> b_fixed bx \/ ~ List.In x IDs ->
  exists n dl, dp_dims d = Ok (n, dl) /\ (sumn (dims (free bs)) < n)%N /\ sumn (List.map snd dl) = n /\
    forall id k, List.In (id, k) dl -> exists b, bel_of d id t = Some b /\ k = bel_dim b.
Proof.
move=> [N2 H2] Ab Hb Bx Px Hx.
pose f id := bel_dim (odflt (Bel (dempty F) (dempty F) Z0 false false false) (bel_of d id t)).
exists (sumn (List.map f (List.map fst d))), (List.fold_left (fun a e => smap_insert (fst e) (snd e) a) (List.map (fun id => (id, f id)) (List.map fst d)) nil).
split; last split; last first.
- have ND : List.NoDup (List.map fst (List.map (fun id => (id, f id)) (List.map fst d))) by rewrite List.map_map List.map_id.
  have [A' E] := @ins_all nat _ nil ND (fun k _ => id) I; split.
    have P1 : Permutation.Permutation (List.fold_left (fun a e => smap_insert (fst e) (snd e) a) (List.map (fun id => (id, f id)) (List.map fst d)) nil) (List.map (fun id => (id, f id)) (List.map fst d)).
      apply: Permutation.NoDup_Permutation; [|exact: List.NoDup_map_inv ND|by move=> [u v]; rewrite E /=; tauto].
      exact: List.NoDup_map_inv (HObsProofs.asc_nodup A').
    rewrite (perm_sum P1).
    by rewrite [List.map snd _]List.map_map.
  move=> id k /E [/List.in_map_iff [y [[<- <-] /key_reg [i Gi]]]|//]; have [b [tl [bl [Eb _]]]] := H2 _ _ Gi.
  by exists b; rewrite /f /bel_of Gi /bel_at Eb.
- have -> : dims (free bs) = List.map f (List.map fst (free bs)).
    rewrite /dims List.map_map; apply: List.map_ext_in => -[i b] /List.filter_In [/Hb [_ Eb] _]; by rewrite /f /= Eb.
  apply: (sum_less (x := x)) => //.
  - exact: nodup_us Ab.
  - move=> i /List.in_map_iff [[j b] [/= <- /List.filter_In [/Hb [_ Eb] _]]]; move: Eb; rewrite /bel_of; case Gj: d_find => [ij|//] _; exact: reg_key Gj.
  - move: Bx; rewrite /bel_of; case Gj: d_find => [ij|//] _; exact: reg_key Gj.
  - move=> /List.in_map_iff [[j b] [/= Ej /List.filter_In [/Hb [Hj Eb] /= Fb]]]; subst j; case: Hx => // Fx.
    by move: Eb Fb; rewrite Bx => -[<-]; rewrite Fx.
  - by rewrite /f Bx.
- rewrite /dp_dims (@dp_dimsE _ f) ?add0n // => e He; have Ge := reg_find N2 He; have [b [tl [bl [E1 [E2 E3]]]]] := H2 _ _ Ge.
  by exists tl, bl; split=> //; rewrite E3 /f /bel_of Ge /bel_at E1.
Qed.
(** an observation of some of the instances, or with a fixed one, is discarded: its measurement matrix has the columns of all
    registered instances, its joint covariance those of the unfixed participants *)
Theorem C103_bystander : forall h pj num_iter tol R z t IDs cfg (d d' : dict) o x bx, all_current t d -> IDs <> nil -> (0 < num_iter)%N ->
  bel_of d x t = Some bx -> (0 < bel_dim bx)%N -> b_fixed bx \/ ~ List.In x IDs ->
  apply_h h pj num_iter tol R z t IDs cfg d = Ok (d', o) -> d' = d /\ o = ObsRes DISCARED None.
Proof.
move=> h pj [//|ni] tol R z t IDs cfg d d' o x bx AC Nn _ Bx Px Hx; rewrite /dp_apply_h => E0; case: (obindE E0) => -[d1 q] [E E'] {E0}.
move: E; rewrite /process_observation_gen => E1; case: (obindE E1) => -[d0 bs] [Ec E] {E1}.
have [? [Ab [Hb Hi]]] := collected AC Ec; subst d0.
have Nb : bs <> nil.
  case: IDs Nn Hi Hb {Ec Hx E} => [//|i l] _ Hi Hb Eb; case Ei: (bel_of d i t) => [b|]; last by apply: (Hi i) => //; left.
  have : List.In (i, b) bs by apply/Hb; split=> //; left.
  by rewrite Eb.
have [n [dl [Ed [Lt _]]]] := fewer AC Ab (fun i b => proj1 (Hb i b)) Bx Px Hx.
move: E; have -> : forall X (a b : X), (if bs is nil then a else b) = b by move=> X a b; case: (bs) Nb.
move=> E2; case: (obindE E2) => mm [_ E3]; case: (obindE E3) => Sa [ES E4]; case: (obindE E4) => Sb [EB].
have RS : drows Sb = sumn (dims (free bs)) by have [A EA] := stack_Sigma_dims ES; move: EB; rewrite EA stabilize_ok => -[<-].
rewrite /= => E5; case: (obindE E5) => w [Ew]; case: (obindE Ew) => v [Ev].
move: Ev; rewrite /iterate_gen; case: (h _ _ _) => dH r0; case EH: dp_stack_H => [H|//|//] /=.
have -> : check_dim_meas H R r0 Sb = false.
  apply/negbTE/negP; rewrite /check_dim_meas RS (stack_H_dims Ed EH) => /and4P [/negbNE/eqP Ee _ _ _].
  by move: Lt; rewrite Ee ltnn.
by move=> /= [<-] [<-] [Ed1 Eq]; move: E'; rewrite -Eq -Ed1 => -[<- <-].
Qed.
(** stacking goes through when the given blocks fit *)
Lemma stack_H_total dH (d : dict) m n dl : dp_dims d = Ok (n, dl) -> sumn (List.map snd dl) = n -> List.fold_left (fun s (e : nat * dmat) => drows (snd e)) dH 0%nat = m ->
  (forall id k X, List.In (id, k) dl -> smap_find id dH = Some X -> drows X = m /\ dcols X = k) -> exists H, dp_stack_H dH d = Ok H.
Proof.
move=> Ed Sn Rm Fit; rewrite /dp_stack_H Ed /= Rm -/(bodyD dH m).
suff T : forall l (A : dmat) o, drows A = m -> dcols A = n -> (o + sumn (List.map snd l) <= n)%N ->
    (forall id k X, List.In (id, k) l -> smap_find id dH = Some X -> drows X = m /\ dcols X = k) -> exists C, ofold (bodyD dH m) (A, o) l = Ok C.
  have [|[C o] ->] := T dl (dzero F m n) 0%N erefl erefl _ Fit; first by rewrite add0n Sn.
  by exists C.
elim=> [|[id k] l IH] A o RA CA Lo Fl; first by exists (A, o).
rewrite /= /bodyD /= -/(bodyD dH m).
have [B [EB [RB CB]]] : exists B, (if smap_find id dH is Some X then dset_block A 0 o m k X else Ok A) = Ok B /\ drows B = m /\ dcols B = n.
  case Ef: smap_find => [X|]; last by exists A.
  have [RX CX] := Fl _ _ _ (or_introl erefl) Ef.
  have [||||B [EB [RB [CB _]]]] := @set_block_ok F A X 0 o m k => //; rewrite ?add0n ?RA ?CA //.
    by apply: leq_trans Lo; rewrite /= addnA leq_addr.
  by exists B; rewrite EB RB CB RA CA.
rewrite EB /=; apply: IH => //; first by rewrite -addnA.
by move=> i q X Hi; apply: Fl; right.
Qed.
Lemma same_key X Y (l : list (nat * X)) (l' : list (nat * Y)) k i a : List.map fst l = List.map fst l' -> List.nth_error l k = Some (i, a) -> exists b, List.nth_error l' k = Some (i, b).
Proof.
move=> E En; have := congr1 (fun q => List.nth_error q k) E; rewrite /= !List.nth_error_map En /=; case: (List.nth_error l' k) => [[j b]|//] [->].
by exists b.
Qed.
(** it does return, whatever the function's residual, when the same observation would be a proper one of the isolated handler *)
Theorem C103_bystander_returns : forall h pj num_iter tol IDs bs m t (d : dict) dHf z R r cfg x bx, all_current t d -> (0 < num_iter)%N ->
  observes IDs bs t d -> participants (of_free bs dHf) (free bs) m t d -> h bs IDs z = (dHf, r) ->
  bel_of d x t = Some bx -> (0 < bel_dim bx)%N -> b_fixed bx \/ ~ List.In x IDs ->
  apply_h h pj num_iter tol R z t IDs cfg d = Ok (d, ObsRes DISCARED None).
Proof.
move=> h pj [//|ni] tol IDs bs m t d dHf z R r cfg x bx AC _ O P Eh Bx Px Hx.
have A := ascending_asc (o_asc O).
have Hb i b : List.In (i, b) bs -> List.In i IDs /\ bel_of d i t = Some b.
  by move=> Hin; split; [apply/(o_ids O)/List.in_map_iff; exists (i, b)|exact: (o_bel O)].
have [n [dl [Ed [Lt [Sn Hdl]]]]] := fewer AC A Hb Bx Px Hx.
have [Ps [EP [sP _]]] := cov_free P; have [mu [EM SM]] := mean_free P.
rewrite /dp_apply_h /process_observation_gen (ok_d predict O) /=.
have -> : forall X (a b : X), (if bs is nil then a else b) = b by move=> X a b; case: (bs) (Props_HObs.bs_some P).
rewrite EM /= EP /= stabilize_ok /= (symm_id sP) es_N deye_square.
have Efull : full_beliefs (free bs) bs = bs.
  by rewrite -{1}(at_mean_self SM) (full_ok A) (moved_self A SM).
rewrite /iterate_gen /= Efull Eh drop_fixedE -/(of_free bs dHf).
have [H EH] : exists H, dp_stack_H (of_free bs dHf) d = Ok H.
  apply: (stack_H_total (m := m) Ed Sn).
    have Nn : of_free bs dHf <> nil by move=> E0; have := p_ids P; rewrite E0; case: (free bs) (p_some P).
    have X : forall l s, (forall e, List.In e l -> drows (snd e) = m) -> (l = nil -> s = m) -> List.fold_left (fun s (e : nat * dmat) => drows (snd e)) l s = m.
      elim=> [|e l IH] s H1 H2 /=; first exact: H2.
      by apply: IH => [e' He'|_]; apply: H1; [right|left].
    apply: X => // -[i X] HX; case: (List.In_nth_error _ _ HX) => k Ek.
    have [b Eb] := same_key (p_ids P) Ek; by have [-> _] := p_H P Ek Eb.
  move=> id k X Hk Hf; case: (Hdl _ _ Hk) => b [Eb ->]; have HX := find_Some Hf; case: (List.In_nth_error _ _ HX) => q Eq.
  have [b' Eb'] := same_key (p_ids P) Eq; have [-> ->] := p_H P Eq Eb'; split=> //.
  by have [_] := p_bel P (List.nth_error_In _ _ Eb'); rewrite Eb => -[<-].
rewrite EH /=; have -> : check_dim_meas H R r (DM (Ps + eps0%:M)) = false.
  apply/negbTE/negP; rewrite /check_dim_meas (stack_H_dims Ed EH) => /and4P [/negbNE/eqP Ee _ _ _].
  by move: Lt; rewrite Ee ltnn.
by [].
Qed.
End C103.

(** two correlated instances: an observation of both goes through, an observation of one of them alone is discarded *)
Section Example103.
Let Q := rat_realFieldType.
Let jk : forall n, 'M[Q]_n -> 'M[Q]_n := fun n A => A.
Let c1 (x : Q) : 'M[Q]_1 := x%:M.
Let b (x s : Q) : belief Q := Bel (DM (c1 x)) (DM (c1 s)) Z0 false false true.
Let i5 : inst (belief Q) (dmat Q) := Inst true [:: (Z0, b 3%:R 4%:R)] [:: (2%N, [:: (Z0, DM (c1 1))])].
Let i2 : inst (belief Q) (dmat Q) := Inst true [:: (Z0, b 2%:R 3%:R)] [:: (5%N, [:: (Z0, DM (c1 2%:R))])].
Let d0 : dict (belief Q) (dmat Q) := [:: (5%N, i5); (2%N, i2)].
Let ids0 : list nat := [:: 2; 5]%N.
Let ds0 : seq nat := [:: 1; 1]%N.
Let mu0 : 'cV[Q]_(sumn ds0) := \matrix_(i, j) (if (i : nat) == 0%N then 2%:R else 3%:R).
Let P0 : 'M[Q]_(sumn ds0) := \matrix_(i, j) (if (i : nat) == 0%N then if (j : nat) == 0%N then 3%:R else 2%:R else if (j : nat) == 0%N then 2%:R else 4%:R).
Let H0 : list (nat * dmat Q) := [:: (2, DM (c1 1)); (5, DM (c1 (- 1)))]%N.
Let Hs0 : 'M[Q]_(1, sumn ds0) := \row_j (if (j : nat) == 0%N then 1 else - 1).
Let val (i : nat) (bs : list (nat * belief Q)) : Q := match smap_find i bs with Some x => entry (b_mean x) 0 0 | None => 0 end.
Let h0 (bs : list (nat * belief Q)) (ids : list nat) (z : dmat Q) : list (nat * dmat Q) * dmat Q := (H0, DM (c1 (entry z 0 0 - (val 2 bs - val 5 bs)))).
Let h1 (bs : list (nat * belief Q)) (ids : list nat) (z : dmat Q) : list (nat * dmat Q) * dmat Q := ([:: (2, DM (c1 1))]%N, DM (c1 (entry z 0 0 - val 2 bs))).
Let noPred : nat -> Z -> inst (belief Q) (dmat Q) -> outcome (inst (belief Q) (dmat Q) * bool) := fun _ _ i => Ok (i, false).
Let cfg0 := CorrCfg false true true (d_of_Z 1) (0 : Q).
Let run h IDs := dp_apply_h jk (fun _ => true) id noPred 0 h (fun (b : belief Q) _ => deye Q (bel_dim b) (bel_dim b)) 10 1 (DM (1%:M : 'M[Q]_1)) (DM (c1 4%:R)) Z0 IDs cfg0 d0.
Example C103_example : registered ids0 ds0 Z0 d0 /\ shows ids0 Z0 mu0 P0 d0 /\ symmetric P0 /\ fits ids0 ds0 H0 1 /\ P0 ord0 ord_max != 0 /\ spread ids0 H0 Hs0 /\
  (forall bs x, at_state ids0 Z0 d0 bs x -> h0 bs ids0 (DM (c1 4%:R)) = (H0, DM (c1 4%:R - Hs0 *m x))) /\ exists d' r, run h0 ids0 = Ok (d', ObsRes PROCESSED (Some r)).
Proof.
have [G [S [sP [Ft Np]]]] := C69_example.
have e11 (A : 'M[Q]_1) : entry (DM A) 0 0 = A 0 0 by exact: (entryE A ord0 ord0).
have Hk k : (k < 2)%N -> dblock (DM Hs0) 0 (off ds0 k) 1 (dim_k ds0 k) = Ok (DM (c1 (if k == 0%N then 1 else - 1))).
  case: k => [|[|//]] _; [rewrite (@one_block _ _ Hs0 0%N 0%N erefl erefl)|rewrite (@one_block _ _ Hs0 0%N 1%N erefl erefl)]; by congr (Ok (DM (c1 _))); rewrite mxE.
have SH : spread ids0 H0 Hs0.
  move=> k id /ids0_nth [[-> ->]|[-> ->]]; split.
  - by move=> X [[<-]|[[]|//]] //; exact: (Hk 0%N).
  - by case; left.
  - by move=> X [[]|[[<-]|//]] //; exact: (Hk 1%N).
  - by case; right; left.
have Eh : forall bs x, at_state ids0 Z0 d0 bs x -> h0 bs ids0 (DM (c1 4%:R)) = (H0, DM (c1 4%:R - Hs0 *m x)).
  move=> bs x [Ei Em]; case: bs Ei Em => [//|[j2 b2] [//|[j5 b5] [|//]]] [-> ->] Em.
  have [B2 [v2 [_ [E2 M2]]]] := Em 0%N _ _ erefl; have [B5 [v5 [_ [E5 M5]]]] := Em 1%N _ _ erefl.
  subst b2 b5; rewrite /h0 /val /=; congr (_, DM _).
  rewrite meanE //= in M2; rewrite meanE //= in M5; have {}M2 := Ok_inj M2; have {}M5 := Ok_inj M5.
  apply/matrixP => a c; rewrite -M2 -M5 !ord1 !e11 !mxE /= !mulr1n !big_ord_recl big_ord0 !mxE /= addr0.
  by rewrite !big_ord0 !mul1r !mul0r !addr0 add0r mulN1r.
do 7!split=> //.
have nd n (A : 'M[Q]_n) : symmetric A -> exists B : 'M[Q]_n, id (DM A) = DM B /\ symmetric B by exists A.
have sR : symmetric (1%:M : 'M[Q]_1) by rewrite /symmetric trmx1.
have sC : use_Josephs_form cfg0 \/ nummerical_stabilization cfg0 by left.
have HI i : List.In i ids0 <-> List.In i ids0 by [].
have := @C103_any_iterations Q jk (fun _ => true) id noPred 0 nd h0 (fun (b : belief Q) _ => deye Q (bel_dim b) (bel_dim b)) 10 1 ids0 ids0 ds0 Z0 mu0 P0 d0 H0 1 Hs0 1%:M (c1 4%:R) (DM (c1 4%:R)) cfg0 erefl G S sP HI Ft SH sR sC Eh (fun _ _ => erefl).
rewrite /as_full_h correction_step_ok /= => -[A [dx [d' [_ [_ [E _]]]]]]; exists d'; eexists; exact: E.
Qed.
Example C103_example_bystander : all_current Z0 d0 /\ bel_of d0 5 Z0 = Some (b 3%:R 4%:R) /\ (0 < bel_dim (b 3%:R 4%:R))%N /\ ~ List.In 5%N [:: 2]%N /\
  run h1 [:: 2]%N = Ok (d0, ObsRes DISCARED None).
Proof.
split; first split.
- by repeat constructor => /=; [case|].
- move=> id i /=; case: ifP => _; first by case=> <-; exists (b 3%:R 4%:R), Z0, (b 3%:R 4%:R).
  by case: ifP => // _ [<-]; exists (b 2%:R 3%:R), Z0, (b 2%:R 3%:R).
split=> //; split=> //; split; first by case.
rewrite /run; move: 9%N => n.
have E1 : get_dict_bel noPred [:: 2]%N Z0 d0 = Ok (d0, [:: (2%N, b 2%:R 3%:R)]) by [].
have [mm Em] : exists mm, stack_mean [:: (2%N, b 2%:R 3%:R)] = Ok mm by eexists.
have [S ES] : exists S : 'M[Q]_1, stack_Sigma [:: (2%N, b 2%:R 3%:R)] Z0 d0 = Ok (DM S).
  rewrite stack_SigmaE /=; eexists; exact: symmetrize_ok.
have [H EH] : exists H : 'M[Q]_(1, 2), dp_stack_H [:: (2, DM (c1 1))]%N d0 = Ok (DM H) by eexists.
rewrite /dp_apply_h /process_observation_gen E1; cbv beta iota delta [obind]; rewrite Em ES stabilize_ok.
cbn [iterations_gen]; rewrite /iterate_gen; cbv beta iota zeta delta [h1 obind].
have -> : drop_fixed [:: (2%N, b 2%:R 3%:R)] [:: (2, DM (c1 1))]%N = [:: (2, DM (c1 1))]%N by [].
rewrite EH.
by [].
Qed.
End Example103.
(** the registry of C72_example, whose observation is a proper one of the isolated handler: here it is discarded, because one participant is fixed *)
Section Example103_fixed.
Let Q := rat_realFieldType.
Let c1 (x : Q) : dmat Q := DM (x%:M : 'M[Q]_1).
Let b (x s : Q) : belief Q := Bel (c1 x) (c1 s) Z0 false false true.
Let b7 : belief Q := Bel (c1 1) (c1 1) Z0 true false true.
Let d0 : dict (belief Q) (dmat Q) :=
  [:: (7, Inst true [:: (Z0, b7)] [::]);
      (5, Inst true [:: (Z0, b 3%:R 4%:R)] [:: (2, [:: (Z0, c1 1)])]);
      (2, Inst true [:: (Z0, b 2%:R 3%:R)] [:: (5, [:: (Z0, c1 2%:R)])])]%N.
Let H0 : list (nat * dmat Q) := [:: (2, c1 1); (5, c1 (- 1)); (7, c1 3%:R)]%N.
Let bs0 : list (nat * belief Q) := [:: (2, b 2%:R 3%:R); (5, b 3%:R 4%:R); (7, b7)]%N.
Let ids0 : list nat := [:: 5; 7; 2; 5]%N.
Example C103_example_fixed : all_current Z0 d0 /\ observes ids0 bs0 Z0 d0 /\ participants (of_free bs0 H0) (free bs0) 1 Z0 d0 /\
  bel_of d0 7 Z0 = Some b7 /\ (0 < bel_dim b7)%N /\ b_fixed b7.
Proof.
have [O [P _]] := C72_example; split; last by [].
split; first by repeat constructor => /=; intuition congruence.
move=> id i /=; case: ifP => _; first by case=> <-; exists b7, Z0, b7.
case: ifP => _; first by case=> <-; exists (b 3%:R 4%:R), Z0, (b 3%:R 4%:R).
by case: ifP => // _ [<-]; exists (b 2%:R 3%:R), Z0, (b 2%:R 3%:R).
Qed.
End Example103_fixed.
Print Assumptions C103_one_iteration.
Print Assumptions C103_any_iterations.
Print Assumptions C103_bystander.
Print Assumptions C103_bystander_returns.
