(** C76: the inter-agent observation of the decoupled handler. *)
From Coq Require Import ZArith List Bool Arith Lia.
From mathcomp Require Import all_ssreflect all_algebra.
From Verif Require Import Outcome DoubleModel BufModel BufProofs HorizonModel HorizonProofs MeasModel HandlerModel Spec_Handler DMat KFModel Spec_Mat KFProofs BeliefModel EigenModel EigenProofs IsoModel IsoProofs Spec_Joint JointProofs Props_Joint Props_Joint2 IsoTrace DPModel Spec_DP DPProofs HObsModel HObsProofs Props_HObs AgentModel AgentProofs Props_Agent.
Set Implicit Arguments. Unset Strict Implicit. Unset Printing Implicit Defensive.
Import Order.Theory GRing.Theory Num.Theory.
Local Open Scope outcome_scope.
Local Open Scope ring_scope.

Ltac next := let E := fresh in intro E; apply bind_ok in E; destruct E as [? [_ E]]; revert E.

Section C76.
Variable F : realFieldType.
Variable junk : forall n, 'M[F]_n -> 'M[F]_n.
Notation dmat := (dmat F).
Notation belief := (belief F).
Notation dict := (dict belief dmat).
Notation inst := (inst belief dmat).
Notation bels := (list (nat * belief)).
Notation fccs := (list (nat * list (nat * dmat))).
Variable is_psd : dmat -> bool.
Variable nearest : dmat -> dmat.
Variable predict : nat -> Z -> inst -> outcome (inst * bool).
Variable eps0 : F.
Hypothesis nearest_dims : forall n (A : 'M[F]_n), exists B : 'M[F]_n, nearest (DM A) = DM B.
Notation measfun := (bels -> list nat -> dmat -> list (nat * dmat) * dmat).
Notation remotefun := (list nat -> Z -> bool * (bels * fccs)).

(** ** Whatever the measurement function and the remote agent answer: only entries at t of local participants change, and only
    if the result is PROCESSED (participants without a belief at t may be changed by their own predict_to) *)
Lemma touched_local t ids (d d0 d' : dict) ob b : local_beliefs predict ids t d nil = Ok (d0, ob) ->
  (b = true -> exists bs, ob = Some bs /\ near t (List.map fst bs) d0 d') -> (b = false -> d' = d0) -> touched t ids d d' b.
Proof.
move=> /local_frame [A [B C]] N E; split; last split.
- move=> id H; case: b N E => [/(_ erefl) [bs [Eo N]] _|_ /(_ erefl) ->]; last exact: A.
  by have [X _] := N id; rewrite X ?A // => /(C bs id Eo) [//|[]].
- move=> id i G Hi; case: b N E => [/(_ erefl) [bs [Eo N]] _|_ /(_ erefl) ->]; last by exists i; split; [exact: B|].
  by have [_ [X _]] := N id; exact: X (B _ _ G Hi).
- by move=> /E -> id i G Hi; exact: B.
Qed.
Theorem C76_untouched : forall (h : measfun) (remote : remotefun) R z t IDs cfg remote_IDs local_IDs (d d' : dict) o,
  dci_observation junk is_psd nearest predict eps0 h remote R z t IDs cfg remote_IDs local_IDs d = Ok (d', o) ->
  touched t local_IDs d d' (processed o).
Proof.
move=> h remote R z t IDs cfg rI lI d d' o; rewrite /dci_observation /get_local => E.
have {E} [[d1 q] [E E']] := bind_ok E; have {E} [[d0 ob] [Eb E]] := bind_ok E; case: E => ? Eq; subst d0 q.
have no o' : processed o' = false -> Ok (d1, o') = Ok (d', o) -> touched t lI d d' (processed o).
  by move=> Ep [<- <-]; apply: (touched_local Eb) => //; rewrite Ep.
move: E'; case Eob: ob => [bs|]; last exact: no.
case Ebs: bs => [|e l]; first exact: no.
rewrite -Ebs; case: (remote rI t) => got [rb rf]; case: ifP => _; first exact: no.
case: rb => [|e' l']; first exact: no.
case: (h _ _ _) => dH r; next; next; next; next; next; next; next.
case: ifP => _; last exact: no.
move=> E; have {E} [d2 [Ew E]] := bind_ok E; case: E => <- <-; apply: (touched_local Eb) => // _; exists bs; split=> //.
move=> id; have [N1 [N2 N3]] := near_write Ew id; split; last by split.
move=> H; apply: N1 => /List.in_map_iff [y [Ey /List.filter_In [Hy _]]]; apply: H; rewrite -Ey; exact: List.in_map.
Qed.
(** no belief to be had on either side: OUTOFORDER, and the beliefs stored at t stay *)
Theorem C76_missing : forall (h : measfun) (remote : remotefun) R z t IDs cfg remote_IDs local_IDs (d : dict),
  (forall i, List.In i local_IDs -> ~ registered d i -> (forall j, List.In j local_IDs -> registered d j -> bel_of d j t <> None) ->
     dci_observation junk is_psd nearest predict eps0 h remote R z t IDs cfg remote_IDs local_IDs d = Ok (d, ObsRes OUTOFORDER None)) /\
  (local_IDs = nil -> dci_observation junk is_psd nearest predict eps0 h remote R z t IDs cfg remote_IDs local_IDs d = Ok (d, ObsRes OUTOFORDER None)) /\
  ((forall j, List.In j local_IDs -> bel_of d j t <> None) -> fst (remote remote_IDs t) = false \/ fst (snd (remote remote_IDs t)) = nil ->
     dci_observation junk is_psd nearest predict eps0 h remote R z t IDs cfg remote_IDs local_IDs d = Ok (d, ObsRes OUTOFORDER None)).
Proof.
move=> h remote R z t IDs cfg rI lI d; rewrite /dci_observation /get_local; split; last split.
- move=> i Hi Ni Hj; have -> // : forall acc, local_beliefs predict lI t d acc = Ok (d, None).
  elim: lI Hi Hj => [//|j lI IH] Hi Hj acc /=; case G: (d_find j d) => [jj|//].
  have Rj : registered d j by rewrite /registered G.
  have := Hj j (or_introl erefl) Rj; rewrite /bel_of G; case Gb: (bel_at t jj) => [b|//] _.
  rewrite (stored_read predict j Gb) /= upd_same // IH //; first by case: Hi => // E; subst j.
  by move=> k Hk; apply: Hj; right.
- by move=> ->.
- move=> Hj Hr; rewrite local_collect //.
  have [//|//|//|bs [-> [A _]]] := @collect_loop F predict t d lI nil; cbn [obind].
  case: bs A => [//|e l] _; case: (remote rI t) Hr => got [rb rf] /= [->|->] //; by case: ifP.
Qed.

(** ** The update: covariance intersection of the two agents' joint covariances, weight 0.995, written back to the local agent *)
(** the covariance that enters: inflated, and replaced by the nearest one if it is not positive semi-definite *)
Definition ready N (P : 'M[F]_N) : dmat := if is_psd (DM (P + eps0%:M)) then DM (P + eps0%:M) else nearest (DM (P + eps0%:M)).
Definition fused (us : bels) t (d : dict) m N N' (Hi : 'M[F]_(m, N)) (Hj : 'M[F]_(m, N')) (Pi : 'M[F]_N) (Pj : 'M[F]_N') (R : 'M[F]_m) (r : 'cV[F]_m) cfg
    (seen : outcome (dict * obs_res F)) : Prop :=
  match covariance_intersection_correction junk (DM Hi) (DM Hj) (DM R) (DM r) (ready Pi) (ready Pj) (199%:R / 200%:R) cfg with
  | Ok res => if rejected res then seen = Ok (d, ObsRes REJECTED (Some (DM r))) else
      exists (S : 'M[F]_N) (dx : 'cV[F]_N) d', DM S = (if is_psd (Sigma_apos res) then Sigma_apos res else nearest (Sigma_apos res)) /\
        DM dx = delta_mean res /\ seen = Ok (d', ObsRes PROCESSED (Some (DM r))) /\ distributed junk us t d d' S dx (sizes us)
  | Abort e => seen = Abort e
  | UB e => seen = UB e
  end.
(** the Jacobians of the listed estimators *)
Definition only_of (ids : list nat) (dH : list (nat * dmat)) : list (nat * dmat) := List.filter (fun e => List.existsb (Nat.eqb (fst e)) ids) dH.
Definition two_of (ids : list nat) : Prop := exists i j, List.In i ids /\ List.In j ids /\ i <> j.
Lemma ready_ok N (P : 'M[F]_N) : symmetric P -> correct_covariance is_psd nearest eps0 (DM P) = Ok (ready P).
Proof. by move=> sP; rewrite /correct_covariance stabilize_ok /= symm_id. Qed.
Lemma ready_dims N (P : 'M[F]_N) : exists Q : 'M[F]_N, ready P = DM Q.
Proof. by rewrite /ready; case: ifP => _; [eexists|exact: nearest_dims]. Qed.
(** [dr]: the remote agent's registry; its reply is what its own collecting of beliefs and factors yields *)
Theorem C76_fusion : forall (h : measfun) (remote : remotefun) IDs remote_IDs local_IDs lb rb m t (d dr : dict) dHf z (R : 'M[F]_m) (r : 'cV[F]_m) cfg all_bels,
  observes local_IDs lb t d -> observes remote_IDs rb t dr -> two_of local_IDs -> two_of remote_IDs ->
  remote remote_IDs t = (true, (rb, local_fcc remote_IDs remote_IDs t dr)) ->
  (* h sees the beliefs of both agents *)
  ascending all_bels -> (forall i, smap_find i all_bels = if smap_find i lb is Some b then Some b else smap_find i rb) ->
  h all_bels IDs z = (dHf, DM r) -> asc dHf ->
  participants (of_free lb (only_of local_IDs dHf)) (free lb) m t d ->
  participants (of_free rb (only_of remote_IDs dHf)) (free rb) m t dr ->
  let N := sumn (sizes (free lb)) in let N' := sumn (sizes (free rb)) in
  exists (Hi : 'M[F]_(m, N)) (Pi : 'M[F]_N) (Hj : 'M[F]_(m, N')) (Pj : 'M[F]_N'),
  stacked_H (of_free lb (only_of local_IDs dHf)) Hi (sizes (free lb)) /\ stacked_cov (free lb) t d Pi (sizes (free lb)) /\
  stacked_H (of_free rb (only_of remote_IDs dHf)) Hj (sizes (free rb)) /\ stacked_cov (free rb) t dr Pj (sizes (free rb)) /\
  fused (free lb) t d Hi Hj Pi Pj R r cfg
    (dci_observation junk is_psd nearest predict eps0 h remote (DM R) z t IDs cfg remote_IDs local_IDs d).
Proof.
move=> h remote IDs rI lI lb rb m t d dr dHf z R r cfg ab Ol Or Tl Tr Er Aa Ha Eh Ah Pl Pr.
have Al := ascending_asc (o_asc Ol).
have [Hi [EHi SHi]] := H_ok Pl; have [Hj [EHj SHj]] := H_ok Pr.
have [Pi [EPi SPi]] := local_cov Pl (o_asc Ol) (o_ids Ol) (o_bel Ol) Tl.
have [Pj [EPj SPj]] := local_cov Pr (o_asc Or) (o_ids Or) (o_bel Or) Tr.
exists Hi, Pi, Hj, Pj; split=> //; split=> //; split=> //; split=> //.
have Nl : lb <> nil by move=> E; apply: (p_some Pl); rewrite E.
have Nr : rb <> nil by move=> E; apply: (p_some Pr); rewrite E.
rewrite /dci_observation /get_local (local_any predict Al (o_ids Ol) (o_bel Ol)); cbn [obind].
have -> : forall X (a b : X), (if lb is nil then a else b) = b by move=> X a b; case: (lb) Nl.
rewrite Er /=; have -> : forall X (a b : X), (if rb is nil then a else b) = b by move=> X a b; case: (rb) Nr.
have [Aj Fj] := join_find rb Al.
have -> : List.fold_left (fun m e => smap_insert (fst e) (snd e) m) rb lb = ab by apply: asc_unique => // [|k]; [exact: ascending_asc|rewrite Fj Ha].
rewrite Eh !pick_HE // !drop_fixedE.
rewrite -[List.filter _ (List.filter _ dHf)]/(of_free lb (only_of lI dHf)) EHi; cbn [obind].
rewrite -[List.filter _ (List.filter _ dHf)]/(of_free rb (only_of rI dHf)) EHj; cbn [obind].
rewrite EPi EPj; cbn [obind]; have [sPi _] := SPi; have [sPj _] := SPj.
rewrite (ready_ok sPi) (ready_ok sPj); cbn [obind]; rewrite /fused /omega.
have [Qi EQi] := ready_dims Pi; have [Qj EQj] := ready_dims Pj; rewrite EQi EQj ci_ok.
case: (ci_gate _ _ _ _ _ _ _) => [rej|e|e] //=; case: rej => //=.
set Sf := ci_final _ _ _ _ _ _ _ _.
have [S ES] : exists S : 'M[F]_(sumn (sizes (free lb))), (if is_psd (DM Sf) then DM Sf else nearest (DM Sf)) = DM S by case: ifP => _; [eexists|exact: nearest_dims].
rewrite ES; set dx : 'cV[F]_(sumn (sizes (free lb))) := _ *: _.
have [d' [Ew Dd]] := dist junk Pl S dx.
by exists S, dx, d'; split=> //; split=> //; split=> //; rewrite -[unfix lb]/(free lb) Ew.
Qed.
(** ** One participant on a side: the call never returns a result *)
Lemma lone_fcc i ids t (d : dict) : (forall j, List.In j ids -> j = i) -> local_fcc ids ids t d = nil.
Proof.
move=> H; have [_ [_ K]] := local_fcc_spec t d ids ids; case E: local_fcc => [//|[x r] m]; exfalso.
have := proj1 (K x); rewrite E => /(_ (or_introl erefl)) [H1 [_ [j [H2 Ne]]]]; by apply: Ne; rewrite (H j H2) (H x H1).
Qed.
Theorem C76_lone_local : forall (h : measfun) (remote : remotefun) R z t IDs cfg remote_IDs local_IDs (d d' : dict) i b o,
  (forall j, List.In j local_IDs <-> j = i) -> bel_of d i t = Some b -> b_fixed b = false ->
  fst (remote remote_IDs t) = true -> fst (snd (remote remote_IDs t)) <> nil ->
  dci_observation junk is_psd nearest predict eps0 h remote R z t IDs cfg remote_IDs local_IDs d <> Ok (d', o).
Proof.
move=> h remote R z t IDs cfg rI lI d d' i b o Hi Gb Fb Hg Hr.
have Ia j : List.In j lI <-> List.In j (List.map fst [:: (i, b)]) by rewrite Hi /=; split=> [->|[->|//]]; [left|].
have Ib j c : List.In (j, c) [:: (i, b)] -> bel_of d j t = Some c by case=> [[<- <-]|//].
have Aa : asc [:: (i, b)] by split.
rewrite /dci_observation /get_local (local_any predict Aa Ia Ib); cbn [obind].
case: (remote rI t) Hg Hr => got [rb rf] /= -> /=; case: rb => [//|e l] _.
case: (h _ _ _) => dH r; rewrite (@lone_fcc i) => [|j Hj]; last exact/Hi.
by rewrite /unfix /= Fb /=; do 2 (case: stack_H => //= ?).
Qed.
Theorem C76_lone_remote : forall (h : measfun) (remote : remotefun) R z t IDs cfg remote_IDs local_IDs (d d' : dict) j c o,
  (forall j, List.In j local_IDs -> bel_of d j t <> None) -> local_IDs <> nil ->
  remote remote_IDs t = (true, ([:: (j, c)], nil)) -> b_fixed c = false ->
  dci_observation junk is_psd nearest predict eps0 h remote R z t IDs cfg remote_IDs local_IDs d <> Ok (d', o).
Proof.
move=> h remote R z t IDs cfg rI lI d d' j c o Hl Nl Er Fc; rewrite /dci_observation /get_local local_collect //.
have [//|//|//|bs [-> [A Hb]]] := @collect_loop F predict t d lI nil; cbn [obind].
have : bs <> nil.
  case: lI Nl Hl Hb => [//|i l] _ Hl Hb E; have := Hl i (or_introl erefl); case G: bel_of => [b|//] _.
  by have : List.In (i, b) bs by [apply/Hb; split=> //; left; left]; rewrite E.
case: bs {A Hb} => [//|e l] _; rewrite Er /=; case: (h _ _ _) => dH r.
by do 2 (case: stack_H => //= ?); case: stack_Sigma_locally => //= ?; rewrite /unfix /= Fc /=.
Qed.
End C76.

(** a local agent with 2 and 5, a remote one with 8 and 9, both pairs correlated, and the measurement z = x2 + x5 - x8 - x9 *)
Section Example76.
Let Q := rat_realFieldType.
Let c1 (x : Q) : dmat Q := DM (x%:M : 'M[Q]_1).
Let b (x s : Q) : belief Q := Bel (c1 x) (c1 s) Z0 false false true.
Let pair_of (i j : nat) : dict (belief Q) (dmat Q) :=
  [:: (i, Inst true [:: (Z0, b 2%:R 3%:R)] [:: (j, [:: (Z0, c1 2%:R)])]);
      (j, Inst true [:: (Z0, b 3%:R 4%:R)] [:: (i, [:: (Z0, c1 1)])])]%N.
Let bels_of (i j : nat) : list (nat * belief Q) := [:: (i, b 2%:R 3%:R); (j, b 3%:R 4%:R)].
Let H0 : list (nat * dmat Q) := [:: (2, c1 1); (5, c1 1); (8, c1 (- 1)); (9, c1 (- 1))]%N.
Lemma c1_tr76 x : dtr (c1 x) = c1 x.
Proof. by rewrite /dtr /c1 /= tr_scalar_mx. Qed.
Lemma pair_ok76 i j X Y : (i < j)%N -> observes [:: j; i] (bels_of i j) Z0 (pair_of i j) /\ participants [:: (i, c1 X); (j, c1 Y)] (free (bels_of i j)) 1 Z0 (pair_of i j).
Proof.
move=> L; have nnil T k : List.nth_error (@nil T) k = None by case: k.
have ij : (i =? j)%nat = false by apply/Nat.eqb_neq => E; rewrite E ltnn in L.
have ji : (j =? i)%nat = false by rewrite Nat.eqb_sym.
have lij : (i <? j)%nat = true by apply/Nat.ltb_lt/ssrnat.ltP.
split; split=> //=.
- by case=> [|[|k]] [|[|l]] //= x y bi bj; rewrite ?nnil // => -[<- _] [<- _].
- by move=> x; tauto.
- by move=> x bb [[<- <-]|[[<- <-]|//]]; rewrite /bel_of /pair_of /= ?ij ?ji Nat.eqb_refl.
- by case=> [|[|k]] [|[|l]] //= x y bi bj; rewrite ?nnil // => -[<- _] [<- _].
- by case=> [|[|k]] //= x Hk bb; rewrite ?nnil // => -[_ <-] [_ <-].
- by move=> x bb [[<- <-]|[[<- <-]|//]]; rewrite /bel_of /pair_of /= ?ij ?ji Nat.eqb_refl.
- by move=> x bb [[_ <-]|[[_ <-]|//]] /=; rewrite c1_tr76.
- by move=> x bb [[_ <-]|[[_ <-]|//]].
- move=> id x; case: ifP => _; first by case=> <-; repeat constructor; case.
  by case: ifP => // _ [<-]; repeat constructor; case.
- move=> x bb y Z [[<- <-]|[[<- <-]|//]]; rewrite /fac_of /pair_of /= ?ij ?ji Nat.eqb_refl /= /ccf_at /=; case: ifP => //= _; by case=> <-.
- move=> x y bi bj [[<- <-]|[[<- <-]|//]] [[<- <-]|[[<- <-]|//]] Lxy; rewrite ?ltnn // in Lxy; last by move: (ltn_trans L Lxy); rewrite ltnn.
  exists (c1 2%:R); split; last by right.
  by rewrite /get_Sigma_IJ /at_inst /pair_of /= ij !Nat.eqb_refl /= /ccf_get /= !Nat.eqb_refl /= lij c1_tr76 /c1 dmul_ok mulmx1.
Qed.
Example C76_example : observes [:: 5; 2]%N (bels_of 2 5) Z0 (pair_of 2 5) /\ observes [:: 9; 8]%N (bels_of 8 9) Z0 (pair_of 8 9) /\ two_of [:: 5; 2]%N /\ two_of [:: 9; 8]%N /\
  ascending (bels_of 2 5 ++ bels_of 8 9)%list /\
  (forall i, smap_find i (bels_of 2 5 ++ bels_of 8 9)%list = if smap_find i (bels_of 2 5) is Some x then Some x else smap_find i (bels_of 8 9)) /\ asc H0 /\
  participants (of_free (bels_of 2 5) (only_of [:: 5; 2]%N H0)) (free (bels_of 2 5)) 1 Z0 (pair_of 2 5) /\
  participants (of_free (bels_of 8 9) (only_of [:: 9; 8]%N H0)) (free (bels_of 8 9)) 1 Z0 (pair_of 8 9).
Proof.
have nnil T k : List.nth_error (@nil T) k = None by case: k.
have [O1 P1] := @pair_ok76 2 5 1 1 erefl; have [O2 P2] := @pair_ok76 8 9 (- 1) (- 1) erefl.
split=> //; split=> //; split; first by exists 5%N, 2%N; split; [left|split; [right; left|]].
split; first by exists 9%N, 8%N; split; [left|split; [right; left|]].
split; first by case=> [|[|[|[|k]]]] [|[|[|[|l]]]] //= i j bi bj; rewrite ?nnil // => -[<- _] [<- _].
split; first by move=> i /=; do !case: ifP.
split=> //=; do !split=> //; by move=> x w [[<- _]|[[<- _]|[[<- _]|//]]] || by move=> x w [[<- _]|[[<- _]|//]] || by move=> x w [[<- _]|//].
Qed.
(** and a run of the lone case: the exception *)
Example C76_lone_example (junk : forall n, 'M[Q]_n -> 'M[Q]_n) is_psd nearest predict eps0 cfg :
  dci_observation junk is_psd nearest predict eps0 (fun _ _ _ => (H0, c1 1)) (fun _ _ => (true, (bels_of 8 9, local_fcc [:: 8; 9]%N [:: 8; 9]%N Z0 (pair_of 8 9))))
    (c1 1) (c1 1) Z0 [:: 2; 8; 9]%N cfg [:: 8; 9]%N [:: 2]%N (pair_of 2 5) = Abort RTVerificationFailed.
Proof.
have [Hi EHi] : exists Hi, stack_H (drop_fixed [:: (2%N, b 2%:R 3%:R)] (pick_H [:: 2%N] H0)) = Ok Hi.
  rewrite /stack_H /= /dset_block /=; eexists; reflexivity.
have [Hj EHj] : exists Hj, stack_H (drop_fixed (bels_of 8 9) (pick_H [:: 8; 9]%N H0)) = Ok Hj.
  rewrite /stack_H /= /dset_block /=; eexists; reflexivity.
rewrite /dci_observation /get_local; have -> : local_beliefs predict [:: 2%N] Z0 (pair_of 2 5) nil = Ok (pair_of 2 5, Some [:: (2%N, b 2%:R 3%:R)]) by [].
cbn [obind negb]; case E1: (stack_H _) => [x|e|e]; [|by have := etrans (esym EHi) E1|by have := etrans (esym EHi) E1].
cbn [obind]; case E2: (stack_H _) => [y|e|e]; [by []|by have := etrans (esym EHj) E2|by have := etrans (esym EHj) E2].
Qed.
End Example76.
Print Assumptions C76_untouched. Print Assumptions C76_missing. Print Assumptions C76_fusion. Print Assumptions C76_lone_local. Print Assumptions C76_lone_remote.
