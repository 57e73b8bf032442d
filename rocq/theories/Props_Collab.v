(** C77: which estimators are correlated, and whom a delayed measurement concerns in the collaborative handler;
    C78: cross-covariances whose factors are stored at two agents; C80: the check for negative variances. *)
From Coq Require Import ZArith List Bool Arith Lia Sorting.Sorted.
From mathcomp Require Import all_ssreflect all_algebra.
From Verif Require Import Outcome DoubleModel BufModel BufProofs HorizonModel HorizonProofs MeasModel HandlerModel Spec_Handler DMat KFModel Spec_Mat KFProofs BeliefModel EigenModel EigenProofs IsoModel IsoProofs Spec_Joint JointProofs Props_Joint Props_Joint2 IsoTrace DPModel Spec_DP DPProofs HObsModel HObsProofs Props_HObs AgentModel AgentProofs Props_Agent CollabModel CollabProofs.
Set Implicit Arguments. Unset Strict Implicit. Unset Printing Implicit Defensive.
Import Order.Theory GRing.Theory Num.Theory.
Local Open Scope outcome_scope.
Local Open Scope ring_scope.

Section C77.
Variable F : realFieldType.
Notation dmat := (dmat F).
Notation belief := (belief F).
Notation dict := (dict belief dmat).
Notation inst := (inst belief dmat).
Notation keys m := (List.map fst m).
(** at most one history per correlated estimator, at most one instance per ID (they are maps) *)
Definition maps_ok (d : dict) : Prop := List.NoDup (keys d) /\ forall id i, List.In (id, i) d -> List.NoDup (keys (i_ccf i)).

Lemma ccf_find_iff (c : list (nat * buf dmat)) j b : List.NoDup (keys c) -> ccf_find j c = Some b <-> List.In (j, b) c.
Proof.
elim: c => [//|[k x] c IH] /= D; inversion D as [|? ? N D']; subst; case: (Nat.eqb_spec k j) => [E|Ne].
  subst k; split; first by case=> ->; left.
  by case=> [[->]//|H]; case: N; apply/List.in_map_iff; exists (j, b).
by rewrite IH //; split; [right|case=> [[Ek]|]//].
Qed.
Lemma ids_where (p : buf dmat -> bool) (c : list (nat * buf dmat)) j : List.NoDup (keys c) ->
  List.In j (keys (List.filter (fun e => p (snd e)) c)) <-> exists b, ccf_find j c = Some b /\ p b.
Proof.
move=> D; split.
  by move=> /List.in_map_iff [[k b] [/= <- /List.filter_In [H P]]]; exists b; split=> //; apply/ccf_find_iff.
by case=> b [/(ccf_find_iff _ _ D) H P]; apply/List.in_map_iff; exists (j, b); split=> //; apply/List.filter_In.
Qed.
(** ** one estimator *)
Theorem C77_correlated : forall (i : inst) t, List.NoDup (keys (i_ccf i)) ->
  (forall j, List.In j (ccf_ids_at t (i_ccf i)) <-> exists X, ccf_at j t i = Some X) /\
  (forall j, List.In j (ccf_ids_after t (i_ccf i)) <-> exists t' X, Z.lt t t' /\ ccf_at j t' i = Some X) /\
  (forall j t' X, ccf_at j t' i = Some X -> List.In j (ccf_ids (i_ccf i))) /\
  ((forall j b, List.In (j, b) (i_ccf i) -> b <> nil) -> forall j, List.In j (ccf_ids (i_ccf i)) -> exists t' X, ccf_at j t' i = Some X).
Proof.
move=> i t D; have At j k X : ccf_at j k i = Some X <-> exists b, ccf_find j (i_ccf i) = Some b /\ get_at_t k b = Some X.
  by rewrite -fac_ccf_at /fac; case: ccf_find => [b|]; split=> [H|[b' [//]]]; [exists b|case=> <-|].
have Ex k v (b : buf dmat) : List.In (k, v) b -> exists X, get_at_t k b = Some X.
  by move=> H; case E: (get_at_t k b) => [X|]; [exists X|case: (proj1 (get_at_none k b) E v H)].
split; [|split; [|split]].
- move=> j; rewrite /ccf_ids_at ids_where //; split.
    by case=> b [Eb /exist_at_iff [v H]]; have [X EX] := Ex _ _ _ H; exists X; apply/At; exists b.
  by case=> X /At [b [Eb EX]]; exists b; split=> //; apply/exist_at_iff; exists X; exact: get_at_In EX.
- move=> j; rewrite /ccf_ids_after ids_where //; split.
    by case=> b [Eb /exist_after_iff [[k v] [H /= L]]]; have [X EX] := Ex _ _ _ H; exists k, X; split=> //; apply/At; exists b.
  by case=> t' [X [L /At [b [Eb EX]]]]; exists b; split=> //; apply/exist_after_iff; exists (t', X); split=> //; exact: get_at_In EX.
- by move=> j t' X /At [b [/(ccf_find_iff _ _ D) H _]]; apply/List.in_map_iff; exists (j, b).
- move=> Ne j /List.in_map_iff [[k b] [/= <- H]]; have := Ne _ _ H; case: b H => [//|[t' v] b] H _.
  have [|X EX] := @Ex t' v ((t', v) :: b); first by left.
  by exists t', X; apply/At; exists ((t', v) :: b); split=> //; apply/ccf_find_iff.
Qed.
(** ** the handler *)
Lemma sfold (l : list nat) (g : nat -> nat) (p : nat -> bool) : forall s, sasc s ->
  let r := List.fold_left (fun s j => if p j then sset_insert (g j) s else s) l s in
  sasc r /\ forall x, List.In x r <-> List.In x s \/ exists j, List.In j l /\ p j /\ x = g j.
Proof.
elim: l => [|y l IH] s A /=; first by split=> // x; split; [left|case=> // -[j [[]]]].
case Py: (p y); last first.
  have [A1 F1] := IH _ A; split=> // x; rewrite F1; split; case=> [|[j [H [Pj E]]]]; [by left| |by left|].
    by right; exists j; split; [right|].
  by case: H => [Ey|H]; [rewrite -Ey Py in Pj|right; exists j].
have [A1 F1] := IH _ (sset_asc (g y) A); split=> // x; rewrite F1 sset_In; split.
  case=> [[E|H]|[j [H [Pj E]]]]; [|by left|]; right; last by exists j; split; [right|].
  by exists y; split; [left|].
case=> [H|[j [[E|H] [Pj Ex]]]]; [by left; right| |by right; exists j].
by left; left; rewrite Ex E.
Qed.
Lemma after_fold (t : Z) (d : dict) : forall s, sasc s ->
  let r := List.fold_left (fun s e => List.fold_left (fun s j => sset_insert j s) (ccf_ids_after t (i_ccf (snd e))) s) d s in
  sasc r /\ forall x, List.In x r <-> List.In x s \/ exists e, List.In e d /\ List.In x (ccf_ids_after t (i_ccf (snd e))).
Proof.
elim: d => [|e d IH] s A /=; first by split=> // x; split; [left|case=> // -[? []]].
have [A1 F1] := @sfold (ccf_ids_after t (i_ccf (snd e))) id xpredT _ A.
have [A2 F2] := IH _ A1; split=> // x; rewrite F2 F1; split.
  case=> [[H|[j [H [_ ->]]]]|[e' [H H']]]; [by left| |]; right; last by exists e'; split; [right|].
  by exists e; split; [left|].
case=> [H|[e' [[E|H] H']]]; [by left; left| |by right; exists e'].
by left; right; exists x; rewrite E.
Qed.
(** an estimator correlated with one of this agent's estimators later than t *)
Definition later_factor (d : dict) (j : nat) (t : Z) : Prop := exists id t' X, Z.lt t t' /\ fac_of d id j t' = Some X.
Lemma later_in (d : dict) j t : maps_ok d -> (exists e, List.In e d /\ List.In j (ccf_ids_after t (i_ccf (snd e)))) <-> later_factor d j t.
Proof.
case=> D Di; have Df id i : d_find id d = Some i <-> List.In (id, i) d.
  elim: (d) D => [//|[k x] l IH] /= D'; inversion D' as [|? ? N D'']; subst; case: (Nat.eqb_spec k id) => [E|Ne].
    subst k; split; first by case=> ->; left.
    by case=> [[->]//|H]; case: N; apply/List.in_map_iff; exists (id, i).
  by rewrite IH //; split; [right|case=> [[Ek]|]//].
split.
  case=> -[id i] [H /= Hj]; have [_ [Ha _]] := @C77_correlated i t (Di _ _ H); have [t' [X [L E]]] := proj1 (Ha j) Hj.
  by exists id, t', X; split=> //; rewrite /fac_of (proj2 (Df _ _) H).
case=> id [t' [X [L]]]; rewrite /fac_of; case G: (d_find id d) => [i|//] E; have H := proj1 (Df _ _) G.
exists (id, i); split=> //=; have [_ [Ha _]] := @C77_correlated i t (Di _ _ H); by apply/Ha; exists t', X.
Qed.
Theorem C77_handler_correlated : forall (d : dict) t, maps_ok d ->
  (StronglySorted Peano.lt (c_correlated_after t d) /\ forall j, List.In j (c_correlated_after t d) <-> later_factor d j t) /\
  (StronglySorted Peano.lt (c_remote_after t d) /\ forall j, List.In j (c_remote_after t d) <-> later_factor d j t /\ ~ registered d j).
Proof.
move=> d t M; have [//|A Fi] := @after_fold t d nil; have Hc j : List.In j (c_correlated_after t d) <-> later_factor d j t.
  by rewrite Fi later_in //; split; [case|right].
split; first by split=> //; exact: sasc_sorted.
have [//|A2 F2] := @sfold (c_correlated_after t d) id (fun j => ~~ local j d) nil; split; first exact: sasc_sorted.
move=> j; rewrite F2; split.
  by case=> [//|[k [/Hc H [L ->]]]]; split=> //; move: L; rewrite /local /registered; case: d_find => // _ N; exact: N.
case=> /Hc H R; right; exists j; split=> //; split=> //; rewrite /local; by move: R; rewrite /registered; case: d_find => // a N; case: N.
Qed.
(** a delayed measurement is discarded exactly when the DISCARD strategy is chosen and it would affect another agent *)
Theorem C77_discard : forall strat (d : dict) t, maps_ok d ->
  c_discard strat t d = true <-> strat = RS_DISCARD /\ exists j, later_factor d j t /\ ~ registered d j.
Proof.
move=> strat d t M; have [_ [_ H]] := C77_handler_correlated t M; rewrite /c_discard; case: strat; try by split=> // -[].
case E: (c_remote_after t d) => [|j l]; split=> //.
  by case=> _ [j /H]; rewrite E.
by move=> _; split=> //; exists j; apply/H; rewrite E; left.
Qed.
(** and the agents asked to redo their updates are the agents of these estimators, for the POSTCORRELATED strategy only, each once *)
Theorem C77_redo_agents : forall T strat (a : agents T) (d : dict) t, maps_ok d ->
  StronglySorted Peano.lt (c_redo_agents strat a t d) /\
  forall ag, List.In ag (c_redo_agents strat a t d) <->
    strat = RS_POSTCORRELATED /\ exists j, later_factor d j t /\ ~ registered d j /\ estimatorID2agentID j a = ag.
Proof.
move=> T strat a d t M; have [_ [_ H]] := C77_handler_correlated t M; rewrite /c_redo_agents.
case: strat; try by split; [constructor|move=> ag; split=> // -[]].
have [//|A Fi] := @sfold (c_remote_after t d) (fun j => estimatorID2agentID j a) (fun j => ~~ local j d) nil.
split; first exact: sasc_sorted.
move=> ag; rewrite /c_agents_of Fi; split.
  by case=> [//|[j [/H [L R] [_ ->]]]]; split=> //; exists j.
case=> _ [j [L [R E]]]; right; exists j; split; first exact/H.
by split=> //; rewrite /local; move: R; rewrite /registered; case: d_find => // x N; case: N.
Qed.
End C77.

(** * C78 *)
Section C78.
Variable F : realFieldType.
Notation dmat := (dmat F).
Notation belief := (belief F).
Notation dict := (dict belief dmat).
(** another agent's reaction to set_CrossCovFact_IJ_at_t and its answer to get_CrossCovFact_IJ_at_t, for its own estimators *)
Definition far_store (t : Z) (ms : list (nat * nat * dmat)) (dr : dict) : dict :=
  List.fold_left (fun d m => let '(a, b, X) := m in
    match d_find a d with Some i => d_upd a (with_ccf (ccf_set b t X (i_ccf i)) i) d | None => d end) ms dr.
Definition far_read (dr : dict) (a b : nat) (t : Z) : dmat := odflt (dempty F) (fac_of dr a b t).

Lemma c_get_E (d dr : dict) I J t : c_get_Sigma (far_read dr) I J t d =
  (let fact a b := odflt (dempty F) (if d_find a d is Some _ then fac_of d a b t else fac_of dr a b t) in
   let fij := fact I J in let fji := fact J I in
   if (dsize fij != 0%N) && (dsize fji != 0%N) then if (I <? J)%nat then dmul fij (dtr fji) else let! s := dmul fji (dtr fij) in Ok (dtr s)
   else Ok (dempty F)).
Proof.
have H a b : match d_find a d with Some i => ccf_get b t (i_ccf i) | None => far_read dr a b t end = odflt (dempty F) (if d_find a d is Some _ then fac_of d a b t else fac_of dr a b t).
  by rewrite /fac_of; case G: d_find => [i|] //; rewrite ccf_getE fac_ccf_at.
by rewrite /c_get_Sigma !H.
Qed.
Lemma fac_upd (d : dict) a b X t i id j k : d_find a d = Some i ->
  fac_of (d_upd a (with_ccf (ccf_set b t X (i_ccf i)) i) d) id j k = if [&& (id =? a)%nat, (j =? b)%nat & Z.eqb k t] then Some X else fac_of d id j k.
Proof.
move=> G; rewrite /fac_of find_upd; case: (Nat.eqb_spec id a) => [E|//]; subst id.
by rewrite G -!fac_ccf_at /= fac_set.
Qed.
Lemma bel_upd (d : dict) a c i id k : d_find a d = Some i -> bel_of (d_upd a (with_ccf c i) d) id k = bel_of d id k.
Proof. by move=> G; rewrite /bel_of find_upd; case: (Nat.eqb_spec id a) => [E|//]; subst id; rewrite G. Qed.
Lemma eye1 n : deye F n n = DM (1%:M : 'M[F]_n).
Proof. by congr DM; apply/matrixP => i j; rewrite !mxE. Qed.
Lemma find_upd_none (d : dict) a c id : d_find id (d_upd a c d) = None <-> d_find id d = None.
Proof. by rewrite find_upd; case: (Nat.eqb_spec id a) => [->|//]; case: d_find. Qed.

(** writing the cross-covariance of two estimators, at least one of them this agent's and every other one the other agent's,
    and reading it afterwards gives the matrix written (for the reversed pair, its transpose), and nothing else changes *)
Theorem C78_set_get : forall I J (S : dmat) t (d dr : dict), I <> J -> dsize S <> 0%N ->
  (registered d I \/ registered dr I) -> (registered d J \/ registered dr J) ->
  exists d' sent, c_set_Sigma I J S t d = Ok (d', sent) /\
    let dr' := far_store t sent dr in
    c_get_Sigma (far_read dr') I J t d' = Ok S /\ c_get_Sigma (far_read dr') J I t d' = Ok (dtr S) /\
    (forall K L k, ~ (k = t /\ (K = I /\ L = J \/ K = J /\ L = I)) -> c_get_Sigma (far_read dr') K L k d' = c_get_Sigma (far_read dr) K L k d) /\
    (forall id k, bel_of d' id k = bel_of d id k /\ bel_of dr' id k = bel_of dr id k) /\
    (* what leaves this agent concerns estimators it does not have *)
    (forall a b X, List.In (a, b, X) sent -> ~ registered d a /\ (a = I /\ b = J \/ a = J /\ b = I)).
Proof.
have W a b X t (d dr : dict) s : (registered d a \/ registered dr a) ->
  exists d' s', c_set_fact a b X t (d, s) = Ok (d', s ++ s')%list /\
    let dr' := far_store t s' dr in
    (forall id, d_find id d' = None <-> d_find id d = None) /\ (forall id, d_find id dr' = None <-> d_find id dr = None) /\
    (forall id k, bel_of d' id k = bel_of d id k /\ bel_of dr' id k = bel_of dr id k) /\
    (forall id j k, (if d_find id d' is Some _ then fac_of d' id j k else fac_of dr' id j k) =
       if [&& (id =? a)%nat, (j =? b)%nat & Z.eqb k t] then Some X else if d_find id d is Some _ then fac_of d id j k else fac_of dr id j k) /\
    (forall m, List.In m s' -> ~ registered d a /\ m = (a, b, X)).
  rewrite /c_set_fact /=; case G: (d_find a d) => [i|] H.
    exists (d_upd a (with_ccf (ccf_set b t X (i_ccf i)) i) d), nil; rewrite List.app_nil_r; split=> //=.
    split; first by move=> id; rewrite find_upd_none.
    split=> //; split; first by move=> id k; rewrite (bel_upd _ _ _ G).
    split=> // id j k; have := find_upd_none d a (with_ccf (ccf_set b t X (i_ccf i)) i) id.
    rewrite (fac_upd _ _ _ _ _ _ G); case E1: (d_find id (d_upd _ _ _)) => [x|]; case E2: (d_find id d) => [y|] [H1 H2] //; [by have := H2 erefl|by have := H1 erefl|].
    by case: (Nat.eqb_spec id a) => // E; subst id; rewrite G in E2.
  have {H} : registered dr a by case: H; rewrite /registered ?G.
  rewrite /registered; case Gr: (d_find a dr) => [i|//] _.
  exists d, [:: (a, b, X)]; split=> //=; rewrite Gr; split=> //.
  split; first by move=> id; rewrite find_upd_none.
  split; first by move=> id k; rewrite (bel_upd _ _ _ Gr).
  split; last by move=> m [<-|//]; split=> //; rewrite /registered G; apply.
  move=> id j k; case E: (d_find id d) => [y|]; last by rewrite (fac_upd _ _ _ _ _ _ Gr).
  by case: (Nat.eqb_spec id a) => // Ei; subst id; rewrite G in E.
have Fs t s1 s2 (dr : dict) : far_store t (s1 ++ s2)%list dr = far_store t s2 (far_store t s1 dr) by rewrite /far_store List.fold_left_app.
(* the ordered case *)
have Main lo hi S t (d dr : dict) : (lo < hi)%N -> dsize S <> 0%N -> (registered d lo \/ registered dr lo) -> (registered d hi \/ registered dr hi) ->
  exists d' sent, (let! s := c_set_fact lo hi S t (d, nil) in c_set_fact hi lo (deye F (dcols S) (dcols S)) t s) = Ok (d', sent) /\
    let dr' := far_store t sent dr in
    c_get_Sigma (far_read dr') lo hi t d' = Ok S /\ c_get_Sigma (far_read dr') hi lo t d' = Ok (dtr S) /\
    (forall K L k, ~ (k = t /\ (K = lo /\ L = hi \/ K = hi /\ L = lo)) -> c_get_Sigma (far_read dr') K L k d' = c_get_Sigma (far_read dr) K L k d) /\
    (forall id k, bel_of d' id k = bel_of d id k /\ bel_of dr' id k = bel_of dr id k) /\
    (forall a b X, List.In (a, b, X) sent -> ~ registered d a /\ (a = lo /\ b = hi \/ a = hi /\ b = lo)).
  move=> Lt Hs Rl Rh; have [d1 [s1 [-> [N1 [M1 [B1 [F1 S1]]]]]]] := W lo hi S t d dr nil Rl.
  have Rh' : registered d1 hi \/ registered (far_store t s1 dr) hi.
    by case: Rh => H; [left=> /N1|right=> /M1].
  cbn [obind app]; have [d2 [s2 [-> [N2 [M2 [B2 [F2 S2]]]]]]] := W hi lo (deye F (dcols S) (dcols S)) t d1 _ s1 Rh'.
  exists d2, (s1 ++ s2)%list; split=> //; rewrite Fs; cbv zeta.
  have lh : (lo =? hi)%nat = false by apply/Nat.eqb_neq => E; rewrite E ltnn in Lt.
  have hl : (hi =? lo)%nat = false by rewrite Nat.eqb_sym.
  have ltT : (lo <? hi)%nat by apply/Nat.ltb_lt/ssrnat.ltP.
  have ltF : (hi <? lo)%nat = false by apply/Nat.ltb_ge; apply: Nat.lt_le_incl; apply/ssrnat.ltP.
  have Ns : dsize S != 0%N by apply/eqP.
  have Ne : dsize (deye F (dcols S) (dcols S)) != 0%N by move: Ns; rewrite /dsize /= !muln_eq0 negb_or orbb => /andP [_ H].
  have one : dtr (deye F (dcols S) (dcols S)) = deye F (dcols S) (dcols S).
    by rewrite eye1 /dtr /= trmx1.
  have mul1 : dmul S (deye F (dcols S) (dcols S)) = Ok S.
    by case: (S) => m n A /=; rewrite eye1 dmul_ok mulmx1.
  split; first by rewrite c_get_E; cbv beta zeta; rewrite !F2 !F1 !Nat.eqb_refl !Z.eqb_refl lh hl /= Ns Ne ltT one.
  split; first by rewrite c_get_E; cbv beta zeta; rewrite !F2 !F1 !Nat.eqb_refl !Z.eqb_refl lh hl /= Ns Ne ltF one /= mul1.
  split; last first.
    split; first by move=> id k; have [-> ->] := B2 id k; exact: B1.
    move=> a b X; rewrite List.in_app_iff; case=> [/S1 [R [-> -> _]]|/S2 [R [-> -> _]]]; first by split=> //; left.
    by split; [move=> H; apply: R => /N1|right].
  move=> K L k Hn; rewrite !c_get_E; cbv beta zeta; rewrite !F2 !F1.
  have no a b : (k = t -> ~ (a = lo /\ b = hi)) -> [&& (a =? lo)%nat, (b =? hi)%nat & Z.eqb k t] = false.
    by move=> H; apply/negP => /and3P [/Nat.eqb_eq Ha /Nat.eqb_eq Hb /Z.eqb_eq Hk]; exact: H Hk (conj Ha Hb).
  have no' a b : (k = t -> ~ (a = hi /\ b = lo)) -> [&& (a =? hi)%nat, (b =? lo)%nat & Z.eqb k t] = false.
    by move=> H; apply/negP => /and3P [/Nat.eqb_eq Ha /Nat.eqb_eq Hb /Z.eqb_eq Hk]; exact: H Hk (conj Ha Hb).
  rewrite !no ?no' //; move=> Hk -[Ha Hb]; apply: Hn; split=> //; tauto.
move=> I J S t d dr N Hs RI RJ; rewrite /c_set_Sigma; case: Nat.ltb_spec => L.
  by apply: Main => //; apply/ssrnat.ltP.
have Lt : (J < I)%N by apply/ssrnat.ltP; lia.
have Hs' : dsize (dtr S) <> 0%N by rewrite /dsize /= mulnC.
have [d' [s [E [G1 [G2 [G3 [G4 G5]]]]]]] := Main J I (dtr S) t d dr Lt Hs' RJ RI.
exists d', s; split=> //; cbv zeta; rewrite G1 G2 dtrK; split=> //; split=> //.
split; first by move=> K L' k H; apply: G3; tauto.
split=> // a b X /G5 [R H]; split=> //; tauto.
Qed.
(** it is the cross-covariance the two agents' estimators would have in one handler *)
Theorem C78_as_one_handler : forall I J t (d dr : dict), (registered d I \/ registered dr I) -> (registered d J \/ registered dr J) ->
  c_get_Sigma (far_read dr) I J t d = get_Sigma_IJ I J t (d ++ dr)%list.
Proof.
move=> I J t d dr RI RJ; have fc a b : fac_of (d ++ dr)%list a b t = if d_find a d is Some _ then fac_of d a b t else fac_of dr a b t.
  by case G: (d_find a d) => [i|]; [rewrite fac_cat // G|rewrite fac_cat'].
have In a : (registered d a \/ registered dr a) -> exists i, d_find a (d ++ dr)%list = Some i.
  by rewrite find_cat /registered; case: d_find => [i _|]; [exists i|case=> [//|]; case: d_find => [i _|//]; exists i].
have [i GI] := In _ RI; have [j GJ] := In _ RJ.
by rewrite (get_SigmaE _ GI GJ) c_get_E !fc.
Qed.
End C78.

(** * C80 *)
Section C80.
Variable F : realFieldType.
Theorem C80_negative_diag : forall (A : dmat F), negative_diag A = true <-> exists k, (k < drows A)%N /\ (k < dcols A)%N /\ entry A k k < 0.
Proof.
move=> A; rewrite /negative_diag; split.
  by move=> /existsP [k H]; exists (nat_of_ord k); have := ltn_ord k; rewrite leq_min => /andP [].
case=> k [H1 [H2 H3]]; have H : (k < minn (drows A) (dcols A))%N by rewrite leq_min H1.
by apply/existsP; exists (Ordinal H).
Qed.
(** no valid covariance is reported *)
Theorem C80_covariance : forall n (A : 'M[F]_n), psd A -> negative_diag (DM A) = false.
Proof.
move=> n A HA; apply/negbTE/negP => /(C80_negative_diag (DM A)) [k [/= Hk [_]]].
rewrite (entry_in A Hk Hk) ltNge => /negP; apply.
have := HA (delta_mx (Ordinal Hk) 0); rewrite /quad trmx_delta -rowE.
suff -> : (row (Ordinal Hk) A *m (delta_mx (Ordinal Hk) 0 : 'cV[F]_n)) 0 0 = A (Ordinal Hk) (Ordinal Hk) by [].
by rewrite mxE (bigD1 (Ordinal Hk)) //= !mxE !eqxx mulr1 big1 ?addr0 // => i Ni; rewrite !mxE (negbTE Ni) mulr0.
Qed.
(** but a matrix without negative variances need not be a valid covariance *)
Theorem C80_not_sufficient : exists A : 'M[F]_2, symmetric A /\ negative_diag (DM A) = false /\ ~ psd A.
Proof.
exists (\matrix_(i, j) if i == j then 0 else 1); split; [|split].
- by apply/matrixP => i j; rewrite !mxE eq_sym.
- apply/negbTE/negP => /(C80_negative_diag (DM _)) [k [/= Hk [_]]].
  by rewrite (entry_in _ Hk Hk) mxE eqxx ltxx.
- move=> /(_ (\col_i if i == 0 then 1 else -1)); rewrite /quad mxE /= !big_ord_recl big_ord0 !mxE /= !big_ord_recl !big_ord0 !mxE /=.
  by rewrite !mul1r !mulr1 !mulr0 !addr0 !add0r mul1r -opprD oppr_ge0 leNgt addr_gt0 // ltr01.
Qed.
End C80.

(** * examples *)
Section Examples.
Let Q := rat_realFieldType.
Let c1 (x : Q) : dmat Q := DM (x%:M : 'M[Q]_1).
Let b (x s : Q) : belief Q := Bel (c1 x) (c1 s) Z0 false false true.
(** estimator 2 is correlated with 8 at 0 and 5, and with 3 at 0; 3 is here, 8 is not *)
Let here : dict (belief Q) (dmat Q) :=
  [:: (2, Inst true [:: (Z0, b 2%:R 3%:R)] [:: (8, [:: (Z0, c1 2%:R); (Zpos 5, c1 1)]); (3, [:: (Z0, c1 1)])]);
      (3, Inst true [:: (Z0, b 1 1)] [:: (2, [:: (Z0, c1 1)])])]%N.
Let there : dict (belief Q) (dmat Q) := [:: (8, Inst true [:: (Z0, b 3%:R 4%:R)] [:: (2, [:: (Z0, c1 1)])])]%N.
Example C77_example : maps_ok here /\ c_correlated_after (Zpos 1) here = [:: 8%N] /\ c_remote_after (Zpos 1) here = [:: 8%N] /\
  c_correlated_after (Zneg 1) here = [:: 2; 3; 8]%N /\ c_remote_after (Zneg 1) here = [:: 8%N] /\
  c_discard RS_DISCARD (Zpos 1) here = true /\ c_discard RS_DISCARD (Zpos 5) here = false.
Proof.
split; last by do !split.
split; first by repeat constructor; rewrite /=; intuition discriminate.
by move=> id i [[_ <-]|[[_ <-]|//]] /=; repeat constructor; rewrite /=; intuition discriminate.
Qed.
Example C78_example : registered here 3 /\ registered there 8 /\ 3%N <> 8%N /\ dsize (c1 2%:R) <> 0%N /\
  exists d' s, c_set_Sigma 8 3 (c1 2%:R) Z0 here = Ok (d', s) /\ c_get_Sigma (far_read (far_store Z0 s there)) 8 3 Z0 d' = Ok (c1 2%:R).
Proof.
split; first by []. split; first by []. split; first by []. split; first by [].
have [//|//|||d' [s [E [H _]]]] := @C78_set_get _ 8 3 (c1 2%:R) Z0 here there; [by right|by left|].
by exists d', s.
Qed.
Example C80_example : negative_diag (DM (\matrix_(i < 2, j < 3) if (i == 1%N :> nat) && (j == 1%N :> nat) then (-1 : Q) else 0)) = true.
Proof. by apply/(C80_negative_diag (DM _)); exists 1%N; split=> //; split=> //; rewrite (@entry_in _ 2 3 _ 1 1 erefl erefl) mxE. Qed.
End Examples.
Print Assumptions C77_correlated. Print Assumptions C77_handler_correlated. Print Assumptions C77_discard. Print Assumptions C77_redo_agents.
Print Assumptions C78_set_get. Print Assumptions C78_as_one_handler.
Print Assumptions C80_negative_diag. Print Assumptions C80_covariance. Print Assumptions C80_not_sufficient.
