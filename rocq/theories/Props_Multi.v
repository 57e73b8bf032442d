(** C89: collaborative observations whose participants belong to several agents.  C90: one estimator, addressed by its ID. *)
From Coq Require Import ZArith List Bool Arith Lia Sorted.
From mathcomp Require Import all_ssreflect all_algebra.
From Verif Require Import Outcome DoubleModel BufModel BufProofs HorizonModel HorizonProofs MeasModel HandlerModel Spec_Handler DMat KFModel Spec_Mat KFProofs BeliefModel EigenModel EigenProofs IsoModel IsoProofs Spec_Joint JointProofs Props_Joint Props_Joint2 IsoTrace DPModel Spec_DP DPProofs HObsModel HObsProofs AgentModel AgentProofs Props_Agent CollabModel CollabProofs Props_Collab MultiModel Spec_Multi MultiProofs.
Set Implicit Arguments. Unset Strict Implicit. Unset Printing Implicit Defensive.
Import Order.Theory GRing.Theory Num.Theory.
Local Open Scope outcome_scope.
Local Open Scope ring_scope.

(** * C90 *)
Section C90.
Variable F : realFieldType.
Notation dmat := (dmat F).
Notation belief := (belief F).
Notation dict := (dict belief dmat).
Notation inst := (inst belief dmat).
Notation keys m := (List.map fst m).
Variable predict : nat -> Z -> inst -> outcome (inst * bool).
(** what the handler shows of its estimators after a call: the same estimators, the belief of [id] at [t] is [B id t] and the
    factor of [a] towards [b] at [t] is [X a b t] *)
Definition shows (d d' : dict) (B : nat -> Z -> option belief) (X : nat -> nat -> Z -> option dmat) : Prop :=
  keys d' = keys d /\ (forall id t, bel_of d' id t = B id t) /\ (forall a b t, fac_of d' a b t = X a b t).
(** setting a belief: accepted exactly for registered IDs; only this belief changes *)
Theorem C90_set_belief : forall id (b : belief) t (d : dict),
  (~ registered d id -> acc_set_bel id b t d = (d, false)) /\
  (registered d id -> exists d', acc_set_bel id b t d = (d', true) /\
     shows d d' (fun id' t' => if (id' =? id)%nat && Z.eqb t' t then Some b else bel_of d id' t') (fac_of d)).
Proof.
move=> id b t d; rewrite /registered /acc_set_bel; case G: (d_find id d) => [i|]; split=> // [H|_]; first by case: H.
eexists; split; first reflexivity; split; first exact: upd_keys; split=> [id' t'|a c t']; rewrite /bel_of /fac_of find_upd G; case: Nat.eqb_spec => [->|//] /=.
  by rewrite /bel_at /= get_ins G.
by rewrite /ccf_at /= G.
Qed.
(** setting a factor *)
Theorem C90_set_factor : forall id t j (m : dmat) (d : dict),
  (~ registered d id -> acc_set_fact id t j m d = (d, false)) /\
  (registered d id -> exists d', acc_set_fact id t j m d = (d', true) /\
     shows d d' (bel_of d) (fun a b t' => if [&& (a =? id)%nat, (b =? j)%nat & Z.eqb t' t] then Some m else fac_of d a b t')).
Proof.
move=> id t j m d; rewrite /registered /acc_set_fact; case G: (d_find id d) => [i|]; split=> // [H|_]; first by case: H.
eexists; split; first reflexivity; split; first exact: upd_keys; split=> [id' t'|a c t']; rewrite /bel_of /fac_of find_upd G; case: Nat.eqb_spec => [->|//] /=.
  by rewrite /bel_at /= G.
by rewrite -fac_ccf_at /= fac_set fac_ccf_at G.
Qed.
(** reading a factor: the stored one, or an empty matrix *)
Theorem C90_get_factor : forall id t j (d : dict), acc_get_fact id t j d = odflt (dempty F) (fac_of d id j t).
Proof. by move=> id t j d; rewrite /acc_get_fact /fac_of; case: d_find => // i; rewrite ccf_getE fac_ccf_at. Qed.
(** reading a belief: the stored one, without any effect; without a stored one the estimator predicts, and the answer is what
    it has stored at t afterwards; an unregistered ID has no effect and no answer *)
Theorem C90_get_belief : forall id t (d : dict),
  (~ registered d id -> acc_get_bel predict id t d = Ok (d, None)) /\
  (forall b, bel_of d id t = Some b -> exists d', acc_get_bel predict id t d = Ok (d', Some b) /\ shows d d' (bel_of d) (fac_of d)) /\
  (forall d' ob, acc_get_bel predict id t d = Ok (d', ob) -> keys d' = keys d /\
     (forall b, ob = Some b -> bel_of d' id t = Some b) /\
     (forall k, k <> id -> d_find k d' = d_find k d)).
Proof.
move=> id t d; rewrite /registered /acc_get_bel; case G: (d_find id d) => [i|]; last first.
  split=> //; split=> [b|d' ob]; first by rewrite /bel_of G.
  by case=> <- <-.
split=> [H|]; first by case: H.
have ex : forall j : inst, exist_at_t t (i_bel j) = if bel_at t j is Some _ then true else false.
  move=> j; rewrite /bel_at; case E: get_at_t => [x|].
    by apply/exist_at_iff; exists x; exact: get_at_In E.
  by apply/negbTE/negP => /exist_at_iff [v Hv]; exact: (proj1 (get_at_none _ _) E v Hv).
split=> [b|d' ob].
  rewrite /bel_of G => Hb; rewrite /belief_or_predict ex Hb /= -/(bel_at t i) Hb; eexists; split; first reflexivity.
  have E k : d_find k (d_upd id i d) = d_find k d by rewrite find_upd G; case: Nat.eqb_spec => [->|].
  by split; [exact: upd_keys|split=> [k x|a c x]; rewrite /bel_of /fac_of E].
case E: (belief_or_predict predict id t i) => [[i' o]|e|e] //= [<- <-]; split; first exact: upd_keys; split=> [b Eo|k N].
  subst o; rewrite /bel_of find_upd G Nat.eqb_refl; move: E; rewrite /belief_or_predict.
  case: exist_at_t; first by case=> <- H; exact: H.
  by case: (predict id t i) => [[j [|]]|e|e] //= [<- H]; exact: H.
by rewrite find_upd; case: Nat.eqb_spec.
Qed.
(** the latest belief: the one stored at the largest time; none for unregistered IDs and empty histories *)
Theorem C90_latest : forall id (d : dict), (forall i, d_find id d = Some i -> ssorted (i_bel i)) ->
  (acc_latest id d = None <-> forall t, bel_of d id t = None) /\
  (forall b, acc_latest id d = Some b -> exists t, bel_of d id t = Some b /\ forall t', bel_of d id t' <> None -> Z.le t' t).
Proof.
move=> id d; rewrite /acc_latest /bel_of; case: (d_find id d) => [i|] // /(_ i erefl) S.
case L: (get_latest (i_bel i)) => [[t b]|] /=.
  have [I M] := get_latest_spec _ _ _ (ssorted_w _ S) L.
  split; first by split=> // /(_ t); rewrite /bel_at; have -> := (proj2 (get_at_iff _ _ _ S) I).
  move=> b' [<-]; exists t; split; first exact: (proj2 (get_at_iff _ _ _ S) I).
  move=> t' N; case E: (bel_at t' i) N => [b''|] // _; exact: (M _ (get_at_In _ _ _ E)).
have E := proj1 (get_latest_none _) L; split=> //; split=> // _ t; by rewrite /bel_at E.
Qed.
(** the correction factor multiplies the factors stored at t from the left and leaves everything else *)
Theorem C90_correct : forall id t (M : dmat) (d : dict),
  (~ registered d id -> acc_correct id t M d = Ok (d, false)) /\
  (forall d' ok, registered d id -> acc_correct id t M d = Ok (d', ok) -> ok = true /\ keys d' = keys d /\
     (forall k t', bel_of d' k t' = bel_of d k t') /\
     (forall a j t', a <> id \/ t' <> t \/ fac_of d a j t = None -> fac_of d' a j t' = fac_of d a j t') /\
     (forall j m, fac_of d id j t = Some m -> exists p, dmul M m = Ok p /\ fac_of d' id j t = Some p)).
Proof.
move=> id t M d; rewrite /registered /acc_correct; case G: (d_find id d) => [i|]; split=> // [H|]; first by case: H.
move=> d' ok _; case E: ccf_scale => [c|e|e] //= [<- <-]; split=> //; split; first exact: upd_keys.
have Fi := fac_scale E; split=> [k t'|].
  by rewrite /bel_of find_upd G; case: Nat.eqb_spec => [->|//]; rewrite G.
split=> [a j t' H|j m]; rewrite /fac_of find_upd G ?Nat.eqb_refl.
  case: Nat.eqb_spec => [Ea|//]; subst a; rewrite G; have [F1 [F2 _]] := Fi j t'; rewrite -!fac_ccf_at /=.
  case: H => [//|[H|]]; first exact: F1.
  by rewrite /fac_of G -fac_ccf_at; exact: F2.
by rewrite -!fac_ccf_at /=; have [_ [_ F3]] := Fi j t; exact: F3.
Qed.
End C90.

(** * C89 *)
Section C89.
Variable F : realFieldType.
Variable junk : forall n, 'M[F]_n -> 'M[F]_n.
Notation dmat := (dmat F).
Notation belief := (belief F).
Notation dict := (dict belief dmat).
Notation inst := (inst belief dmat).
Notation bels := (list (nat * belief)).
Notation keys m := (List.map fst m).
Variable is_psd : dmat -> bool.
Variable nearest : dmat -> dmat.
Variable predict : nat -> Z -> inst -> outcome (inst * bool).
Variable eps0 : F.
Variable T : Type.

Lemma beliefs_keys t : forall ids (d d' : dict) (acc bs : bels), StronglySorted Peano.lt (keys acc ++ ids) ->
  get_dict_bel_loop predict ids t d acc = Ok (d', bs) -> bs = nil \/ keys bs = keys acc ++ ids.
Proof.
elim=> [|id ids IH] d d' acc bs S /=; first by case=> _ <-; right; rewrite cats0.
rewrite /at_inst; case: d_find => [i|] //; case: (belief_or_predict predict id t i) => [[i' [b|]]|e|e] //=; last by case=> _ <-; left.
have E : smap_insert id b acc = acc ++ [:: (id, b)].
  apply: smap_app => x w H; move: S H; elim: (acc) => [//|[y u] l IHl] /= S [[<- _]|H]; inversion S as [|? ? S' A]; subst.
    by apply/ssrnat.ltP; move/List.Forall_forall: A => /(_ id); apply; rewrite List.in_app_iff; right; left.
  exact: IHl.
have K : keys (acc ++ [:: (id, b)]) ++ ids = keys acc ++ id :: ids by elim: (acc) => [//|x l IHl] /=; rewrite IHl.
by rewrite E => /IH; rewrite K; exact.
Qed.
Lemma sorted_nodup (l : list nat) : StronglySorted Peano.lt l -> List.NoDup l.
Proof.
elim=> [|a r S IH A]; constructor=> // H; move/List.Forall_forall: A => /(_ a H); lia.
Qed.
(** what the theorems assume of the beliefs collected: nobody is fixed, and the eigenvalue test accepts the prior *)
Definition free_and_valid (ids : list nat) (t : Z) (d : dict) : Prop :=
  forall d' bs, get_dict_bel predict ids t d = Ok (d', bs) ->
    (forall id b, List.In (id, b) bs -> b_fixed b = false) /\
    (forall Sg S', stack_Sigma bs t d' = Ok Sg -> stabilize_covariance Sg eps0 = Ok S' -> is_psd S' = true).
Notation w_bel := (w_bel predict).
Notation w_set_bel := (@w_set_bel F).
Notation w_fact := (@w_fact F).
Notation w_set_fact := (@w_set_fact F).
Notation w_correct := (w_correct junk).
Notation w_redo := (@w_redo F).
Notation obs_r inter := (m_observation_r junk is_psd nearest predict eps0 w_bel w_set_bel w_fact w_set_fact w_correct w_redo inter).
Notation obs_z := (m_observation_z junk is_psd nearest predict eps0 w_bel w_set_bel w_fact w_set_fact w_correct w_redo).
Lemma as_one_ext kd kr (l1 l2 : bool -> list (nat * Z)) (o : outcome (dict * world F * bool)) u : (forall b, l1 b = l2 b) -> as_one kd kr l1 o u -> as_one kd kr l2 o u.
Proof. by move=> E; rewrite /as_one; case: o => [[[d w] x]|?|?] //; case: u => [[v y]|?|?] //; rewrite E. Qed.
Lemma joined_update X (pre : bels -> outcome X) (go : dmat -> X -> bels -> dmat -> dict * world F -> outcome (dict * world F * bool)) (go1 : dmat -> X -> bels -> dmat -> dict -> outcome (dict * bool))
   (dH : list (nat * dmat)) t (d dr : dict) lg lg' :
  StronglySorted Peano.lt (keys dH) -> (forall id, List.In id (keys dH) -> registered (d ++ dr) id) -> free_and_valid (keys dH) t (d ++ dr) -> lg' false = lg ->
  (forall H x bs Sg d1 dr1, keys d1 = keys d -> keys dr1 = keys dr -> keys bs = keys dH -> List.Forall (fun e => b_fixed (snd e) = false) bs ->
     (forall S', stabilize_covariance Sg eps0 = Ok S' -> is_psd S' = true) ->
     as_one (keys d) (keys dr) lg' (go H x bs Sg (d1, (dr1, lg))) (go1 H x bs Sg (d1 ++ dr1))) ->
  as_one (keys d) (keys dr) lg'
   (let! H := stack_H dH in let! (s, bs) := m_beliefs predict w_bel (keys dH) t (d, (dr, lg)) nil in
    if bs is nil then Ok (s, false) else let! x := pre bs in let! Sg := m_stack_Sigma w_fact bs t s in go H x bs Sg s)
   (let! H := stack_H dH in let! (u, bs) := get_dict_bel predict (keys dH) t (d ++ dr) in
    if bs is nil then Ok (u, false) else let! x := pre bs in let! Sg := stack_Sigma bs t u in go1 H x bs Sg u).
Proof.
move=> S R V L G; case: stack_H => [H|e|e] //; cbn [obind]; have := V; rewrite /free_and_valid /get_dict_bel.
have := beliefs_agree predict t lg nil R; have := (fun d' bs => @beliefs_keys t (keys dH) (d ++ dr) d' nil bs S).
case: (m_beliefs _ _ _ _ _ _) => [[[d1 [dr1 l1]] bs]|e|e]; case: (get_dict_bel_loop _ _ _ _ _) => [[u bs']|e'|e'] // K [Eu [Ebs [Kd [Kr /= El]]]]; subst.
move=> {}V; have [Nf Ps] := V _ _ erefl; have K' := K _ _ erefl; cbn [obind]; case: bs' K' Nf Ps {K V} => [|e bs] K Nf Ps; first by [].
case: K => // K; case: (pre _) => [x|?|?] //; cbn [obind]; rewrite stack_agree; last first.
  by rewrite K; apply: (reg_keys Kd Kr); exact: R.
case E: (stack_Sigma _ _ _) => [Sg|?|?] //; cbn [obind]; apply: G => //; last by move=> S' ES; exact: Ps E ES.
apply/List.Forall_forall => -[id b]; exact: Nf.
Qed.
(** an observation (given its residual) whose other participants belong to at least two agents: the handler and the agents
    together do what one handler owning all the estimators does; the agents that own the participants, each once, are asked to
    redo their later updates if the correction was applied, and nobody otherwise *)
Theorem C89_residual : forall inter (a : agents T) (dH : list (nat * dmat)) (R r : dmat) t cfg (d dr : dict) lg i j,
  StronglySorted Peano.lt (keys dH) -> (forall id, List.In id (keys dH) -> registered d id \/ registered dr id) ->
  free_and_valid (keys dH) t (d ++ dr) ->
  List.In i (keys dH) -> List.In j (keys dH) -> ~ registered d i -> ~ registered d j -> estimatorID2agentID i a <> estimatorID2agentID j a ->
  exists ag, StronglySorted Peano.lt ag /\
    (forall x, List.In x ag <-> exists id, List.In id (keys dH) /\ ~ registered d id /\ estimatorID2agentID id a = x) /\
    as_one (keys d) (keys dr) (fun applied => if applied then lg ++ [seq (x, t) | x <- ag] else lg)
      (obs_r inter a dH R r t cfg (d, (dr, lg)))
      (apply_observation_r junk is_psd nearest predict eps0 dH R r t cfg (d ++ dr)).
Proof.
move=> inter a dH R r t cfg d dr lg i j S Rg V Hi Hj Ni Nj Nij.
have [A M] := agents_fold (keys dH) a d (s := nil) I.
exists (m_agents a (keys dH) d); split; first exact: sasc_sorted; split.
  by move=> x; rewrite M; split; [case|right].
rewrite /m_observation_r /apply_observation_r.
have Rm : List.In i (m_remote (keys dH) d) by apply/List.filter_In; split=> //; apply/negP => /localP.
rewrite [fst (d, _)]/=; case E: (m_remote (keys dH) d) Rm => [//|x l] _; rewrite -E.
have -> : (seq.size (m_agents a (keys dH) d) == 1)%N = false.
  have Mi : List.In (estimatorID2agentID i a) (m_agents a (keys dH) d) by apply/M; right; exists i.
  have Mj : List.In (estimatorID2agentID j a) (m_agents a (keys dH) d) by apply/M; right; exists j.
  by move: Mi Mj; case: (m_agents a (keys dH) d) => [//|y [|z l']] //= [Ey|//] [Ez|//]; case: Nij; rewrite -Ey -Ez.
have R' : forall id, List.In id (keys dH) -> registered (d ++ dr) id.
  by move=> id /Rg; rewrite /registered find_cat; case: (d_find id d) => // -[].
apply: (@joined_update unit (fun _ => Ok tt) (fun H _ bs Sg s => m_update junk is_psd nearest eps0 w_set_bel w_set_fact w_correct w_redo H R r bs Sg (m_remote (keys dH) d) (m_agents a (keys dH) d) t cfg s)
  (fun H _ bs Sg u => joint_update junk is_psd nearest eps0 H R r bs Sg t cfg u)) => // H _ bs Sg d1 dr1 Kd Kr Kb Nf Ps.
rewrite -Kb -Kd -Kr; apply: update_agree => //.
- by rewrite Kb; apply: (reg_keys Kd Kr); exact: R'.
- by rewrite Kb; exact: sorted_nodup.
Qed.
(** with a measurement, for any number of other agents; nobody is asked to redo updates *)
Theorem C89_measurement : forall (dH : list (nat * dmat)) (z R : dmat) t cfg (d dr : dict) lg i,
  StronglySorted Peano.lt (keys dH) -> (forall id, List.In id (keys dH) -> registered d id \/ registered dr id) ->
  free_and_valid (keys dH) t (d ++ dr) -> List.In i (keys dH) -> ~ registered d i ->
  as_one (keys d) (keys dr) (fun _ => lg)
    (obs_z dH z R t cfg (d, (dr, lg)))
    (apply_observation_z junk is_psd nearest predict eps0 dH z R t cfg (d ++ dr)).
Proof.
move=> dH z R t cfg d dr lg i S Rg V Hi Ni.
rewrite /m_observation_z /apply_observation_z.
have Rm : List.In i (m_remote (keys dH) d) by apply/List.filter_In; split=> //; apply/negP => /localP.
rewrite [fst (d, _)]/=; case E: (m_remote (keys dH) d) Rm => [//|x l] _; rewrite -E.
have R' : forall id, List.In id (keys dH) -> registered (d ++ dr) id.
  by move=> id /Rg; rewrite /registered find_cat; case: (d_find id d) => // -[].
apply: (@joined_update dmat (fun bs => stack_mean bs)
  (fun H m bs Sg s => let! hm := dmul H m in let! r := dsub z hm in m_update junk is_psd nearest eps0 w_set_bel w_set_fact w_correct w_redo H R r bs Sg (m_remote (keys dH) d) nil t cfg s)
  (fun H m bs Sg u => let! hm := dmul H m in let! r := dsub z hm in joint_update junk is_psd nearest eps0 H R r bs Sg t cfg u)) => // H m bs Sg d1 dr1 Kd Kr Kb Nf Ps.
case: (dmul H m) => [hm|?|?] //; cbn [obind]; case: (dsub z hm) => [r|?|?] //; cbn [obind].
rewrite -Kb -Kd -Kr.
apply: (@as_one_ext _ _ (fun b : bool => if b then lg ++ [seq (x, t) | x <- nil] else lg)); first by case; rewrite //= cats0.
apply: update_agree => //.
- by rewrite Kb; apply: (reg_keys Kd Kr); exact: R'.
- by rewrite Kb; exact: sorted_nodup.
Qed.
(** together with C67: the estimators of all agents receive the update of one centralised filter over the participants *)
Section Central.
Hypothesis nearest_dims : forall n (A : 'M[F]_n), exists B : 'M[F]_n, nearest (DM A) = DM B.
Variables (dH : list (nat * dmat)) (bs : bels) (m : nat) (t : Z) (d dr : dict) (lg : list (nat * Z)).
Hypothesis P : participants dH bs m t (d ++ dr).
Hypothesis Psd : forall Ps : 'M[F]_(sumn (sizes bs)), stacked_cov bs t (d ++ dr) Ps (sizes bs) -> is_psd (DM (Ps + eps0%:M)) = true.
Lemma part_sorted : StronglySorted Peano.lt (keys dH).
Proof.
rewrite (p_ids P); have := p_asc P; elim: (bs) => [|[i b] l IH] A; first by constructor.
constructor; first by apply: IH => k n i' j bi bj E1 E2 L; exact: (A k.+1 n.+1 i' j bi bj).
apply/List.Forall_forall => j /List.in_map_iff [[j' bj] [/= <- H]]; have [n E] := List.In_nth_error _ _ H.
by apply/ssrnat.ltP; exact: (A 0%N n.+1 i j' b bj).
Qed.
Lemma part_registered id : List.In id (keys dH) -> registered d id \/ registered dr id.
Proof.
rewrite (p_ids P) => /List.in_map_iff [[i b] [/= <- H]]; have [_] := p_bel P H; rewrite /bel_of /registered find_cat.
by case: (d_find i d) => [x|]; [left|case: (d_find i dr) => [x|] //; right].
Qed.
Lemma part_valid : free_and_valid (keys dH) t (d ++ dr).
Proof.
move=> d' bs'; rewrite (bel_ok predict P) => -[<- <-]; split=> [id b H|Sg S']; first by have [] := p_bel P H.
have [A [-> SA]] := cov_ok P; case=> <-; rewrite stabilize_ok => -[<-]; rewrite (symm_id (proj1 SA)); exact: Psd.
Qed.
Theorem C89_centralized_residual : forall inter (a : agents T) (R : 'M[F]_m) (r : 'cV[F]_m) cfg i j,
  List.In i (keys dH) -> List.In j (keys dH) -> ~ registered d i -> ~ registered d j -> estimatorID2agentID i a <> estimatorID2agentID j a ->
  exists (Hs : 'M[F]_(m, sumn (sizes bs))) (Ps : 'M[F]_(sumn (sizes bs))) ag joined,
    stacked_H dH Hs (sizes bs) /\ stacked_cov bs t (d ++ dr) Ps (sizes bs) /\ StronglySorted Peano.lt ag /\
    (forall x, List.In x ag <-> exists id, List.In id (keys dH) /\ ~ registered d id /\ estimatorID2agentID id a = x) /\
    as_one (keys d) (keys dr) (fun applied => if applied then lg ++ [seq (x, t) | x <- ag] else lg)
      (obs_r inter a dH (DM R) (DM r) t cfg (d, (dr, lg))) joined /\
    as_centralized junk is_psd nearest eps0 bs t (d ++ dr) Hs Ps R r cfg joined.
Proof.
move=> inter a R r cfg i j Hi Hj Ni Nj Nij.
have [Hs [Ps [SH [SP C]]]] := @C67_residual F junk is_psd nearest predict eps0 nearest_dims _ _ _ _ _ P R r cfg.
have [ag [Sa [Ea A]]] := @C89_residual inter a dH (DM R) (DM r) t cfg d dr lg i j part_sorted part_registered part_valid Hi Hj Ni Nj Nij.
by exists Hs, Ps, ag; eexists; split; [exact SH|split; [exact SP|split; [exact Sa|split; [exact Ea|split; [exact A|exact C]]]]].
Qed.
Theorem C89_centralized_measurement : forall (R : 'M[F]_m) (z : 'cV[F]_m) cfg i, List.In i (keys dH) -> ~ registered d i ->
  exists (Hs : 'M[F]_(m, sumn (sizes bs))) (mu : 'cV[F]_(sumn (sizes bs))) (Ps : 'M[F]_(sumn (sizes bs))) joined,
    stacked_H dH Hs (sizes bs) /\ stacked_mean bs mu (sizes bs) /\ stacked_cov bs t (d ++ dr) Ps (sizes bs) /\
    as_one (keys d) (keys dr) (fun _ => lg) (obs_z dH (DM z) (DM R) t cfg (d, (dr, lg))) joined /\
    as_centralized junk is_psd nearest eps0 bs t (d ++ dr) Hs Ps R (z - Hs *m mu) cfg joined.
Proof.
move=> R z cfg i Hi Ni.
have [Hs [mu [Ps [SH [SM [SP C]]]]]] := @C67_measurement F junk is_psd nearest predict eps0 nearest_dims _ _ _ _ _ P R z cfg.
have A := @C89_measurement dH (DM z) (DM R) t cfg d dr lg i part_sorted part_registered part_valid Hi Ni.
by exists Hs, mu, Ps; eexists; split; [exact SH|split; [exact SM|split; [exact SP|split; [exact A|exact C]]]].
Qed.
End Central.
End C89.

(** ** only estimators of this handler, and only one other agent *)
Section Local.
Variable F : realFieldType.
Variable junk : forall n, 'M[F]_n -> 'M[F]_n.
Notation dmat := (dmat F).
Notation belief := (belief F).
Notation dict := (dict belief dmat).
Notation inst := (inst belief dmat).
Notation bels := (list (nat * belief)).
Notation keys m := (List.map fst m).
Variable is_psd : dmat -> bool.
Variable nearest : dmat -> dmat.
Variable predict : nat -> Z -> inst -> outcome (inst * bool).
Variable eps0 : F.
Variable T : Type.
Variable W : Type.
Variable far_bel : nat -> Z -> W -> outcome (W * option belief).
Variable far_set_bel : nat -> Z -> belief -> W -> outcome W.
Variable far_fact : W -> nat -> nat -> Z -> dmat.
Variable far_set_fact : nat -> nat -> dmat -> Z -> W -> outcome W.
Variable far_correct : nat -> Z -> dmat -> dmat -> W -> outcome W.
Variable far_redo : nat -> Z -> W -> outcome W.
Notation here d ids := (forall id, List.In id ids -> d_find id (d : dict) <> None).
Lemma here_keys (d d' : dict) ids : keys d' = keys d -> here d ids -> here d' ids.
Proof. by move=> K R id H; apply: (found_keys K); exact: R. Qed.
Lemma beliefs_local t : forall ids (d : dict) (w : W) acc, here d ids ->
  m_beliefs predict far_bel ids t (d, w) acc = (let! (d', bs) := get_dict_bel_loop predict ids t d acc in Ok ((d', w), bs)).
Proof.
elim=> [//|id ids IH] d w acc R /=; rewrite /at_inst; have := R id (or_introl erefl); case: (d_find id d) => [i|] // _.
case: (belief_or_predict predict id t i) => [[i' [b|]]|e|e] //=; apply: IH; apply: (here_keys (d := d)); first exact: upd_keys.
by move=> j H; apply: R; right.
Qed.
Lemma beliefs_dict t : forall ids (d d' : dict) acc bs, get_dict_bel_loop predict ids t d acc = Ok (d', bs) -> keys d' = keys d.
Proof.
elim=> [|id ids IH] d d' acc bs /=; first by case=> <-.
rewrite /at_inst; case: d_find => [i|] //; case: (belief_or_predict predict id t i) => [[i' [b|]]|e|e] //=.
  by move/IH => ->; exact: upd_keys.
by case=> <- _; exact: upd_keys.
Qed.
Lemma stack_local (bs : bels) t (d : dict) (w : W) : here d (keys bs) -> m_stack_Sigma far_fact bs t (d, w) = stack_Sigma bs t d.
Proof.
move=> R; rewrite /m_stack_Sigma /stack_Sigma; congr (obind _ _); apply: ofold_in => s ei Hi; case: ifP => // _.
congr (obind _ _); apply: ofold_in => s' ej Hj; case: ifP => // _; congr (obind _ _).
suff -> : c_get_Sigma (far_fact (d, w).2) (fst ei) (fst ej) t (d, w).1 = get_Sigma_IJ (fst ei) (fst ej) t d by [].
have := R _ (List.in_map fst _ _ Hi); have := R _ (List.in_map fst _ _ Hj); rewrite /c_get_Sigma /get_Sigma_IJ /at_inst /=.
by case: (d_find (fst ei) d) => [x|] //; case: (d_find (fst ej) d).
Qed.
Lemma set_local I J S t (d : dict) (w : W) : d_find I d <> None -> d_find J d <> None ->
  m_set_Sigma far_set_fact I J S t (d, w) = (let! d' := set_Sigma_IJ I J S t d in Ok (d', w)).
Proof.
move=> RI RJ; rewrite /m_set_Sigma /c_set_Sigma /set_Sigma_IJ /c_set_fact /mod_inst /at_inst /=.
have N a b x : d_find b d <> None -> d_find b (d_upd a x d) <> None by apply: found_keys; exact: upd_keys.
case: Nat.ltb.
  case GI: (d_find I d) RI => [i|] // _; cbn [obind]; have := N I J (with_ccf (ccf_set J t S (i_ccf i)) i) RJ.
  by rewrite [(_, _).1]/=; case: (d_find J (d_upd I _ d)).
case GJ: (d_find J d) RJ => [j|] // _; cbn [obind]; have := N J I (with_ccf (ccf_set I t (dtr S) (i_ccf j)) j) RI.
by rewrite [(_, _).1]/=; case: (d_find I (d_upd J _ d)).
Qed.
Lemma set_dict I J S t (d d' : dict) : set_Sigma_IJ I J S t d = Ok d' -> keys d' = keys d.
Proof.
rewrite /set_Sigma_IJ; case: Nat.ltb; case E: (mod_inst _ _ d) => [u|?|?] //=; move/mod_keys => ->; exact: mod_keys E.
Qed.
Lemma split_row_local S I di t : forall rest row col (d : dict) (w : W), d_find I d <> None -> here d (keys rest) ->
  m_split_row far_set_fact S I di row col rest t (d, w) = (let! d' := split_row S I di row col rest t d in Ok (d', w)) /\
  (forall d', split_row S I di row col rest t d = Ok d' -> keys d' = keys d).
Proof.
elim=> [|[J b] rest IH] row col d w RI R /=; first by split=> // d' [<-].
case: (dblock S row col di _) => [B|?|?] //; cbn [obind]; rewrite set_local //; last by apply: R; left.
case E: (set_Sigma_IJ I J B t d) => [d1|?|?] //; cbn [obind]; have K := set_dict E.
have [-> H2] := IH row (col + bel_dim b)%N d1 w (found_keys K RI) (here_keys K (fun id H => R id (or_intror H))).
by split=> // d' /H2 ->.
Qed.
Lemma split_rows_local S t : forall us row (d : dict) (w : W), here d (keys us) ->
  m_split_rows far_set_fact S row us t (d, w) = (let! d' := split_rows S row us t d in Ok (d', w)) /\
  (forall d', split_rows S row us t d = Ok d' -> keys d' = keys d).
Proof.
elim=> [//|[I b] us IH] row d w R; case: us IH R => [_ _|[J c] us IH R]; first by split=> //= d' [<-].
rewrite -[split_rows _ _ _ _ _]/(let! u := split_row S I (bel_dim b) row (row + bel_dim b) ((J, c) :: us) t d in split_rows S (row + bel_dim b) ((J, c) :: us) t u).
rewrite -[m_split_rows _ _ _ _ _ _]/(let! s := m_split_row far_set_fact S I (bel_dim b) row (row + bel_dim b) ((J, c) :: us) t (d, w) in m_split_rows far_set_fact S (row + bel_dim b) ((J, c) :: us) t s).
have R' : here d (keys ((J, c) :: us)) by move=> id H; apply: R; right.
have [-> H2] := @split_row_local S I (bel_dim b) t ((J, c) :: us) row (row + bel_dim b)%N d w (R I (or_introl erefl)) R'.
case E: (split_row _ _ _ _ _ _ _ _) => [d1|?|?] //; cbn [obind]; have K := H2 _ E.
have [-> H3] := IH (row + bel_dim b)%N d1 w (here_keys K R'); split=> // d' /H3 ->; exact: K.
Qed.
Lemma correct_local S dx t (bs : bels) (d : dict) : here d (keys bs) ->
  (let! (d', _) := m_correct S dx bs t d in Ok d') = correct_beliefs S dx bs t d.
Proof.
rewrite /m_correct /correct_beliefs.
pose f := fun (s : dict * bels * nat) (e : nat * belief) => if ~~ b_fixed (snd e) then mstep S dx t s e else Ok ((fst (fst s), snd (fst s) ++ [:: e]), snd s).
pose g := fun (s : dict * nat) (e : nat * belief) => if ~~ b_fixed (snd e) then bstep S dx t s e else Ok s.
rewrite -[ofold _ (d, nil, 0%N) bs]/(ofold f (d, nil, 0%N) bs) -[ofold _ (d, 0%N) bs]/(ofold g (d, 0%N) bs).
suff H : forall bs row (d : dict) acc, here d (keys bs) ->
   (let! (s, n) := ofold f ((d, acc), row) bs in Ok (fst s, n)) = ofold g (d, row) bs.
  move=> R; have := H bs 0%N d nil R; case: (ofold f _ _) => [[[d1 b1] n]|?|?]; case: (ofold g _ _) => [[d2 n2]|?|?] //=; by [case=> <-|case=> ->].
elim=> [//|e l IH] row d0 acc R; rewrite -[ofold f _ _]/(obind (f ((d0, acc), row) e) (fun s => ofold f s l)).
rewrite -[ofold g _ _]/(obind (g (d0, row) e) (fun s => ofold g s l)) {1}/f {1}/g; have Rl : here d0 (keys l) by move=> id H; apply: R; right.
case: ifP => _; last by cbn [obind]; exact: IH.
rewrite {1}/mstep {1}/bstep ![snd _]/= ![fst _]/=; case: (dblock S row row _ _) => [Sii|?|?] //; cbn [obind].
case: (dblock dx row 0 _ 1) => [v|?|?] //; cbn [obind]; case: (bel_correct v Sii _) => [b'|?|?] //; cbn [obind].
have -> : local (fst e) d0 by apply/localE; apply: R; left.
case E: (mod_inst _ _ d0) => [d1|?|?] //; cbn [obind]; apply: IH; exact: here_keys (mod_keys E) Rl.
Qed.
Lemma corrections_dict S (bs : bels) t (d d' : dict) : apply_corrections junk S bs t d = Ok d' -> keys d' = keys d.
Proof.
rewrite /apply_corrections; set g := (fun s e => _).
suff H : forall bs row (d d' : dict) n, ofold g (d, row) bs = Ok (d', n) -> keys d' = keys d.
  by have := H bs 0%N d; case: (ofold g _ _) => [[u n]|?|?] // /(_ u n erefl) K [<-].
elim=> [|e l IH] row d0 d1 n; first by case=> <-.
rewrite -[ofold g _ _]/(obind (g (d0, row) e) (fun s => ofold g s l)) {1}/g; case: ifP => _; last by cbn [obind]; exact: IH.
rewrite ![snd _]/= ![fst _]/=; case: (dblock S row row _ _) => [Sii|?|?] //; cbn [obind].
by case E: (mod_inst _ _ d0) => [u|?|?] //; cbn [obind]; move/IH => ->; exact: mod_keys E.
Qed.
Lemma filter_keys (p : nat * belief -> bool) (bs : bels) id : List.In id (keys (List.filter p bs)) -> List.In id (keys bs).
Proof. by move=> /List.in_map_iff [e [<- /List.filter_In [H _]]]; exact: List.in_map. Qed.
Lemma update_local H R r (bs : bels) Sg t cfg (d : dict) (w : W) : here d (keys bs) ->
  m_base_update junk is_psd nearest eps0 far_set_fact H R r bs Sg t cfg (d, w) =
  (let! (d', ok) := joint_update junk is_psd nearest eps0 H R r bs Sg t cfg d in Ok ((d', w), ok)).
Proof.
move=> Rg; rewrite /m_base_update /joint_update; case: stabilize_covariance => [S'|?|?] //; cbn [obind].
case: (correction_step junk H R r S' cfg) => [res|?|?] //; cbn [obind]; case: (rejected res) => //=.
set Sp := if _ then _ else _; rewrite /write_joint.
case E1: (apply_corrections _ _ _ _ _) => [d1|?|?] //; cbn [obind]; have K1 := corrections_dict E1.
rewrite /m_split /split_right_upper.
have R1 : here d1 (keys (List.filter (fun e : nat * belief => ~~ b_fixed (snd e)) bs)).
  by apply: (here_keys K1) => id /filter_keys; exact: Rg.
have [-> H2] := @split_rows_local Sp t _ 0%N d1 w R1.
case E2: (split_rows _ _ _ _ _) => [d2|?|?] //; cbn [obind]; have K2 := H2 _ E2.
have R2 : here d2 (keys bs) by apply: (here_keys K2); exact: (here_keys K1).
rewrite [fst _]/= [snd _]/= -(correct_local Sp (delta_mean res) t R2).
by case: (m_correct _ _ _ _ _) => [[d3 bs3]|?|?].
Qed.
(** all participants are registered here: the inherited observation, and the other agents are not involved *)
Theorem C89_local : forall inter (a : agents T) (dH : list (nat * dmat)) (R y : dmat) t cfg (d : dict) (w : W),
  (forall id, List.In id (keys dH) -> registered d id) ->
  m_observation_r junk is_psd nearest predict eps0 far_bel far_set_bel far_fact far_set_fact far_correct far_redo inter a dH R y t cfg (d, w) =
    (let! (d', ok) := apply_observation_r junk is_psd nearest predict eps0 dH R y t cfg d in Ok ((d', w), ok)) /\
  m_observation_z junk is_psd nearest predict eps0 far_bel far_set_bel far_fact far_set_fact far_correct far_redo dH y R t cfg (d, w) =
    (let! (d', ok) := apply_observation_z junk is_psd nearest predict eps0 dH y R t cfg d in Ok ((d', w), ok)).
Proof.
move=> inter a dH R y t cfg d w Rg; rewrite /m_observation_r /m_observation_z [fst (d, w)]/=.
have -> : m_remote (keys dH) d = nil.
  by apply: filter_nil => id /Rg /localP ->.
have bk d' bs : get_dict_bel_loop predict (keys dH) t d nil = Ok (d', bs) -> here d' (keys bs).
  move=> E; apply: (here_keys (beliefs_dict E)) => id H; apply: Rg; by have [|[]] := beliefs_from E H.
rewrite /m_base_r /m_base_z /apply_observation_r /apply_observation_z /get_dict_bel; case: (stack_H dH) => [H|?|?] //; cbn [obind].
rewrite beliefs_local //; case E: (get_dict_bel_loop _ _ _ _ _) => [[d' bs]|?|?] //; cbn [obind]; case: bs E => [//|e bs] E; have Rb := bk _ _ E.
rewrite stack_local //; split.
  by case: (stack_Sigma _ _ _) => [Sg|?|?] //; cbn [obind]; rewrite update_local.
case: (stack_mean _) => [mm|?|?] //; cbn [obind]; case: (stack_Sigma _ _ _) => [Sg|?|?] //; cbn [obind].
by case: (dmul H mm) => [hm|?|?] //; cbn [obind]; case: (dsub y hm) => [r|?|?] //; cbn [obind]; rewrite update_local.
Qed.
(** all the unregistered participants belong to one other agent: the update with one agent gets the unregistered and the
    registered IDs, both in ascending order of the given dictionary (C79 is about this update) *)
Theorem C89_one_agent : forall inter (a : agents T) (dH : list (nat * dmat)) (R r : dmat) t cfg (d : dict) (w : W) i x,
  List.In i (keys dH) -> ~ registered d i -> (forall j, List.In j (keys dH) -> ~ registered d j -> estimatorID2agentID j a = x) ->
  exists there here,
    m_observation_r junk is_psd nearest predict eps0 far_bel far_set_bel far_fact far_set_fact far_correct far_redo inter a dH R r t cfg (d, w) = inter there here (d, w) /\
    exists p, (forall j, p j = true <-> registered d j) /\ here = List.filter p (keys dH) /\ there = List.filter (fun j => negb (p j)) (keys dH).
Proof.
move=> inter a dH R r t cfg d w i x Hi Ni Hx.
have [A M] := agents_fold (keys dH) a d (s := nil) I.
exists (m_remote (keys dH) d), (List.filter (fun id => local id d) (keys dH)); split; last first.
  by exists (fun j => local j d); split=> // j; split=> [/localP|H]; [|apply/localP].
rewrite /m_observation_r [fst (d, w)]/=.
have Rm : List.In i (m_remote (keys dH) d) by apply/List.filter_In; split=> //; apply/negP => /localP.
case E: (m_remote (keys dH) d) Rm => [//|y l] _; rewrite -E.
suff -> : (seq.size (m_agents a (keys dH) d) == 1)%N by [].
have all x' : List.In x' (m_agents a (keys dH) d) -> x' = x.
  by move=> /M [[]|[id [H1 [H2 <-]]]]; exact: Hx.
have Mi : List.In x (m_agents a (keys dH) d) by apply/M; right; exists i; split=> //; split=> //; exact: Hx.
move: (sasc_sorted A) all Mi; rewrite -/(m_agents a (keys dH) d); case: (m_agents a (keys dH) d) => [//|u [|v l']] // S all _.
have Eu := all u (or_introl erefl); have Ev := all v (or_intror (or_introl erefl)).
by inversion S as [|? ? _ Fu]; inversion Fu; subst; lia.
Qed.
End Local.

(** * examples *)
Section Examples.
Let Q := rat_realFieldType.
Let c1 (x : Q) : dmat Q := DM (x%:M : 'M[Q]_1).
Let b (x s : Q) : belief Q := Bel (c1 x) (c1 s) Z0 false false true.
(** estimator 2 is here, 5 belongs to agent 1 and 9 to agent 2; 2 is correlated with both *)
Let here : dict (belief Q) (dmat Q) := [:: (2, Inst true [:: (Z0, b 2%:R 3%:R)] [:: (5, [:: (Z0, c1 2%:R)]); (9, [:: (Z0, c1 1)])])]%N.
Let there : dict (belief Q) (dmat Q) :=
  [:: (9, Inst true [:: (Z0, b 1 1)] [:: (2, [:: (Z0, c1 1)])]); (5, Inst true [:: (Z0, b 3%:R 4%:R)] [:: (2, [:: (Z0, c1 1)])])]%N.
Let own : agents unit := Agents nil [:: (5, 1); (9, 2)]%N.
Let H0 : list (nat * dmat Q) := [:: (2, c1 1); (5, c1 (- 1)); (9, c1 1)]%N.
Let bs0 : list (nat * belief Q) := [:: (2, b 2%:R 3%:R); (5, b 3%:R 4%:R); (9, b 1 1)]%N.
Lemma c1_sym' x : dtr (c1 x) = c1 x.
Proof. by rewrite /dtr /c1 /= tr_scalar_mx. Qed.
Lemma ex_part : participants H0 bs0 1 Z0 (here ++ there).
Proof.
have nnil X k : List.nth_error (@nil X) k = None by case: k.
split=> //=.
- by case=> [|[|[|k]]] [|[|[|l]]] //= i j bi bj; rewrite ?nnil // => -[<- _] [<- _].
- case=> [|[|[|k]]] //= i Hk bb; rewrite ?nnil // => -[_ <-] [_ <-]; by [].
- by move=> i bb [[<- <-]|[[<- <-]|[[<- <-]|//]]].
- by move=> i bb [[_ <-]|[[_ <-]|[[_ <-]|//]]] /=; rewrite c1_sym'.
- by move=> i bb [[_ <-]|[[_ <-]|[[_ <-]|//]]].
- move=> id i; case: ifP => _; first by case=> <- /=; repeat constructor => /=; [case|case].
  case: ifP => _; first by case=> <-; repeat constructor; case.
  by case: ifP => // _ [<-] /=; repeat constructor => /=; case.
- move=> i bb j X [[<- <-]|[[<- <-]|[[<- <-]|//]]]; rewrite /fac_of /= /ccf_at /=; do !case: ifP => //= _; by case=> <-.
- move=> i j bi bj [[<- <-]|[[<- <-]|[[<- <-]|//]]] [[<- <-]|[[<- <-]|[[<- <-]|//]]] // _; last first.
  + by eexists; split; [reflexivity|left].
  + exists (c1 1); split; last by right.
    by rewrite /get_Sigma_IJ /= c1_sym' /c1 dmul_ok mulmx1.
  + exists (c1 2%:R); split; last by right.
    by rewrite /get_Sigma_IJ /= c1_sym' /c1 dmul_ok mulmx1.
Qed.
Example C89_example : exists (d : dict (belief Q) (dmat Q)) dr,
  m_observation_r (fun n A => A) (fun _ => true) id (fun _ _ i => Ok (i, false)) 0 (w_bel (fun _ _ i => Ok (i, false))) (@w_set_bel Q) (@w_fact Q) (@w_set_fact Q)
    (w_correct (fun n A => A)) (@w_redo Q) (fun _ _ s => Ok (s, false)) own H0 (DM (1%:M : 'M_1)) (DM (1%:M : 'M_1)) Z0 (CorrCfg false true true (d_of_Z 1) 0) (here, (there, nil))
  = Ok ((d, (dr, [:: (1%N, Z0); (2%N, Z0)])), true) /\ List.map fst d = [:: 2%N] /\ List.map fst dr = [:: 9; 5]%N.
Proof.
have nd n (A : 'M[Q]_n) : exists B : 'M[Q]_n, id (DM A) = DM B by exists A.
have ps (Ps : 'M[Q]_(sumn (sizes bs0))) : stacked_cov bs0 Z0 (here ++ there) Ps (sizes bs0) -> (fun _ : dmat Q => true) (DM (Ps + 0%:M)) = true by [].
have [|||||Hs [Ps [ag [joined [_ [_ [Sa [Ea [A]]]]]]]]] := @C89_centralized_residual Q (fun n A => A) (fun _ => true) id (fun _ _ i => Ok (i, false)) 0 unit nd H0 bs0 1 Z0 here there nil ex_part ps
  (fun _ _ s => Ok (s, false)) own 1%:M 1%:M (CorrCfg false true true (d_of_Z 1) 0) 5%N 9%N.
all: try by rewrite /=; tauto.
all: try by [].
rewrite /as_centralized correction_step_ok /= => -[S [dx [d' [_ [_ [Ej _]]]]]]; move: A; rewrite {}Ej /as_one.
case: (m_observation_r _ _ _ _ _ _ _ _ _ _ _ _ _ _ _ _ _ _ _) => [[[d w] x]|e|e] //; case=> _ [-> [Kd [Kr Ew]]]; exists d, (fst w); split=> //.
suff Eag : ag = [:: 1; 2]%N by rewrite Eag in Ew; case: w Ew Kr => dr l /= -> Kr.
have I1 : List.In 1%N ag by apply/Ea; exists 5%N; split; [rewrite /=; tauto|split].
have I2 : List.In 2%N ag by apply/Ea; exists 9%N; split; [rewrite /=; tauto|split].
have all x' : List.In x' ag -> x' = 1%N \/ x' = 2%N.
  move=> /Ea [id [Hid [Hn <-]]]; move: Hid Hn => /= [<-|[<-|[<-|//]]] Hn; [by case: Hn|by left|by right].
move: Sa all I1 I2; case: ag {Ea Ew} => [|u [|v [|z l]]] // Sa all I1 I2.
- by exfalso; case: I1 => [E1|[]]; case: I2 => [E2|[]]; rewrite E1 in E2.
- inversion Sa as [|? ? S2 F2]; subst; inversion F2; subst.
  have Eu := all u (or_introl erefl); have Ev := all v (or_intror (or_introl erefl)).
  have [-> ->] : u = 1%N /\ v = 2%N by lia.
  by [].
- exfalso; inversion Sa as [|? ? S2 F2]; subst; inversion S2 as [|? ? S3 F3]; subst; inversion F2; subst; inversion F3; subst.
  have := all u (or_introl erefl); have := all v (or_intror (or_introl erefl)); have := all z (or_intror (or_intror (or_introl erefl))); lia.
Qed.
Example C90_example : registered here 2 /\ ~ registered here 5 /\ acc_get_fact 2 Z0 5 here = c1 2%:R /\ acc_latest 2 here = Some (b 2%:R 3%:R).
Proof. by split=> //; split=> // H; apply: H. Qed.
End Examples.
Print Assumptions C90_set_belief. Print Assumptions C90_set_factor. Print Assumptions C90_get_factor. Print Assumptions C90_get_belief.
Print Assumptions C90_latest. Print Assumptions C90_correct.
Print Assumptions C89_residual. Print Assumptions C89_measurement. Print Assumptions C89_centralized_residual. Print Assumptions C89_centralized_measurement.
Print Assumptions C89_local. Print Assumptions C89_one_agent.
