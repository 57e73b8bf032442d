(** C73, C74, C75: the lookup tables of the agent handler, routing in the collaborative handler, and exchanging the covariances
    of one agent's estimators. *)
From Coq Require Import ZArith List Bool Arith Lia Sorting.Sorted.
From mathcomp Require Import all_ssreflect all_algebra.
From Verif Require Import Outcome DoubleModel BufModel BufProofs HorizonModel HorizonProofs MeasModel HandlerModel Spec_Handler DMat KFModel Spec_Mat KFProofs BeliefModel EigenModel EigenProofs IsoModel IsoProofs Spec_Joint JointProofs Props_Joint Props_Joint2 IsoTrace DPModel Spec_DP DPProofs HObsModel HObsProofs AgentModel AgentProofs.
Set Implicit Arguments. Unset Strict Implicit. Unset Printing Implicit Defensive.
Import Order.Theory GRing.Theory Num.Theory.
Local Open Scope outcome_scope.
Local Open Scope ring_scope.

(** * C73 *)
Section C73.
Variable T : Type.
Variable nostring : T.
Notation agents := (agents T).
(** everything the agents have listed, in the order of the agents and of their lists *)
Definition listings (a : agents) : list (nat * T) := List.concat (List.map snd (a_ids a)).
Lemma ids_fold (ls : list (nat * list (nat * T))) : forall s, sasc s ->
  let r := List.fold_left (fun s e => List.fold_left (fun s i => sset_insert (fst i) s) (snd e) s) ls s in
  sasc r /\ forall i, List.In i r <-> List.In i s \/ List.In i (List.map fst (List.concat (List.map snd ls))).
Proof.
have G : forall (l : list (nat * T)) s, sasc s -> let r := List.fold_left (fun s i => sset_insert (fst i) s) l s in
    sasc r /\ forall i, List.In i r <-> List.In i s \/ List.In i (List.map fst l).
  elim=> [|e l IH] s A /=; first by split=> // i; split; [left|case].
  by have [A1 F1] := IH _ (sset_asc (fst e) A); split=> // i; rewrite F1 sset_In; tauto.
elim: ls => [|e ls IH] s A /=; first by split=> // i; split; [left|case].
have [A1 F1] := G (snd e) _ A; have [A2 F2] := IH _ A1; split=> // i.
by rewrite F2 F1 List.map_app List.in_app_iff; tauto.
Qed.
Lemma sasc_sorted l : sasc l -> StronglySorted Peano.lt l.
Proof.
elim: l => [|x l IH]; first by constructor.
rewrite /sasc /= => -[B A]; constructor; first exact: IH.
apply/List.Forall_forall => y Hy; apply/ssrnat.ltP; apply: (B y tt); by apply/List.in_map_iff; exists y.
Qed.
Theorem C73_estimators : forall a : agents, StronglySorted Peano.lt (get_estimator_IDs a) /\
  (forall i, List.In i (get_estimator_IDs a) <-> exists ty, List.In (i, ty) (listings a)) /\
  (forall i, ma_exists i a = true <-> exists ty, List.In (i, ty) (listings a)).
Proof.
move=> a; have [|A Fi] := @ids_fold (a_ids a) nil; first by [].
have K i : List.In i (get_estimator_IDs a) <-> exists ty, List.In (i, ty) (listings a).
  rewrite Fi /=; split; first by case=> // /List.in_map_iff [[j ty] [/= <- H]]; exists ty.
  by case=> ty H; right; apply/List.in_map_iff; exists (i, ty).
split; first exact: sasc_sorted; split=> // i; rewrite -K /ma_exists -/(ina i (get_estimator_IDs a)).
by split=> [/inaP|/inaP].
Qed.
(** the last listing of an ID decides its type *)
Lemma types_fold (ls : list (nat * list (nat * T))) : forall m k,
  smap_find k (List.fold_left (fun m e => List.fold_left (fun m i => smap_set (fst i) (snd i) m) (snd e) m) ls m) =
  if List.find (fun e => (fst e =? k)%nat) (List.rev (List.concat (List.map snd ls))) is Some e then Some (snd e) else smap_find k m.
Proof.
have find_app (A : Type) (p : A -> bool) l1 l2 : List.find p (l1 ++ l2)%list = if List.find p l1 is Some x then Some x else List.find p l2.
  by elim: l1 => [|x l1 IH] //=; case: (p x).
have G : forall (l : list (nat * T)) m k, smap_find k (List.fold_left (fun m i => smap_set (fst i) (snd i) m) l m) =
    if List.find (fun e => (fst e =? k)%nat) (List.rev l) is Some e then Some (snd e) else smap_find k m.
  elim=> [|[x ty] l IH] m k //=; rewrite IH find_app find_smap_set /=.
  by case: List.find => //; case: Nat.eqb.
elim: ls => [|e ls IH] m k //=; rewrite IH G List.rev_app_distr find_app; by case: List.find.
Qed.
Theorem C73_types : forall (a : agents) i,
  (forall l1 l2 ty, listings a = (l1 ++ (i, ty) :: l2)%list -> ~ List.In i (List.map fst l2) ->
     smap_find i (get_types a) = Some ty /\ ma_type_by_ID nostring i a = ty) /\
  ((forall ty, ~ List.In (i, ty) (listings a)) -> smap_find i (get_types a) = None /\ ma_type_by_ID nostring i a = nostring).
Proof.
move=> a i; rewrite /ma_type_by_ID; have E := types_fold (a_ids a) nil i; rewrite -/(get_types a) -/(listings a) /= in E; rewrite E.
split=> [l1 l2 ty -> N|N].
  rewrite List.rev_app_distr /= -List.app_assoc /=.
  have -> : List.find (fun e => (fst e =? i)%nat) (List.rev l2 ++ (i, ty) :: List.rev l1)%list = Some (i, ty); last by [].
  have : forall l : list (nat * T), ~ List.In i (List.map fst l) -> List.find (fun e => (fst e =? i)%nat) (l ++ (i, ty) :: List.rev l1)%list = Some (i, ty).
    elim=> [|[x u] l IH] H /=; first by rewrite Nat.eqb_refl.
    by case: Nat.eqb_spec => [Ex|_]; [case: H; left|apply: IH => H'; apply: H; right].
  by apply; rewrite List.map_rev -List.in_rev.
case E': List.find => [[x u]|//]; have [Hin /Nat.eqb_eq /= Ex] := List.find_some _ _ E'; subst x.
by case: (N u); rewrite List.in_rev.
Qed.
(** the agent of an estimator comes from a table of its own; 0 stands for "unknown" *)
Theorem C73_agents : forall (a : agents) i,
  (List.NoDup (List.map fst (a_of a)) -> forall x, List.In (i, x) (a_of a) -> estimatorID2agentID i a = x) /\
  ((forall x, ~ List.In (i, x) (a_of a)) -> estimatorID2agentID i a = 0%N) /\ get_agent_IDs a = List.map fst (a_ids a).
Proof.
move=> a i; rewrite /estimatorID2agentID; split; first by move=> N x H; rewrite (find_In N H).
by split=> // N; case E: smap_find => [x|//]; case: (N x); exact: find_Some.
Qed.
End C73.
Example C73_example : let a := Agents [:: (1, [:: (7, 10); (3, 11)]); (2, [:: (7, 12)])]%N [:: (7, 2)]%N in
  get_estimator_IDs a = [:: 3; 7]%N /\ ma_type_by_ID 0%N 7 a = 12%N /\ ma_type_by_ID 0%N 3 a = 11%N /\ ma_type_by_ID 0%N 4 a = 0%N /\
  ma_exists 3 a = true /\ estimatorID2agentID 3 a = 0%N /\ estimatorID2agentID 7 a = 2%N.
Proof. by vm_compute. Qed.

(** * C74 *)
Section C74.
Variable F : realFieldType.
Notation dmat := (dmat F).
Notation belief := (belief F).
Notation dict := (dict belief dmat).
Notation inst := (inst belief dmat).
Notation bels := (list (nat * belief)).
Variable T : Type.
Definition registered (d : dict) (id : nat) : Prop := d_find id d <> None.
Lemma localP d id : reflect (registered d id) (local id d).
Proof. by rewrite /local /registered; case: d_find => [i|]; constructor. Qed.
Lemma agents_fold ids (a : agents T) (d : dict) : forall s, sasc s ->
  let r := List.fold_left (fun s id => if ~~ local id d then sset_insert (estimatorID2agentID id a) s else s) ids s in
  sasc r /\ forall x, List.In x r <-> List.In x s \/ exists id, List.In id ids /\ ~ registered d id /\ estimatorID2agentID id a = x.
Proof.
elim: ids => [|i ids IH] s A /=; first by split=> // x; split; [left|case=> // -[id [[]]]].
have A' : sasc (if ~~ local i d then sset_insert (estimatorID2agentID i a) s else s) by case: ifP => // _; exact: sset_asc.
have [A1 F1] := IH _ A'; split=> // x; rewrite F1; case: localP => /= R.
  split; first by case=> [H|[id [H1 H2]]]; [left|right; exists id; split=> //; right].
  by case=> [H|[id [[<-|H1] [H2 H3]]]] //; [left|right; exists id].
rewrite sset_In; split.
  by case=> [[H|H]|[id [H1 H2]]]; [right; exists i; split=> //; left|left|right; exists id; split=> //; right].
by case=> [H|[id [[<-|H1] [H2 H3]]]]; [left; right|left; left|right; exists id].
Qed.
Lemma filter_nil A (p : A -> bool) l : (forall x, List.In x l -> p x = false) -> List.filter p l = nil.
Proof. by elim: l => [//|x l IH] H /=; rewrite H; [apply: IH => y Hy; apply: H; right|left]. Qed.
(** [inter remote local d] and [base d]: what the derived and the base class do.  The IDs are split in their given order. *)
Theorem C74_routing : forall inter base IDs (a : agents T) (d : dict),
  ((forall i, List.In i IDs -> registered d i) -> icse_observation inter base IDs a d = base d) /\
  (forall i x, List.In i IDs -> ~ registered d i -> (forall j, List.In j IDs -> ~ registered d j -> estimatorID2agentID j a = x) ->
     exists there here, icse_observation inter base IDs a d = inter there here d /\
       (exists p, (forall j, p j = true <-> registered d j) /\ here = List.filter p IDs /\ there = List.filter (fun j => negb (p j)) IDs)) /\
  (forall i j, List.In i IDs -> List.In j IDs -> ~ registered d i -> ~ registered d j -> estimatorID2agentID i a <> estimatorID2agentID j a ->
     icse_observation inter base IDs a d = Ok (d, ObsRes DISCARED None)).
Proof.
move=> inter base IDs a d; have [|A Fa] := @agents_fold IDs a d nil; first by [].
rewrite /icse_observation; rewrite -/(agents_of IDs a d) in A Fa; set there := List.filter _ IDs; split; last split.
- move=> H; have -> // : there = nil; apply: filter_nil => i Hi; by have /localP -> := H i Hi.
- move=> i x Hi Ni Hx; have Ht : List.In i there by apply/List.filter_In; split=> //; apply/negP => /localP.
  have El : List.length (agents_of IDs a d) = 1%N.
    have I1 y : List.In y (agents_of IDs a d) <-> y = x.
      rewrite Fa /=; split; first by case=> // -[k [H1 [H2 <-]]]; exact: Hx.
      by move=> ->; right; exists i; split=> //; split=> //; exact: Hx.
    move: A I1; case: (agents_of IDs a d) => [|y [|y' l]] //= A I1; first by have [] := proj2 (I1 x) erefl.
    have [B _] := A; have E1 := proj1 (I1 y) (or_introl erefl); have E2 := proj1 (I1 y') (or_intror (or_introl erefl)).
    by have := B y' tt (or_introl erefl); rewrite E1 E2 ltnn.
  exists there, (List.filter (fun j => local j d) IDs); split; first by case: (there) Ht => // y l _; rewrite El.
  by exists (fun j => local j d); split=> // j; split=> [/localP|/localP].
- move=> i j Hi Hj Ni Nj Ne; have Ht : List.In i there by apply/List.filter_In; split=> //; apply/negP => /localP.
  have -> : (List.length (agents_of IDs a d) =? 1)%nat = false; last by case: (there) Ht.
  apply/Nat.eqb_neq => El.
  have Xi : List.In (estimatorID2agentID i a) (agents_of IDs a d) by apply/Fa; right; exists i.
  have Xj : List.In (estimatorID2agentID j a) (agents_of IDs a d) by apply/Fa; right; exists j.
  move: El Xi Xj; case: (agents_of IDs a d) => [|y [|y' l]] //= _ [E1|//] [E2|//]; by rewrite -E1 -E2 in Ne.
Qed.
(** the sensor and the type of an estimator are answered from the registry if it is registered there, else by the agent handler *)
Theorem C74_queries : forall own ask (a : agents T) nostring (kind : nat -> T) id (d : dict),
  (registered d id -> icse_prop_sensor own ask id d = own /\ icse_type_by_ID nostring kind a id d = kind id) /\
  (~ registered d id -> id <> 0%N -> icse_prop_sensor own ask id d = ask id /\ icse_type_by_ID nostring kind a id d = ma_type_by_ID nostring id a) /\
  icse_prop_sensor own ask 0 d = own.
Proof.
move=> own ask a ns kind id d; rewrite /icse_prop_sensor /icse_type_by_ID; split; last split=> //.
  by move=> /localP ->; rewrite orbT.
by move=> /localP/negPf -> /Nat.eqb_neq ->.
Qed.
(** reading several beliefs: local ones from the registry, the others from the agent handler's reply *)
Variable strategy : Type.
Theorem C74_few_strategies : forall read remote IDs (tys : list strategy) t (d : dict), (List.length tys < List.length IDs)%coq_nat ->
  icse_get_beliefs read remote IDs tys t d = Abort OutOfRangeException.
Proof.
move=> read remote IDs tys t d L; rewrite /icse_get_beliefs.
have -> // : pair_types IDs tys = Abort OutOfRangeException.
elim: IDs tys L => [|i IDs IH] [|ty tys] //= L; try lia; rewrite IH //; lia.
Qed.
Lemma pair_ok IDs : forall tys : list strategy, (List.length IDs <= List.length tys)%coq_nat -> pair_types IDs tys = Ok (List.combine IDs tys).
Proof. by elim: IDs => [//|i IDs IH] [|ty tys] /= L; [lia|rewrite IH //; lia]. Qed.
Lemma nodup_filter A B (p : A * B -> bool) l : List.NoDup (List.map fst l) -> List.NoDup (List.map fst (List.filter p l)).
Proof.
elim: l => [//|x l IH] /= Nx; inversion Nx as [|y ys N1 N2 E1]; subst; case: ifP => _ /=; last exact: IH.
constructor; last exact: IH.
by move=> /List.in_map_iff [e [E /List.filter_In [H _]]]; apply: N1; rewrite -E; exact: List.in_map.
Qed.
Lemma find_first B (l : list (nat * B)) i ty : List.NoDup (List.map fst l) -> List.In (i, ty) l -> List.find (fun e => (fst e =? i)%nat) l = Some (i, ty).
Proof.
elim: l => [//|[x u] l IH] /= Nx [[-> ->]|H]; first by rewrite Nat.eqb_refl.
inversion Nx as [|y ys N1 N2 E1]; subst; case: Nat.eqb_spec => [E|_]; last exact: IH.
by case: N1; rewrite E; apply/List.in_map_iff; exists (i, ty).
Qed.
Section Pure.
(** a strategy that does not store predictions *)
Variable answer : nat -> Z -> strategy -> inst -> option belief.
Notation read := (fun id t ty i => Ok (i, answer id t ty i)).
Definition answer_of (d : dict) t (e : nat * strategy) : option belief := match d_find (fst e) d with Some i => answer (fst e) t (snd e) i | None => None end.
Lemma hdl_ok t (d : dict) l : (forall e, List.In e l -> registered d (fst e)) -> List.NoDup (List.map fst l) -> forall acc res, asc acc ->
  (forall e, List.In e l -> smap_find (fst e) acc = None) ->
  exists r, hdl_get_beliefs read l t d acc res = Ok (d, r, res && List.forallb (fun e => if answer_of d t e is Some _ then true else false) l) /\ asc r /\
    forall k, smap_find k r = if List.find (fun e => (fst e =? k)%nat) l is Some e then answer_of d t e else smap_find k acc.
Proof.
elim: l => [|[id ty] l IH] R N acc res A Na; first by exists acc; rewrite andbT.
have Rid := R (id, ty) (or_introl erefl); rewrite /registered /= in Rid; inversion N as [|x xs N1 N2 E1]; subst.
have Rl e : List.In e l -> registered d (fst e) by move=> H; apply: R; right.
rewrite [hdl_get_beliefs _ _ _ _ _ _]/=; case G: (d_find id d) Rid => [i|//] _; rewrite /= upd_same //.
have Ea : answer_of d t (id, ty) = answer id t ty i by rewrite /answer_of /= G.
rewrite Ea; case Eb: (answer id t ty i) => [b|].
  have [||r [-> [Ar Fr]]] := IH Rl N2 (smap_insert id b acc) res; first exact: asc_ins.
    move=> e He; rewrite find_ins //; have -> : (id =? fst e)%nat = false by apply/Nat.eqb_neq => E; apply: N1; rewrite /= E; exact: List.in_map.
    by apply: Na; right.
  exists r; split=> //; split=> // k; rewrite Fr find_ins // (Na (id, ty) (or_introl erefl)).
  case: (Nat.eqb_spec id k) => [Ek|//]; rewrite Ea Eb; case Ef: List.find => [[x u]|//].
  by have [H /Nat.eqb_eq /= Ex] := List.find_some _ _ Ef; case: N1; rewrite /= Ek -Ex; apply/List.in_map_iff; exists (x, u).
have [//||r [-> [Ar Fr]]] := IH Rl N2 acc false; first by move=> e He; apply: Na; right.
exists r; rewrite andbF; split=> //; split=> // k; rewrite Fr.
case: (Nat.eqb_spec id k) => [Ek|//]; rewrite Ea Eb; case Ef: List.find => [[x u]|]; last by rewrite -Ek; exact: (Na (id, ty) (or_introl erefl)).
by have [H /Nat.eqb_eq /= Ex] := List.find_some _ _ Ef; case: N1; rewrite /= Ek -Ex; apply/List.in_map_iff; exists (x, u).
Qed.
(** no registered estimator changes; a registered one's own answer is returned, and for the rest the agent handler's *)
Theorem C74_beliefs : forall (remote : list (nat * strategy) -> Z -> bool * bels) IDs (tys : list strategy) t (d : dict),
  (List.length IDs <= List.length tys)%coq_nat -> List.NoDup IDs ->
  let asked := List.combine IDs tys in
  let (okr, reply) := remote (List.filter (fun e => ~~ local (fst e) d) asked) t in
  exists r ok, icse_get_beliefs read remote IDs tys t d = Ok (d, r, ok) /\
    (forall i ty ii b, List.In (i, ty) asked -> d_find i d = Some ii -> answer i t ty ii = Some b -> smap_find i r = Some b) /\
    (forall i, (forall ty ii b, List.In (i, ty) asked -> d_find i d = Some ii -> answer i t ty ii <> Some b) ->
       (exists j, List.In j IDs /\ ~ registered d j) -> smap_find i r = smap_find i reply) /\
    (ok = true <-> (forall i ty ii, List.In (i, ty) asked -> d_find i d = Some ii -> answer i t ty ii <> None) /\ ((exists j, List.In j IDs /\ ~ registered d j) -> okr = true)).
Proof.
move=> remote IDs tys t d Le N asked; have Ea : List.map fst asked = IDs.
  rewrite /asked; clear asked N; elim: IDs tys Le => [//|i IDs IH] [|ty tys] /= L; first lia.
  by rewrite IH //; lia.
case Er: (remote _ t) => [okr reply].
rewrite /icse_get_beliefs (pair_ok Le) /=; rewrite -/asked; set here := List.filter _ asked; set there := List.filter _ asked.
have Nh : List.NoDup (List.map fst asked) by rewrite Ea.
have Rh e : List.In e here -> registered d (fst e) by move=> /List.filter_In [_ /localP].
have Nhere : List.NoDup (List.map fst here) by exact: nodup_filter.
have [||r [Eh [Ar Fr]]] := @hdl_ok t d here Rh Nhere nil true; [by []|by []|].
have {Eh} Eh : (if here is nil then (Ok (d, nil, true) : outcome (dict * bels * bool)) else hdl_get_beliefs read here t d nil true) = Ok (d, r, List.forallb (fun e => if answer_of d t e is Some _ then true else false) here).
  case Ehere: here Eh => [|e l] Eh; last by rewrite Eh.
  by move: Eh => /= -[<-].
rewrite Eh /=; have Ex : (exists j, List.In j IDs /\ ~ registered d j) <-> there <> nil.
  split; first by case=> j [Hj Nj] E; move: Hj; rewrite -Ea => /List.in_map_iff [e [Ee He]]; have : List.In e there; [apply/List.filter_In; split=> //; rewrite Ee; apply/negP => /localP|rewrite E].
  case Et: there => [//|e l] _; have : List.In e there by rewrite Et; left.
  by move=> /List.filter_In [He /negP Nl]; exists (fst e); split; [rewrite -Ea; exact: List.in_map|move=> /localP].
have InF i ty : List.In (i, ty) asked -> registered d i -> List.find (fun e => (fst e =? i)%nat) here = Some (i, ty).
  move=> Hin Ri; have Hh : List.In (i, ty) here by apply/List.filter_In; split=> //; apply/localP.
  exact: find_first.
have InG i e : List.find (fun e => (fst e =? i)%nat) here = Some e -> fst e = i /\ List.In e asked /\ registered d i.
  by move=> Hf; have [H /Nat.eqb_eq E] := List.find_some _ _ Hf; have [H1 H2] := proj1 (List.filter_In _ _ _) H; rewrite -E; split=> //; split=> //; apply/localP.
have Hall : List.forallb (fun e => if answer_of d t e is Some _ then true else false) here = true <-> (forall i ty ii, List.In (i, ty) asked -> d_find i d = Some ii -> answer i t ty ii <> None).
  rewrite List.forallb_forall; split=> [H i ty ii Hin G|H [i ty] /List.filter_In [Hin /localP Ri]].
    have /H : List.In (i, ty) here by apply/List.filter_In; split=> //; rewrite /= /local G.
    by rewrite /answer_of /= G; case: answer.
  by rewrite /answer_of /=; move: Ri; rewrite /registered /=; case G: (d_find i d) => [ii|//] _; have := H _ _ _ Hin G; case: answer.
have Own i ty ii b : List.In (i, ty) asked -> d_find i d = Some ii -> answer i t ty ii = Some b -> smap_find i r = Some b.
  by move=> Hin G E; rewrite Fr (InF i ty) // /registered ?G // /answer_of /= G.
have None_ i : (forall ty ii b, List.In (i, ty) asked -> d_find i d = Some ii -> answer i t ty ii <> Some b) -> smap_find i r = None.
  move=> H; rewrite Fr; case Ef: List.find => [[x ty]|//]; have [/= E1 [H1 H2]] := InG _ _ Ef; subst x.
  rewrite /answer_of /=; case G: (d_find i d) => [ii|//]; case E: answer => [b|//]; by case: (H ty ii b).
case Et: there Ex => [|e l] Ex /=.
  exists r, (List.forallb (fun e => if answer_of d t e is Some _ then true else false) here && true); split=> //; split=> //; split.
    by move=> i _ /Ex.
  by rewrite andbT Hall; split=> [H|[]] //; split=> // /Ex.
rewrite -Et Er /=; have [Aj Fj] := join_find reply Ar.
exists (List.fold_left (fun m e => smap_insert (fst e) (snd e) m) reply r), (List.forallb (fun e => if answer_of d t e is Some _ then true else false) here && okr).
split=> //; split; first by move=> i ty ii b H1 H2 H3; rewrite Fj (Own _ _ _ _ H1 H2 H3).
split; first by move=> i H _; rewrite Fj (None_ _ H).
split; first by move=> /andP [H1 H2]; split=> //; exact/Hall.
by case=> /Hall -> H /=; apply: H; apply/Ex.
Qed.
End Pure.
End C74.
(** two registered estimators, two of agent 2 and one nobody knows *)
Section Example74.
Let Q := rat_realFieldType.
Let c1 (x : Q) : dmat Q := DM (x%:M : 'M[Q]_1).
Let b (x s : Q) : belief Q := Bel (c1 x) (c1 s) Z0 false false true.
Let d0 : dict (belief Q) (dmat Q) := [:: (2, Inst true [:: (Z0, b 2%:R 3%:R)] [::]); (5, Inst true [:: (Z0, b 3%:R 4%:R)] [::])]%N.
Let a0 : agents nat := Agents [:: (2, [:: (8, 0); (9, 0)])]%N [:: (8, 2); (9, 2)]%N.
Example C74_example inter base :
  icse_observation inter base [:: 5; 2]%N a0 d0 = base d0 /\ icse_observation inter base [:: 9; 5; 8; 2]%N a0 d0 = inter [:: 9; 8]%N [:: 5; 2]%N d0 /\
  icse_observation inter base [:: 9; 5; 7]%N a0 d0 = Ok (d0, ObsRes DISCARED None) /\ registered d0 5 /\ ~ registered d0 9.
Proof. by split=> //; split=> //; split=> //; split=> // H; apply: H. Qed.
End Example74.

(** * C75: the joint covariance of one agent's estimators from, and into, the factors that are exchanged *)
Section C75.
Variable F : realFieldType.
Notation dmat := (dmat F).
Notation belief := (belief F).
Notation fccs := (list (nat * list (nat * dmat))).
Notation bels := (list (nat * belief)).
(** the factor of i towards j in a dictionary of dictionaries *)
Definition factor (i j : nat) (m : fccs) : option dmat := match smap_find i m with Some r => smap_find j r | None => None end.
(** the cross-covariance two factors stand for: their product, none if one of them is empty *)
Definition product (X Y : dmat) : outcome dmat := if (dsize X != 0%N) && (dsize Y != 0%N) then dmul X (dtr Y) else Ok (dempty F).
Theorem C75_stack : forall (bs : bels) (m : fccs), ascending bs -> List.length m = List.length bs ->
  (forall i j, List.In i (List.map fst bs) -> List.In j (List.map fst bs) -> i <> j -> factor i j m <> None) ->
  (forall i b, List.In (i, b) bs -> dcols (b_Sigma b) = drows (b_Sigma b)) ->
  (forall k l i j bi bj X Y, List.nth_error bs k = Some (i, bi) -> List.nth_error bs l = Some (j, bj) -> (k < l)%N -> factor i j m = Some X -> factor j i m = Some Y ->
     exists Z, product X Y = Ok Z /\ (dsize Z = 0%N \/ drows Z = dim_k (sizes bs) k /\ dcols Z = dim_k (sizes bs) l)) ->
  exists B : 'M[F]_(sumn (sizes bs)), stack_Sigma_locally bs m = Ok (DM B) /\
  (forall k i b, List.nth_error bs k = Some (i, b) -> blk (sizes bs) (DM B) k k = Ok (b_Sigma b)) /\
  (forall k l i j bi bj X Y Z, List.nth_error bs k = Some (i, bi) -> List.nth_error bs l = Some (j, bj) -> (k < l)%N ->
     factor i j m = Some X -> factor j i m = Some Y -> product X Y = Ok Z ->
     let W := zero_if_none (dim_k (sizes bs) k) (dim_k (sizes bs) l) Z in blk (sizes bs) (DM B) k l = Ok W /\ blk (sizes bs) (DM B) l k = Ok (dtr W)).
Proof. move=> bs m A L C Sq D; exact: stack_local_ok. Qed.
(** more or fewer rows than beliefs, or a row with too few entries: an exception *)
Theorem C75_stack_mismatch : forall (bs : bels) (m : fccs),
  (List.length m <> List.length bs -> stack_Sigma_locally bs m = Abort RTVerificationFailed) /\
  (forall i b bs', bs = (i, b) :: bs' -> List.length m = List.length bs ->
     (List.length (if smap_find i m is Some r then r else nil) < List.length bs')%coq_nat -> stack_Sigma_locally bs m = Abort RTVerificationFailed).
Proof.
move=> bs m; rewrite /stack_Sigma_locally; split; first by move=> /Nat.eqb_neq ->.
move=> i b bs' E -> L; rewrite Nat.eqb_refl /= E /=.
have -> // : ((List.length bs').+1 - 1 <=? match smap_find i m with Some r => List.length r | None => 0%nat end)%nat = false.
by apply/Nat.leb_gt; rewrite subn1 /=; move: L; case: smap_find.
Qed.
(** splitting: of every pair the member with the smaller ID gets the block, the other one an identity *)
Theorem C75_split : forall (bs : bels) (S : 'M[F]_(sumn (sizes bs))), ascending bs -> bs <> nil ->
  exists m, split_Sigma_locally (DM S) bs = Ok m /\
  (forall k l i j bi bj, List.nth_error bs k = Some (i, bi) -> List.nth_error bs l = Some (j, bj) -> (k < l)%N ->
     exists B, blk (sizes bs) (DM S) k l = Ok B /\ factor i j m = Some B /\ factor j i m = Some (deye F (dcols B) (dcols B))) /\
  (forall i j X, factor i j m = Some X -> List.In i (List.map fst bs) /\ List.In j (List.map fst bs) /\ i <> j) /\
  (List.length m = if (1 < List.length bs)%N then List.length bs else 0%N).
Proof.
move=> bs S A Nn; have asc := asc_idk A; have SS : sq (dims bs) (DM S) by [].
have [|m [E [Fm [P [Fr K]]]]] := lrows_spec SS asc (erefl : bs = [::] ++ bs) Nn (@fok_nil F); first by [].
rewrite /= off0 in E; exists m; split=> //.
have inb k b i : List.nth_error bs k = Some (i, b) -> idk bs k = i /\ (k < seq.size bs)%N by move=> /dim_rows [_ [_ [? [_ ?]]]].
split; last split.
- move=> k l i j bi bj Ek El Lt; have [Ik Lk] := inb _ _ _ Ek; have [Il Ll] := inb _ _ _ El.
  by have := P k l (leq0n _) Lt Ll; rewrite Ik Il.
- move=> i j X EX.
  have inK k : (k < seq.size bs)%N -> List.In (idk bs k) (List.map fst bs).
    by move=> /nth_idk [b Eb]; apply/List.in_map_iff; exists (idk bs k, b); split=> //; exact: List.nth_error_In Eb.
  case: (List.in_dec Nat.eq_dec i (List.map fst bs)) => [Hi|Hi]; last first.
    by move: EX; rewrite /factor -/(fget i j m) Fr //; case=> p [q [_ [H [_ [_ [_ [Ei _]]]]]]]; apply: Hi; rewrite Ei; exact: inK.
  case: (List.in_dec Nat.eq_dec j (List.map fst bs)) => [Hj|Hj]; last first.
    by move: EX; rewrite /factor -/(fget i j m) Fr //; case=> p [q [_ [_ [_ [H [_ [_ Ej]]]]]]]; apply: Hj; rewrite Ej; exact: inK.
  split=> //; split=> // Eij; subst j; move: EX; rewrite /factor -/(fget i i m) Fr //.
  by case=> p [q [_ [H1 [_ [H2 [Ne [Ep Eq]]]]]]]; apply: Ne; apply: (idk_inj asc H1 H2); rewrite -Ep -Eq.
have [Am _] := Fm; case: ifP => L1.
- rewrite -(List.map_length fst m) -(List.map_length fst bs); apply: Nat.le_antisymm; apply: List.NoDup_incl_length.
  + exact: asc_nodup.
  + by move=> x /K [[]|[_ [k [_ [Hk ->]]]]]; have [b Eb] := nth_idk Hk; apply/List.in_map_iff; exists (idk bs k, b); split=> //; exact: List.nth_error_In Eb.
  + by apply: asc_nodup; exact: ascending_asc.
  + move=> x /List.in_map_iff [[y b] [/= Ey Hy]]; subst y; have [k Ek] := List.In_nth_error _ _ Hy; have [Ik Lk] := inb _ _ _ Ek.
    by apply/K; right; split=> //; exists k.
- case: m Fr P E Fm K Am => [//|[x r] m] Fr P E Fm K Am; have := proj1 (K x) (or_introl erefl); by case=> [[]|[L2 _]]; rewrite -[seq.size bs]/(List.length bs) L1 in L2.
Qed.
(** stacking what was split gives back a symmetric matrix whose diagonal blocks are the members' covariances *)
Theorem C75_round_trip : forall (bs : bels) (S : 'M[F]_(sumn (sizes bs))), ascending bs -> (1 < List.length bs)%N -> symmetric S ->
  (forall k i b, List.nth_error bs k = Some (i, b) -> blk (sizes bs) (DM S) k k = Ok (b_Sigma b) /\ (0 < drows (b_Sigma b))%N) ->
  (let! m := split_Sigma_locally (DM S) bs in stack_Sigma_locally bs m) = Ok (DM S).
Proof.
move=> bs S A L1 sS Hd; have Nn : bs <> nil by move=> E; rewrite E in L1.
have [m [-> [P [Ot Ln]]]] := C75_split S A Nn; rewrite L1 in Ln; cbn [obind].
have SS : sq (dims bs) (DM S) by [].
have pos k i b : List.nth_error bs k = Some (i, b) -> (k < seq.size (dims bs))%N /\ (0 < dim_k (dims bs) k)%N /\ dcols (b_Sigma b) = drows (b_Sigma b).
  move=> Ek; have [R1 [R2 [_ [_ Lk]]]] := dim_rows Ek; have [Hb Hp] := Hd _ _ _ Ek.
  rewrite -(dims_size bs) in Lk; have [X1 [X2 _]] := blk_entry SS Lk Lk Hb; by rewrite X1 X2 -X1.
have tr0 k l B : (k < seq.size (dims bs))%N -> (l < seq.size (dims bs))%N -> blk (dims bs) (DM S) k l = Ok B -> blk (dims bs) (DM S) l k = Ok (dtr B).
  move=> Hk Hl EW; have [R1 [C1 E1]] := blk_entry SS Hk Hl EW; apply: blk_eq => //= a b Ha Hb.
  have La : (off (dims bs) l + a < sumn (dims bs))%N by apply: leq_trans (off_fit Hl); rewrite ltn_add2l.
  have Lb : (off (dims bs) k + b < sumn (dims bs))%N by apply: leq_trans (off_fit Hk); rewrite ltn_add2l.
  have := E1 _ _ Hb Ha; rewrite (@entry_in _ _ _ S _ _ Lb La) (@entry_in _ _ _ S _ _ La Lb) -{1}sS mxE => ->.
  by case: (B) R1 C1 => p1 q1 M /= R1 C1; subst p1 q1; rewrite /dtr /= (@entry_in _ _ _ M _ _ Hb Ha) (@entry_in _ _ _ M^T _ _ Ha Hb) mxE.
have crs k l i j bi bj : List.nth_error bs k = Some (i, bi) -> List.nth_error bs l = Some (j, bj) -> (k < l)%N ->
    exists B X Y, blk (dims bs) (DM S) k l = Ok B /\ factor i j m = Some X /\ factor j i m = Some Y /\ product X Y = Ok B /\ dsize B <> 0%N /\ drows B = dim_k (dims bs) k /\ dcols B = dim_k (dims bs) l.
  move=> Ek El Lt; have [B [EB [E1 E2]]] := P _ _ _ _ _ _ Ek El Lt; have [Lk [Pk _]] := pos _ _ _ Ek; have [Ll [Pl _]] := pos _ _ _ El.
  have [R1 [C1 _]] := blk_entry SS Lk Ll EB.
  have Sz : dsize B != 0%N by rewrite /dsize R1 C1 muln_eq0 negb_or -!lt0n Pk Pl.
  exists B, B, (deye F (dcols B) (dcols B)); split=> //; split=> //; split=> //; split; last by split=> //; exact/eqP.
  rewrite /product Sz /=; have -> : dsize (deye F (dcols B) (dcols B)) != 0%N by rewrite /dsize /= muln_eq0 orbb C1 -lt0n.
  by rewrite deye_square /dtr /= trmx1; case: (B) => p q M /=; rewrite dmul_ok mulmx1.
have nth i : List.In i (List.map fst bs) -> exists k b, List.nth_error bs k = Some (i, b).
  by move=> /List.in_map_iff [[x b] [/= <- H]]; have [k Ek] := List.In_nth_error _ _ H; exists k, b.
have C i j : List.In i (List.map fst bs) -> List.In j (List.map fst bs) -> i <> j -> factor i j m <> None.
  move=> /nth [k [bi Ek]] /nth [l [bj El]] Ne; case: (ltngtP k l) => [Lt|Lt|E].
  - by have [B [_ [-> _]]] := P _ _ _ _ _ _ Ek El Lt.
  - by have [B [_ [_ ->]]] := P _ _ _ _ _ _ El Ek Lt.
  - by subst l; case: Ne; move: El; rewrite Ek => -[].
have Sq i b : List.In (i, b) bs -> dcols (b_Sigma b) = drows (b_Sigma b).
  by move=> H; have [k Ek] := List.In_nth_error _ _ H; have [_ [_ ->]] := pos _ _ _ Ek.
have D k l i j bi bj X Y : List.nth_error bs k = Some (i, bi) -> List.nth_error bs l = Some (j, bj) -> (k < l)%N -> factor i j m = Some X -> factor j i m = Some Y ->
     exists Z, product X Y = Ok Z /\ (dsize Z = 0%N \/ drows Z = dim_k (sizes bs) k /\ dcols Z = dim_k (sizes bs) l).
  move=> Ek El Lt EX EY; have [B [X' [Y' [_ [EX' [EY' [Pr [_ Dm]]]]]]]] := crs _ _ _ _ _ _ Ek El Lt.
  by rewrite EX in EX'; rewrite EY in EY'; case: EX' => ->; case: EY' => ->; exists B; split=> //; right.
have [B [-> [B1 B2]]] := C75_stack A Ln C Sq D; congr (Ok _).
apply: (@blk_ext _ (dims bs)) => // k l Hk Hl; rewrite dims_size in Hk; rewrite dims_size in Hl.
have [bk Ek] := nth_idk Hk; have [bl El] := nth_idk Hl; have [Lk _] := pos _ _ _ Ek; have [Ll _] := pos _ _ _ El.
case: (ltngtP k l) => [Lt|Lt|E].
- have [W [X [Y [EB [EX [EY [Pr [Sz _]]]]]]]] := crs _ _ _ _ _ _ Ek El Lt; have [-> _] := B2 _ _ _ _ _ _ _ _ _ Ek El Lt EX EY Pr.
  by rewrite EB /zero_if_none; case: eqP.
- have [W [X [Y [EB [EX [EY [Pr [Sz _]]]]]]]] := crs _ _ _ _ _ _ El Ek Lt; have [_ ->] := B2 _ _ _ _ _ _ _ _ _ El Ek Lt EX EY Pr.
  by rewrite (tr0 _ _ _ Ll Lk EB) /zero_if_none; case: eqP.
- by subst l; rewrite (B1 _ _ _ Ek); have [-> _] := Hd _ _ _ Ek.
Qed.
(** the borders: nothing to split, one member *)
Theorem C75_borders : forall (S : dmat) (e : nat * belief), split_Sigma_locally S nil = Abort OutOfRangeException /\
  split_Sigma_locally S [:: e] = Ok nil /\ (let! m := split_Sigma_locally S [:: e] in stack_Sigma_locally [:: e] m) = Abort RTVerificationFailed.
Proof. by move=> S [i b]; split=> //; split. Qed.
End C75.
Section Example75.
Let Q := rat_realFieldType.
Let c1 (x : Q) : dmat Q := DM (x%:M : 'M[Q]_1).
Let b (x s : Q) : belief Q := Bel (c1 x) (c1 s) Z0 false false true.
Let bs0 : list (nat * belief Q) := [:: (2, b 2%:R 3%:R); (5, b 3%:R 4%:R)]%N.
Let S0 : 'M[Q]_(sumn (sizes bs0)) := \matrix_(i, j) (if i == j then if (i : nat) == 0%N then 3%:R else 4%:R else 1).
Example C75_example : ascending bs0 /\ (1 < List.length bs0)%N /\ symmetric S0 /\
  (forall k i bb, List.nth_error bs0 k = Some (i, bb) -> blk (sizes bs0) (DM S0) k k = Ok (b_Sigma bb) /\ (0 < drows (b_Sigma bb))%N).
Proof.
have nnil T k : List.nth_error (@nil T) k = None by case: k.
split; first by case=> [|[|k]] [|[|l]] //= i j bi bj; rewrite ?nnil // => -[<- _] [<- _].
split=> //; split.
  by apply/matrixP => i j; rewrite !mxE eq_sym; case: eqP => // ->.
case=> [|[|k]] i bb /=; rewrite ?nnil // => -[_ <-]; split=> //; (apply: blk_eq => // x y; rewrite !ltnS !leqn0 => /eqP -> /eqP ->).
  by rewrite (@entry_in _ _ _ S0 0 0 erefl erefl) mxE /= (@entry_in _ _ _ ((3%:R)%:M : 'M[Q]_1) 0 0 erefl erefl) mxE.
by rewrite (@entry_in _ _ _ S0 1 1 erefl erefl) mxE /= (@entry_in _ _ _ ((4%:R)%:M : 'M[Q]_1) 0 0 erefl erefl) mxE.
Qed.
End Example75.
Print Assumptions C73_estimators. Print Assumptions C73_types. Print Assumptions C74_routing. Print Assumptions C74_beliefs.
Print Assumptions C75_stack. Print Assumptions C75_split. Print Assumptions C75_round_trip.
