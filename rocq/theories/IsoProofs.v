(** Content of instances under the operations of IsoModel.v. *)
From Coq Require Import ZArith List Bool Arith Lia.
From mathcomp Require Import all_ssreflect all_algebra.
From Verif Require Import Outcome DoubleModel BufModel BufProofs HorizonModel MeasModel HandlerModel Spec_Handler DMat KFModel BeliefModel EigenModel EigenProofs IsoModel.
Set Implicit Arguments. Unset Strict Implicit. Unset Printing Implicit Defensive.
Import GRing.Theory Num.Theory.
Local Open Scope outcome_scope.

Lemma get_ins {T} t x (v : T) (l : buf T) : get_at_t x (hb_insert t v l) = if Z.eqb x t then Some v else get_at_t x l.
Proof.
rewrite !get_at_first; elim: l => [|[k w] l IH] /=.
  by rewrite Z.eqb_sym; case: Z.eqb.
case: Z.ltb_spec => L /=; first by rewrite (Z.eqb_sym t x); case: Z.eqb.
case: Z.eqb_spec => [E|N] /=; first by subst k; rewrite (Z.eqb_sym t x); case: Z.eqb.
case: (Z.eqb_spec k x) => [E|_]; last exact: IH.
subst k.
by case: (Z.eqb_spec x t) => // E; case: N.
Qed.

Section IsoP.
Variable F : realFieldType.
Variable junk : forall n, 'M[F]_n -> 'M[F]_n.
Notation dmat := (dmat F).
Notation belief := (belief F).
Notation inst := (inst belief dmat).
Notation dict := (dict belief dmat).
Notation ccfs := (list (nat * buf dmat)).

(** ** factors of one instance *)
Definition fac (j : nat) (k : Z) (c : ccfs) : option dmat := match ccf_find j c with Some b => get_at_t k b | None => None end.
Lemma find_assoc j (c : ccfs) : ccf_find j c = assoc j c.
Proof. by elim: c => [//|[k b] c IH] /=; rewrite IH. Qed.
Lemma fac_ccf_at j k (i : inst) : fac j k (i_ccf i) = ccf_at j k i.
Proof. by rewrite /fac /ccf_at find_assoc. Qed.
Lemma ccf_getE j t (c : ccfs) : ccf_get j t c = odflt (dempty F) (fac j t c).
Proof. by rewrite /ccf_get /fac; case: ccf_find => // b; case: get_at_t. Qed.
Lemma fac_set j t m (c : ccfs) j' k : fac j' k (ccf_set j t m c) = if (j' =? j)%nat && Z.eqb k t then Some m else fac j' k c.
Proof.
rewrite /fac; elim: c => [|[x b] c IH] /=.
  by rewrite Nat.eqb_sym; case: Nat.eqb => //; rewrite get_at_first /= Z.eqb_sym; case: Z.eqb.
case: (Nat.eqb_spec x j) => [E|N] /=.
  subst x; rewrite (Nat.eqb_sym j j'); case: Nat.eqb => //=; exact: get_ins.
case: (Nat.eqb_spec x j') => [E|N'] //; subst x.
by case: Nat.eqb_spec => // E; case: N.
Qed.
Lemma fac_scale ta tb (M : dmat) (c c' : ccfs) : ccf_scale ta tb M c = Ok c' -> forall j k,
  (k <> tb -> fac j k c' = fac j k c) /\
  (fac j ta c = None -> fac j k c' = fac j k c) /\
  (forall m, fac j ta c = Some m -> exists p, dmul M m = Ok p /\ fac j tb c' = Some p).
Proof.
rewrite /fac; elim: c c' => [|[x b] c IH] c' /=; first by case=> <-.
case G: (get_at_t ta b) => [m|] /=.
  case D: dmul => [p|e|e] //=; case E: ccf_scale => [r|e|e] //= [<-] j k /=.
  case: Nat.eqb; last exact: IH.
  split; first by rewrite get_ins; case: Z.eqb_spec.
  split; first by rewrite G.
  by move=> m'; rewrite G => -[<-]; exists p; rewrite get_ins Z.eqb_refl.
case E: ccf_scale => [r|e|e] //= [<-] j k /=.
case: Nat.eqb; last exact: IH.
by split=> //; split=> // m'; rewrite G.
Qed.
(** scaling succeeds if every factor at t_a fits *)
Lemma scale_ok ta tb (M : dmat) (c : ccfs) : List.NoDup (List.map fst c) ->
  (forall j m, fac j ta c = Some m -> drows m = dcols M) -> exists c', ccf_scale ta tb M c = Ok c' /\ List.map fst c' = List.map fst c.
Proof.
elim: c => [|[x b] c IH] /=; first by exists nil.
move=> /List.NoDup_cons_iff [NI ND] H.
have [c' [-> Ec]] : exists c', ccf_scale ta tb M c = Ok c' /\ List.map fst c' = List.map fst c.
  apply: IH => // j m Hf; apply: (H j m); rewrite /fac /=.
  case: Nat.eqb_spec => // E; subst x; case: NI; rewrite /fac in Hf.
  clear ND H; elim: c Hf => [//|[y b'] c IH] /=; case: Nat.eqb_spec => [->|_ /IH]; by [left|right].
case G: (get_at_t ta b) => [m|]; last by eexists; split; [reflexivity|rewrite /= Ec].
have := H x m; rewrite /fac /= Nat.eqb_refl => /(_ G) E.
rewrite /dmul; case: eqP => // e /=; by eexists; split; [reflexivity|rewrite /= Ec].
Qed.

(** ** registry *)
Lemma find_upd id (i : inst) (d : dict) k : d_find k (d_upd id i d) = if (k =? id)%nat then (if d_find id d is Some _ then Some i else None) else d_find k d.
Proof.
elim: d => [|[x y] d IH] /=; first by case: Nat.eqb.
case: (Nat.eqb_spec x id) => [E|N] /=.
  by subst x; rewrite (Nat.eqb_sym id k); case: Nat.eqb.
rewrite IH; case: (Nat.eqb_spec x k) => [E|//]; subst x; by case: Nat.eqb_spec.
Qed.
Lemma upd_keys id (i : inst) (d : dict) : List.map fst (d_upd id i d) = List.map fst d.
Proof. by elim: d => [//|[x y] d IH] /=; case: Nat.eqb_spec => /= [->|_] //; rewrite IH. Qed.
Lemma mod_inst_ok id f (d d' : dict) : mod_inst id f d = Ok d' ->
  exists i i', d_find id d = Some i /\ f i = Ok i' /\ d' = d_upd id i' d.
Proof.
rewrite /mod_inst /at_inst; case G: (d_find id d) => [i|//].
by case E: (f i) => [i'|e|e] //= [<-]; exists i, i'.
Qed.
Lemma mod_inst_find id f (d d' : dict) : mod_inst id f d = Ok d' -> forall k, k <> id -> d_find k d' = d_find k d.
Proof. by move=> /mod_inst_ok [i [i' [_ [_ ->]]]] k N; rewrite find_upd; case: Nat.eqb_spec. Qed.
Lemma mod_inst_at id f (d d' : dict) : mod_inst id f d = Ok d' ->
  exists i i', d_find id d = Some i /\ f i = Ok i' /\ d_find id d' = Some i'.
Proof. by move=> /mod_inst_ok [i [i' [G [E ->]]]]; exists i, i'; rewrite find_upd Nat.eqb_refl G. Qed.
Lemma mod_inst_keys id f (d d' : dict) : mod_inst id f d = Ok d' -> List.map fst d' = List.map fst d.
Proof. by move=> /mod_inst_ok [i [i' [_ [_ ->]]]]; exact: upd_keys. Qed.

(** what an instance of the registry stores *)
Definition bel_of (d : dict) (id : nat) (t : Z) : option belief := if d_find id d is Some i then bel_at t i else None.
Definition fac_of (d : dict) (id j : nat) (t : Z) : option dmat := if d_find id d is Some i then ccf_at j t i else None.
Lemma get_SigmaE I J t (d : dict) i j : d_find I d = Some i -> d_find J d = Some j ->
  get_Sigma_IJ I J t d =
  (let fij := odflt (dempty F) (fac_of d I J t) in let fji := odflt (dempty F) (fac_of d J I t) in
   if (dsize fij != 0%N) && (dsize fji != 0%N) then if (I <? J)%nat then dmul fij (dtr fji) else let! s := dmul fji (dtr fij) in Ok (dtr s)
   else Ok (dempty F)).
Proof. by move=> GI GJ; rewrite /get_Sigma_IJ /at_inst /fac_of GI GJ /= !ccf_getE !fac_ccf_at. Qed.
Lemma get_Sigma_null I J t (d : dict) : d_find I d = None \/ d_find J d = None -> get_Sigma_IJ I J t d = UB NullDeref.
Proof. by rewrite /get_Sigma_IJ /at_inst; case: (d_find I d) => [i|] //; case: (d_find J d) => [j|] //= []. Qed.
(** reading depends on the two factors only *)
Lemma get_Sigma_ext I J t (d d' : dict) : (d_find I d = None <-> d_find I d' = None) -> (d_find J d = None <-> d_find J d' = None) ->
  fac_of d I J t = fac_of d' I J t -> fac_of d J I t = fac_of d' J I t -> get_Sigma_IJ I J t d = get_Sigma_IJ I J t d'.
Proof.
move=> EI EJ E1 E2.
case GI: (d_find I d) => [i|]; last by rewrite !get_Sigma_null //; left=> //; apply/EI.
case GJ: (d_find J d) => [j|]; last by rewrite !get_Sigma_null //; right=> //; apply/EJ.
case GI': (d_find I d') => [i'|]; last by move: (proj2 EI GI'); rewrite GI.
case GJ': (d_find J d') => [j'|]; last by move: (proj2 EJ GJ'); rewrite GJ.
by rewrite (get_SigmaE _ GI GJ) (get_SigmaE _ GI' GJ') E1 E2.
Qed.

(** set_Sigma_IJ writes exactly two factors *)
Lemma set_Sigma_spec I J (S : dmat) t (d : dict) i j : I <> J -> d_find I d = Some i -> d_find J d = Some j ->
  let lo := Nat.min I J in let hi := Nat.max I J in let S' := if (I <? J)%nat then S else dtr S in
  exists d', set_Sigma_IJ I J S t d = Ok d' /\ List.map fst d' = List.map fst d /\
    (forall id k, bel_of d' id k = bel_of d id k) /\
    (forall id, (d_find id d = None <-> d_find id d' = None)) /\
    (forall id ii, d_find id d = Some ii -> exists ii', d_find id d' = Some ii' /\ i_enabled ii' = i_enabled ii) /\
    fac_of d' lo hi t = Some S' /\ fac_of d' hi lo t = Some (deye F (dcols S') (dcols S')) /\
    (forall id l k, ~ (id = lo /\ l = hi /\ k = t) -> ~ (id = hi /\ l = lo /\ k = t) -> fac_of d' id l k = fac_of d id l k).
Proof.
move=> N GI GJ lo hi S'.
have K : exists il ih, d_find lo d = Some il /\ d_find hi d = Some ih /\ lo <> hi /\
   set_Sigma_IJ I J S t d = (let! d := mod_inst lo (fun i => Ok (with_ccf (ccf_set hi t S' (i_ccf i)) i)) d in
     mod_inst hi (fun i => Ok (with_ccf (ccf_set lo t (deye F (dcols S') (dcols S')) (i_ccf i)) i)) d).
  rewrite /lo /hi /S' /set_Sigma_IJ; case: Nat.ltb_spec => L.
    by rewrite (Nat.min_l I J) ?(Nat.max_r I J); [exists i, j| lia|lia].
  by rewrite (Nat.min_r I J) ?(Nat.max_l I J); [exists j, i; split=> //; split=> //; split=> // E; apply: N|lia|lia].
case: K => il [ih [Gl [Gh [Nlh ->]]]].
rewrite /mod_inst /at_inst Gl /= find_upd; case: Nat.eqb_spec => [E|_]; first by case: Nlh.
rewrite Gh /=; eexists; split; first by [].
split; first by rewrite !upd_keys.
set c1 := ccf_set hi t S' _; set c2 := ccf_set lo t _ _.
have FD id : d_find id (d_upd hi (with_ccf c2 ih) (d_upd lo (with_ccf c1 il) d)) =
  if (id =? hi)%nat then Some (with_ccf c2 ih) else if (id =? lo)%nat then Some (with_ccf c1 il) else d_find id d.
  rewrite !find_upd Gl; case: (Nat.eqb_spec hi lo) => [E|_]; first by case: Nlh.
  by rewrite Gh.
split.
  move=> id k; rewrite /bel_of FD; case: Nat.eqb_spec => [->|_]; first by rewrite Gh.
  by case: Nat.eqb_spec => [->|_] //; rewrite Gl.
split.
  move=> id; rewrite FD; case: Nat.eqb_spec => [->|_]; first by rewrite Gh.
  by case: Nat.eqb_spec => [->|_] //; rewrite Gl.
split.
  move=> id ii; rewrite FD; case: Nat.eqb_spec => [->|_]; first by rewrite Gh => -[<-]; eexists.
  by case: Nat.eqb_spec => [->|_]; [rewrite Gl => -[<-]|move=> ->]; eexists.
have El : (lo =? hi)%nat = false by apply/Nat.eqb_neq.
rewrite /fac_of !FD !Nat.eqb_refl El /= -!fac_ccf_at /= !fac_set !Nat.eqb_refl Z.eqb_refl /=.
split=> //; split=> // id l k H1 H2; rewrite FD.
case: Nat.eqb_spec => [E|_]; first subst id.
  rewrite Gh -!fac_ccf_at /= fac_set; case: Nat.eqb_spec => //= E; case: Z.eqb_spec => //= E'; by case: H2.
case: Nat.eqb_spec => [E|_] //; subst id.
rewrite Gl -!fac_ccf_at /= fac_set; case: Nat.eqb_spec => //= E; case: Z.eqb_spec => //= E'; by case: H1.
Qed.
End IsoP.
