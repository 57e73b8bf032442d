(** Properties of the unbuffered estimators (EstimatorStd): C82-C85. *)
From Coq Require Import ZArith List Bool Arith Lia.
From Flocq Require Import IEEE754.BinarySingleNaN.
From mathcomp Require Import all_ssreflect all_algebra.
From Verif Require Import Outcome DoubleModel Chi2Model Props_Chi2 DMat KFModel BeliefModel EigenModel EigenProofs Props_Eigen CatModel Props_Cat Spec_Mat KFProofs Props_KF StdModel Spec_Std StdProofs.
Set Implicit Arguments. Unset Strict Implicit. Unset Printing Implicit Defensive.
Import Order.Theory GRing.Theory Num.Theory.
Local Open Scope ring_scope.
Local Open Scope outcome_scope.

Section Props.
Variable F : realFieldType.
Variable junk : forall n, 'M[F]_n -> 'M[F]_n.
Variable garbage : forall m n, 'M[F]_(m, n).
Variable is_psd : dmat F -> bool.
Variable eps eps0 : F.
Variable dim : nat -> nat.
Hypothesis dim_pos : forall i, (0 < dim i)%N.
Notation dmat := (dmat F).
Notation std := (std F).
Notation call := (call F dim).
Notation thr := (table_threshold F (Zpos 997)).

(** the calls as a user makes them: an instance is created from a belief and added; the others go through get(ID) *)
Definition exec (c : call) (s : std) : outcome (std * bool) :=
  match c with
  | CAdd i x P t => let (s1, a) := st_new i (Some (Bel (DM x) (DM P) t false false false)) s in Ok (st_add a s1)
  | CRemove i => Ok (st_remove i s)
  | CSet i x P t => at_id i s (fun a => Ok (st_set_belief a (Bel (DM x) (DM P) t false false false) s, true))
  | CProp i Phi Q t => at_id i s (fun a => is_propagate (DM Phi) (DM Q) t a s)
  | CPropU i Phi Q t G u v => at_id i s (fun a => is_propagate_u (DM Phi) (DM Q) t (DM G) (DM (u%:M : 'cV[F]_1)) (DM (v%:M : 'cV[F]_1)) a s)
  | CPriv i m H R z => at_id i s (fun a => is_private junk eps (DM H) (DM R) (DM z) a s)
  | CJoint i j m Hi Hj R z => at_id i s (fun a => is_joint junk garbage is_psd eps eps0 i j (DM Hi) (DM Hj) (DM R) (DM z) a s)
  end.
Definition empty : std := Std 0 (fun _ => SObj 0 None nil) nil.
Notation net_of := (@net_of F dim).
Notation wf := (@wf F dim).

Lemma obj_good s i a : wf s -> st_get i s = Some a -> exists (x : 'cV[F]_(dim i)) (P : 'M[F]_(dim i)) t f1 f2 f3,
  so_id (st_obj s a) = i /\ so_bel (st_obj s a) = Some (Bel (DM x) (DM P) t f1 f2 f3) /\ symmetric P /\ shaped dim i (so_fac (st_obj s a)) /\
  bel_in s i = Some (Bel (DM x) (DM P) t f1 f2 f3) /\
  mean (net_of s) i = x /\ cov (net_of s) i i = P /\ time (net_of s) i = t.
Proof.
move=> W g; case: (W _ _ g) => _ [E [[b [Eb [x [P [t [f1 [f2 [f3 [E2 sP]]]]]]]]] Sh]].
rewrite E2 in Eb; exists x, P, t, f1, f2, f3.
have B : bel_in s i = Some (Bel (DM x) (DM P) t f1 f2 f3) by exact: belE (obj_get g) Eb.
by rewrite /= eqxx B /= !rdE.
Qed.
Lemma obj_read s i o x P t f1 f2 f3 : obj_in s i = Some o -> so_bel o = Some (Bel (@DM F (dim i) 1 x) (@DM F (dim i) (dim i) P) t f1 f2 f3) ->
  mean (net_of s) i = x /\ cov (net_of s) i i = P /\ time (net_of s) i = t.
Proof. by move=> O B; rewrite /= eqxx (belE O B) /= !rdE. Qed.
Lemma mk_good i x (P : 'M[F]_(dim i)) t f1 f2 f3 l : symmetric P -> shaped dim i l ->
  good dim i (SObj i (Some (Bel (@DM F (dim i) 1 x) (DM P) t f1 f2 f3)) l).
Proof. by move=> sP S; split=> //; split=> //; eexists; split; first by []; exists x, P, t, f1, f2, f3. Qed.

(** rewriting an object by itself *)
Lemma nothing_refl n : @nothing F dim n n.
Proof. by split; [|split]. Qed.
Lemma unchanged s i a (o : sobj F) : wf s -> st_get i s = Some a -> st_obj s a = o ->
  let s' := st_write a o s in wf s' /\ nothing (net_of s) (net_of s').
Proof.
move=> W g E s'.
have O k : obj_in s' k = obj_in s k by rewrite (obj_write _ _ W g); case: eqP => // ->; rewrite (obj_get g) E.
have W' : wf s' by apply: (wf_write W g); rewrite -E; case: (W _ _ g).
by split=> //; split=> //; apply: same_of => // k L; rewrite O.
Qed.

Lemma prop_step s i a (Phi Q : 'M[F]_(dim i)) (drift : 'cV[F]_(dim i)) t (f : belief F -> outcome (belief F * bool)) s' yes :
  wf s -> symmetric Q -> st_get i s = Some a ->
  (forall x P t0 f1 f2 f3, f (Bel (@DM F (dim i) 1 x) (@DM F (dim i) (dim i) P) t0 f1 f2 f3) =
     Ok (if Z.ltb t0 t then (Bel (DM (Phi *m x + drift)) (DM (Phi *m P *m Phi^T + Q)) t f1 f2 f3, true)
         else (Bel (DM x) (DM P) t0 f1 f2 f3, false))) ->
  is_propagate_with f (DM Phi) a s = Ok (s', yes) ->
  wf s' /\ yes = Z.ltb (time (net_of s) i) t /\
  (yes = true -> propagated (net_of s) (net_of s') Phi Q drift t) /\ (yes = false -> nothing (net_of s) (net_of s')).
Proof.
move=> W sQ g Hf; case: (obj_good W g) => x [P [t0 [f1 [f2 [f3 [E1 [E2 [sP [Sh [_ [Em [Ec Et]]]]]]]]]]]].
rewrite /is_propagate_with /with_bel_of E2 Hf Et E1; case: Z.ltb_spec => L /=.
  case: (sf_scale_ok Phi Sh) => l' [El [Sh' Hl]]; rewrite /so_scale /= El /= => -[<- <-].
  have G : good dim i (SObj i (Some (Bel (DM (Phi *m x + drift)) (DM (Phi *m P *m Phi^T + Q)) t f1 f2 f3)) l').
    by apply: mk_good => //; apply: symD => //; apply: sym_congr.
  case: (one_object dim_pos W g G Hl) => W' [O [Lv [C Sm]]].
  case: (obj_read O erefl) => Rm [Rc Rt].
  split=> //; split=> //; split=> // _; rewrite /propagated Em Ec; split=> //.
move=> [<- <-]; have [] := unchanged W g (o := SObj i (Some (Bel (DM x) (DM P) t0 f1 f2 f3)) (so_fac (st_obj s a))).
  by case: (st_obj s a) E1 E2 => ? ? ? /= -> ->.
by [].
Qed.

Lemma scalar1 m (G : 'M[F]_(m, 1)) (u : F) : G *m u%:M = u *: G.
Proof. by rewrite mul_mx_scalar. Qed.

Lemma step_prop i (Phi Q : 'M[F]_(dim i)) t : forall s s' yes, wf s -> symmetric Q -> exec (CProp Phi Q t) s = Ok (s', yes) ->
  st_get i s <> None /\ wf s' /\ yes = Z.ltb (time (net_of s) i) t /\
  (yes = true -> propagated (net_of s) (net_of s') Phi Q 0 t) /\ (yes = false -> nothing (net_of s) (net_of s')).
Proof.
move=> s s' yes W sQ; rewrite /exec /at_id; case g: (st_get i s) => [a|] // E; split=> //.
apply: (prop_step W sQ g _ E) => x P t0 f1 f2 f3.
rewrite /ks_propagate /= /check_dim_phi_q /check_dim_phi /= !eqxx /=; case: Z.ltb => //.
by rewrite cov_prop_ok /= dmul_ok /= addr0.
Qed.
Lemma step_propu i (Phi Q : 'M[F]_(dim i)) t (G : 'M[F]_(dim i, 1)) u v : forall s s' yes, wf s -> symmetric Q ->
  exec (CPropU Phi Q t G u v) s = Ok (s', yes) ->
  st_get i s <> None /\ wf s' /\ yes = Z.ltb (time (net_of s) i) t /\
  (yes = true -> propagated (net_of s) (net_of s') Phi (v *: (G *m G^T) + Q) (u *: G) t) /\ (yes = false -> nothing (net_of s) (net_of s')).
Proof.
move=> s s' yes W sQ; rewrite /exec /at_id; case g: (st_get i s) => [a|] // E; split=> //.
apply: (prop_step W _ g _ E) => [|x P t0 f1 f2 f3].
  by apply: symD => //; rewrite /symmetric linearZ /= trmx_mul trmxK.
rewrite /ks_propagate_u /= /check_dim_phi_q /check_dim_phi /= !eqxx /=; case: Z.ltb => //.
rewrite !dmul_ok /= dadd_ok /= dmul_ok /= dadd_ok /= cov_prop_ok /= !scalar1 -scalemxAl.
by [].
Qed.
Lemma step_private i m (H : 'M[F]_(m, dim i)) R z : forall s s' yes, wf s -> symmetric R -> exec (CPriv H R z) s = Ok (s', yes) ->
  st_get i s <> None /\ wf s' /\ gate eps thr H R z (mean (net_of s) i) (cov (net_of s) i i) yes /\
  (yes = true -> privately_updated eps (net_of s) (net_of s') H R z) /\ (yes = false -> nothing (net_of s) (net_of s')).
Proof.
move=> s s' yes W sR; rewrite /exec /at_id; case g: (st_get i s) => [a|] // E; split=> //.
case: (obj_good W g) => x [P [t0 [f1 [f2 [f3 [E1 [E2 [sP [Sh [_ [Em [Ec Et]]]]]]]]]]]].
move: E; rewrite Em Ec /is_private /with_bel_of E2 /ks_private /= dmul_ok /= dsub_ok /=.
case: (default_update junk eps H z x sP sR) => K [U [rej [Er [Me Ga]]]]; rewrite Er /= E1.
case: rej Ga Er => Ga Er /=.
  move=> [<- <-]; have [] := unchanged W g (o := SObj i (Some (Bel (DM x) (DM P) t0 f1 f2 f3)) (so_fac (st_obj s a))).
    by case: (st_obj s a) E1 E2 => ? ? ? /= -> ->.
  by [].
rewrite /bel_correct /bel_correct_mean /= dadd_ok /= /so_correct dinv_ok /= dmul_ok /=.
set L := _ *m inv_or_junk junk P.
case: (sf_scale_ok L Sh) => l' [El [Sh' Hl]]; rewrite /so_scale /= El /= => -[<- <-].
set P' := gain_cov H R P K + eps%:M in Me L El Hl *.
have sP' : symmetric P' by apply: symD; [exact: gain_symm|exact: sym_scalar].
have G : good dim i (SObj i (Some (Bel (DM (x + K *m (z - H *m x))) (DM P') t0 f1 f2 f3)) l') by exact: mk_good.
case: (one_object dim_pos W g G Hl) => W' [O [Lv [C Sm]]].
case: (obj_read O erefl) => Rm [Rc Rt].
split=> //; split=> //; split=> // _; rewrite /privately_updated Em Ec Et Rm Rc Rt; split=> //; split=> //; split=> //; split=> //.
by exists L; split=> // u; rewrite /L /inv_or_junk u.
Qed.

(** ** registry calls *)
Lemma step_add i (x : 'cV[F]_(dim i)) P t : forall s s' yes, wf s -> symmetric P -> exec (CAdd x P t) s = Ok (s', yes) ->
  wf s' /\ (yes = true <-> ~ st_get i s <> None) /\
  (yes = true -> added (net_of s) (net_of s') x P t) /\ (yes = false -> nothing (net_of s) (net_of s')).
Proof.
move=> s s' yes W sP; rewrite /exec /st_new /st_add /= Nat.eqb_refl /= /st_exists -/(st_get i s).
set b := Bel _ _ _ _ _ _; set ob := fun q => _.
have Lt k a : st_get k s = Some a -> ob a = st_obj s a.
  move=> g; case: (W _ _ g) => /ssrnat.ltP L _; rewrite /ob; case: Nat.eqb_spec => // E; lia.
case g: (st_get i s) => [a|] /=; case=> <- <-; last first.
  set s2 := Std _ _ _.
  have gE k : st_get k s2 = if (i =? k)%nat then Some (st_next s) else st_get k s by [].
  have W2 : wf s2.
    move=> k a; rewrite gE; case: Nat.eqb_spec => [<- [<-]|N gk].
      by split=> //=; rewrite /ob Nat.eqb_refl; apply: mk_good => // k' m' [].
    by case: (W _ _ gk) => L G; split; [exact: ltnW|rewrite /= (Lt _ _ gk)].
  have O k : k <> i -> obj_in s2 k = obj_in s k.
    move=> N; rewrite /obj_in gE; case: Nat.eqb_spec => [E|_]; first by case: N.
    by case gk: (st_get k s) => [a|] //=; rewrite (Lt _ _ gk).
  have Oi : obj_in s2 i = Some (SObj i (Some b) nil) by rewrite /obj_in gE Nat.eqb_refl /= /ob Nat.eqb_refl.
  have gi : st_get i s2 <> None by rewrite gE Nat.eqb_refl.
  split=> //; split; first by split=> // _ /(_ erefl).
  split=> // _; split.
    move=> k; rewrite /= gE; case: Nat.eqb_spec => [<-|N]; first by split=> // _; right.
    by split=> [L|[//|E]]; [left|case: N].
  case: (obj_read Oi erefl) => Rm [Rc Rt]; do 3 (split=> //); split.
    move=> k [Lk Nk]; rewrite /= in Lk.
    have gk : st_get k s2 <> None by rewrite gE; case: Nat.eqb_spec.
    have Z : cov (net_of s2) i k = 0 by rewrite covE //; [rewrite {1}/fmx Oi /= rd0 mul0mx|exact/nesym].
    by split=> //; rewrite (cov_sym dim_pos W2 gi gk) Z trmx0.
  by apply: same_of => // k [Lk Nk]; split=> //; exact: O.
set s2 := Std _ _ _.
have W2 : wf s2.
  by move=> k c gk; case: (W _ _ gk) => L G; split; [exact: ltnW|rewrite /= (Lt _ _ gk)].
split=> //; split; first by split=> // H; case: H.
split=> // _; split=> //; apply: same_of => // k Lk; split=> //.
by rewrite /obj_in -[st_get k s2]/(st_get k s); case gk: (st_get k s) => [c|] //=; rewrite (Lt _ _ gk).
Qed.

Lemma find_filter_id k i (d : list (nat * nat)) :
  sd_find k (List.filter (fun e => ~~ (fst e =? i)%nat) d) = if (k =? i)%nat then None else sd_find k d.
Proof.
elim: d => [|[x y] d IH] /=; first by case: ifP.
case: (Nat.eqb_spec x i) => [E|N] /=.
  by rewrite IH; case: (Nat.eqb_spec k i) => // N2; case: (Nat.eqb_spec x k) => // E2; case: N2; rewrite -E2.
case: (Nat.eqb_spec x k) => [E|N2]; last exact: IH.
by case: (Nat.eqb_spec k i) => // E2; case: N; rewrite E.
Qed.
Lemma step_remove i : forall s s' yes, wf s -> exec (CRemove F dim i) s = Ok (s', yes) ->
  wf s' /\ (yes = true <-> st_get i s <> None) /\
  (yes = true -> removed (net_of s) (net_of s') i) /\ (yes = false -> nothing (net_of s) (net_of s')).
Proof.
move=> s s' yes W; rewrite /exec /st_remove; case g: (st_get i s) => [a|] [<- <-]; last first.
  by split=> //; split=> //; split=> // _; exact: nothing_refl.
have -> : so_id (st_obj s a) = i by case: (W _ _ g) => _ [].
set s2 := Std _ _ _.
have gE k : st_get k s2 = if (k =? i)%nat then None else st_get k s by exact: find_filter_id.
have W2 : wf s2 by move=> k b; rewrite gE; case: Nat.eqb_spec => // _ /W.
split=> //; split=> //; split=> // _; split.
  move=> k; rewrite /= gE /but /=; case: Nat.eqb_spec => [E|N]; first by split=> // -[].
  by split=> [|[]].
apply: same_of => // k [Lk Nk]; split=> //; rewrite /obj_in gE.
by case: Nat.eqb_spec.
Qed.
Lemma step_set i (x : 'cV[F]_(dim i)) P t : forall s s' yes, wf s -> symmetric P -> exec (CSet x P t) s = Ok (s', yes) ->
  st_get i s <> None /\ wf s' /\ yes = true /\ replaced (net_of s) (net_of s') x P t.
Proof.
move=> s s' yes W sP; rewrite /exec /at_id; case g: (st_get i s) => [a|] // [<- <-]; split=> //.
case: (obj_good W g) => x0 [P0 [t0 [f1 [f2 [f3 [E1 [E2 [sP0 [Sh [_ _]]]]]]]]]].
rewrite /st_set_belief E1; set o := SObj _ _ _.
have G : good dim i o by exact: mk_good.
have Hl k : rd (dim i) (dim (maxn i k)) (sf_get k (so_fac o)) = 1%:M *m rd (dim i) (dim (maxn i k)) (sf_get k (so_fac (st_obj s a))) by rewrite mul1mx.
case: (one_object dim_pos W g G Hl) => W' [O [Lv [C Sm]]].
by case: (obj_read O erefl) => Rm [Rc Rt].
Qed.

(** ** the joint update *)
Lemma put s i a o' : wf s -> st_get i s = Some a -> good dim i o' ->
  let s' := st_write a o' s in
  wf s' /\ st_obj s' a = o' /\ (forall k b, st_get k s = Some b -> k <> i -> st_obj s' b = st_obj s b) /\ (forall k, st_get k s' = st_get k s).
Proof.
move=> W g G s'; split; first exact: wf_write W g G.
split; first by rewrite /s' /= Nat.eqb_refl.
split=> // k b gk N; rewrite /s' /=; case: Nat.eqb_spec => // E; subst b.
by case: N; exact: wf_inj W gk g.
Qed.

Lemma set_facE (s : std) i j m a : st_get i s = Some a ->
  st_set_fac i j m s = Ok (st_write a (SObj (so_id (st_obj s a)) (so_bel (st_obj s a)) (sf_set j m (so_fac (st_obj s a)))) s).
Proof. by rewrite /st_set_fac /at_id => ->. Qed.
Lemma set_Sigma_std s i j a aj (A : 'M[F]_(dim i, dim j)) : wf s -> i <> j -> st_get i s = Some a -> st_get j s = Some aj ->
  exists s' (Fi : 'M[F]_(dim i, dim (maxn i j))) (Fj : 'M[F]_(dim j, dim (maxn j i))),
    st_set_Sigma i j (DM A) s = Ok s' /\ wf s' /\ (forall k, st_get k s' = st_get k s) /\
    st_obj s' a = SObj i (so_bel (st_obj s a)) (sf_set j (DM Fi) (so_fac (st_obj s a))) /\
    st_obj s' aj = SObj j (so_bel (st_obj s aj)) (sf_set i (DM Fj) (so_fac (st_obj s aj))) /\
    (forall k b, st_get k s = Some b -> k <> i -> k <> j -> st_obj s' b = st_obj s b) /\
    Fi *m (rd (dim j) (dim (maxn i j)) (DM Fj))^T = A.
Proof.
move=> W N gi gj.
case: (obj_good W gi) => xi [Pi [ti [f1 [f2 [f3 [E1 [E2 [sPi [Shi _]]]]]]]]].
case: (obj_good W gj) => xj [Pj [tj [g1 [g2 [g3 [D1 [D2 [sPj [Shj _]]]]]]]]].
have Gi (B : 'M[F]_(dim i, dim (maxn i j))) : good dim i (SObj i (so_bel (st_obj s a)) (sf_set j (DM B) (so_fac (st_obj s a)))).
  by rewrite E2; apply: mk_good => //; exact: shaped_set.
have Gj (B : 'M[F]_(dim j, dim (maxn j i))) : good dim j (SObj j (so_bel (st_obj s aj)) (sf_set i (DM B) (so_fac (st_obj s aj)))).
  by rewrite D2; apply: mk_good => //; exact: shaped_set.
rewrite /st_set_Sigma; case: Nat.ltb_spec => L.
  have M1 : maxn i j = j by apply/maxn_idPr/ssrnat.leP; lia.
  have M2 : maxn j i = j by apply/maxn_idPl/ssrnat.leP; lia.
  have [Fi EFi] : exists Fi : 'M[F]_(dim i, dim (maxn i j)), DM A = DM Fi by rewrite M1; exists A.
  have [Fj EFj] : exists Fj : 'M[F]_(dim j, dim (maxn j i)), deye F (dim j) (dim j) = DM Fj by rewrite M2 deye_square; exists 1%:M.
  rewrite (set_facE _ _ gi) E1 EFi; cbn [obind].
  case: (put W gi (Gi Fi)); set s1 := st_write _ _ _ => W1 [O1 [K1 G1]].
  have gj1 : st_get j s1 = Some aj by rewrite G1.
  rewrite (set_facE _ _ gj1) (K1 _ _ gj (nesym N)) D1 -EFi [dcols _]/= EFj.
  case: (put W1 gj1 (Gj Fj)); set s2 := st_write _ _ _ => W2 [O2 [K2 G2]].
  exists s2, Fi, Fj; split=> //; split=> //; split; first by move=> k; rewrite G2.
  split; first by rewrite (K2 i) ?G1.
  split; first by rewrite O2.
  split; first by move=> k b gk Ni Nj; rewrite (K2 k) ?G1 // (K1 k).
  rewrite -EFj deye_square; move: Fi EFi {Gi s1 W1 O1 K1 G1 gj1 s2 W2 O2 K2 G2}; rewrite M1 => Fi /DM_inj <-.
  by rewrite rdE trmx1 mulmx1.
have M1 : maxn i j = i by apply/maxn_idPl/ssrnat.leP; lia.
have M2 : maxn j i = i by apply/maxn_idPr/ssrnat.leP; lia.
have [Fj EFj] : exists Fj : 'M[F]_(dim j, dim (maxn j i)), dtr (DM A) = DM Fj by rewrite M2; exists A^T.
have [Fi EFi] : exists Fi : 'M[F]_(dim i, dim (maxn i j)), deye F (dim i) (dim i) = DM Fi by rewrite M1 deye_square; exists 1%:M.
rewrite (set_facE _ _ gj) D1 EFj; cbn [obind].
case: (put W gj (Gj Fj)); set s1 := st_write _ _ _ => W1 [O1 [K1 G1]].
have gi1 : st_get i s1 = Some a by rewrite G1.
rewrite (set_facE _ _ gi1) (K1 _ _ gi N) E1 -EFj [dcols _]/= EFi.
case: (put W1 gi1 (Gi Fi)); set s2 := st_write _ _ _ => W2 [O2 [K2 G2]].
exists s2, Fi, Fj; split=> //; split=> //; split; first by move=> k; rewrite G2.
split; first by rewrite O2.
split; first by rewrite (K2 j) ?G1 //; exact/nesym.
split; first by move=> k b gk Ni Nj; rewrite (K2 k) ?G1 // (K1 k).
rewrite -EFj /dtr /=; move: Fi EFi {Gi s1 W1 O1 K1 G1 gi1 s2 W2 O2 K2 G2}; rewrite M1 deye_square => Fi /DM_inj <-.
by rewrite rdE trmxK mul1mx.
Qed.

Lemma correct_facE s i a (Pi Si : 'M[F]_(dim i)) : wf s -> st_get i s = Some a ->
  exists l, st_correct_fac junk a (DM Pi) (DM Si) s = Ok (st_write a (SObj i (so_bel (st_obj s a)) l) s) /\ shaped dim i l /\
    good dim i (SObj i (so_bel (st_obj s a)) l) /\
    (forall k, rd (dim i) (dim (maxn i k)) (sf_get k l) = (Si *m inv_or_junk junk Pi) *m rd (dim i) (dim (maxn i k)) (sf_get k (so_fac (st_obj s a)))).
Proof.
move=> W g; case: (obj_good W g) => x [P [t0 [f1 [f2 [f3 [E1 [E2 [sP [Sh _]]]]]]]]].
case: (sf_scale_ok (Si *m inv_or_junk junk Pi) Sh) => l [El [Sh' Hl]].
exists l; rewrite /st_correct_fac /so_correct dinv_ok /= dmul_ok /= /so_scale El /= E1; split=> //; split=> //; split=> //.
by rewrite E2; apply: mk_good.
Qed.
Lemma correct_belE s i a (x dx : 'cV[F]_(dim i)) (P Si : 'M[F]_(dim i)) t f1 f2 f3 : wf s -> st_get i s = Some a ->
  so_bel (st_obj s a) = Some (Bel (DM x) (DM P) t f1 f2 f3) ->
  st_correct_bel a (DM dx) (DM Si) s = Ok (st_write a (SObj i (Some (Bel (DM (x + dx)) (DM Si) t f1 f2 f3)) (so_fac (st_obj s a))) s).
Proof.
move=> W g E; case: (W _ _ g) => _ [E1 _].
by rewrite /st_correct_bel /with_bel_of E /bel_correct /bel_correct_mean /= dadd_ok /= E1.
Qed.
Lemma vecE m (x : 'cV[F]_m) : vec (DM x) = x.
Proof. by apply/matrixP => i j; rewrite mxE [j]ord1; exact: (entryE x i ord0). Qed.
Lemma block_symm m n (A : 'M[F]_m) (B : 'M[F]_(m, n)) (D : 'M[F]_n) : symmetric A -> symmetric D -> symmetric (block_mx A B B^T D).
Proof. by move=> a d; rewrite /symmetric tr_block_mx a d trmxK. Qed.
Lemma usub m n (v : 'cV[F]_(m + n)) : dblock (DM v) 0 0 m 1 = Ok (DM (usubmx v)).
Proof.
apply: block_eq => //=; first by rewrite add0n leq_addr.
move=> a b Ha Hb; rewrite !add0n (entry_in _ (ltn_addr n Ha) Hb) (entry_in _ Ha Hb) !mxE; congr (v _ _).
exact: val_inj.
Qed.
Lemma dsub_ m n (v : 'cV[F]_(m + n)) : dblock (DM v) (m + n - n) (1 - 1) n 1 = Ok (DM (dsubmx v)).
Proof.
rewrite addnK subnn; apply: block_eq => //= a b Ha Hb; rewrite add0n.
have Ha' : (m + a < m + n)%N by rewrite ltn_add2l.
rewrite (entry_in _ Ha' Hb) (entry_in _ Ha Hb) !mxE; congr (v _ _).
exact: val_inj.
Qed.
Lemma stack_apriE s i j a xi Pi ti f1 f2 f3 bj Pj : wf s -> i <> j -> st_get i s = Some a -> st_get j s <> None ->
  b_Sigma bj = DM (Pj : 'M[F]_(dim j)) ->
  is_stack_apri garbage a (Bel (@DM F (dim i) 1 xi) (@DM F (dim i) (dim i) Pi) ti f1 f2 f3) bj j s
    = Ok (DM (block_mx Pi (cov (net_of s) i j) (cov (net_of s) i j)^T Pj)).
Proof.
move=> W N gi gj E; case Gj: (st_get j s) gj => [aj|] // _; case: (W _ _ gi) => _ [E1 _].
rewrite covE ?gi ?Gj // /is_stack_apri E1 E.
case: (get_Sigma_cases dim_pos W gi Gj) => [[-> ->]|->] /=.
  by rewrite (C38_stack2 _ _ 0).
by rewrite size_pos //= C38_stack2.
Qed.

(** the joint covariance of two filters *)
Definition pair_cov (n : net F dim) (i j : nat) : 'M[F]_(dim i + dim j) := block_mx (cov n i i) (cov n i j) (cov n j i) (cov n j j).
Lemma step_joint i j m (Hi : 'M[F]_(m, dim i)) (Hj : 'M[F]_(m, dim j)) R z : forall s s' yes, wf s -> symmetric R -> i <> j ->
  exec (CJoint Hi Hj R z) s = Ok (s', yes) ->
  st_get i s <> None /\ st_get j s <> None /\ wf s' /\
  gate eps thr (row_mx Hi Hj) R z (col_mx (mean (net_of s) i) (mean (net_of s) j))
    (block_mx (cov (net_of s) i i) (cov (net_of s) i j) (cov (net_of s) j i) (cov (net_of s) j j) + eps0%:M) yes /\
  (yes = true -> time (net_of s) i = time (net_of s) j /\ jointly_updated eps eps0 (net_of s) (net_of s') Hi Hj R z) /\
  (yes = false -> nothing (net_of s) (net_of s')) /\
  (yes = true -> is_psd (DM (pair_cov (net_of s') i j))).
Proof.
move=> s s' yes W sR N E0.
have [a gi] : exists a, st_get i s = Some a by move: E0; rewrite /exec /at_id; case: (st_get i s) => // a; exists a.
have [aj gj] : exists aj, st_get j s = Some aj.
  move: E0; rewrite /exec /at_id gi /is_joint /st_exists -/(st_get i s) -/(st_get j s) gi; case: (st_get j s) => // aj; by exists aj.
case: (obj_good W gi) => xi [Pi [ti [f1 [f2 [f3 [E1 [E2 [sPi [Shi [_ [Em [Ec Et]]]]]]]]]]]].
case: (obj_good W gj) => xj [Pj [tj [g1 [g2 [g3 [D1 [D2 [sPj [Shj [_ [Dm [Dc Dt]]]]]]]]]]]].
have gin : st_get i s <> None by rewrite gi.
have gjn : st_get j s <> None by rewrite gj.
rewrite (cov_sym dim_pos W gin gjn) Em Ec Et Dm Dc Dt.
set C := cov (net_of s) i j.
move: E0; rewrite /exec /at_id gi /is_joint /st_exists -/(st_get i s) -/(st_get j s) gi gj E1 Nat.eqb_refl; cbn [andb throw_unless obind].
rewrite /at_id gj /with_bel_of E2 D2; cbn [b_t b_mean b_Sigma drows dcols].
case: Z.eqb_spec => [Tt|] //=.
case: (posnP m) => [m0|mpos].
  subst m; have -> : horcat garbage (DM Hi) (DM Hj) = Ok (DM Hj) by [].
  rewrite /= vecE vecE C54_vertcat_vec //= dmul_bad //.
  by move/eqP; rewrite -{2}[dim j]add0n eqn_add2r eqn0Ngt dim_pos.
rewrite C54_horcat //= !vecE C54_vertcat_vec //= dmul_ok /= dsub_ok /=.
rewrite (stack_apriE _ _ _ _ _ _ W N gi gjn (Pj := Pj)) //; cbn [obind]; rewrite -/C stabilize_ok; cbn [obind].
rewrite symm_id; last exact: block_symm.
set PP := block_mx Pi C C^T Pj + eps0%:M.
have sPP : symmetric PP by apply: symD; [exact: block_symm|exact: sym_scalar].
case: (default_update junk eps (row_mx Hi Hj) z (col_mx xi xj) sPP sR) => K [U [rej [Er [Me Ga]]]]; rewrite Er /=.
case: rej Ga Er => Ga Er /=.
  by case=> <- <-; split=> //; split=> //; split=> //; split=> //; split=> //; split=> // _; exact: nothing_refl.
set P' := gain_cov (row_mx Hi Hj) R PP K + eps%:M in Me Er *.
have sP' : symmetric P' by apply: symD; [exact: gain_symm|exact: sym_scalar].
set dx := K *m _ in Me Er *.
case PS: (is_psd _) => //=.
rewrite -{1}[P']submxK C38_split2 //; cbn [obind fst snd].
have sI : symmetric (ulsubmx P') by rewrite /symmetric trmx_ulsub sP'.
have sJ : symmetric (drsubmx P') by rewrite /symmetric trmx_drsub sP'.
case: (correct_facE Pi (ulsubmx P') W gi) => li [-> [Shi' [Gi Hli]]]; cbn [obind].
case: (put W gi Gi); set s1 := st_write _ _ _ => W1 [O1 [K1 G1]].
have gj1 : st_get j s1 = Some aj by rewrite G1.
case: (correct_facE Pj (drsubmx P') W1 gj1) => lj [-> [Shj' [Gj Hlj]]]; cbn [obind].
rewrite (K1 _ _ gj (nesym N)) in Gj Hlj *.
case: (put W1 gj1 Gj); set s2 := st_write _ _ _ => W2 [O2 [K2 G2]].
have gi2 : st_get i s2 = Some a by rewrite G2 G1.
have gj2 : st_get j s2 = Some aj by rewrite G2.
case: (set_Sigma_std (ursubmx P') W2 N gi2 gj2) => s3 [Fi [Fj [-> [W3 [G3 [OI3 [OJ3 [K3 EF]]]]]]]]; cbn [obind].
rewrite usub dsub_; cbn [obind].
rewrite O2 /= in OJ3; rewrite (K2 i a) ?G1 // O1 /= in OI3.
have gi3 : st_get i s3 = Some a by rewrite G3.
have gj3 : st_get j s3 = Some aj by rewrite G3.
rewrite E2 in OI3; rewrite D2 in OJ3.
rewrite (@correct_belE _ _ _ xi _ Pi _ ti f1 f2 f3 W3 gi3) ?OI3 //; cbn [obind].
set oi := SObj i _ _.
have GI : good dim i oi by apply: mk_good => //; apply: shaped_set.
case: (put W3 gi3 GI); set s4 := st_write _ _ _ => W4 [O4 [K4 G4]].
have gj4 : st_get j s4 = Some aj by rewrite G4.
have OJ4 : st_obj s4 aj = st_obj s3 aj by apply: (K4 _ _ gj3 (nesym N)).
rewrite (@correct_belE _ _ _ xj _ Pj _ tj g1 g2 g3 W4 gj4) ?OJ4 OJ3 //; cbn [obind].
set oj := SObj j _ _.
have GJ : good dim j oj by apply: mk_good => //; apply: shaped_set.
case: (put W4 gj4 GJ); set s5 := st_write _ _ _ => W5 [O5 [K5 G5]].
case=> <- <-.
have GG k : st_get k s5 = st_get k s by rewrite G5 G4 G3 G2 G1.
have OI : obj_in s5 i = Some oi by rewrite (@obj_get _ s5 i a) ?GG // (K5 i a) ?G4 // O4.
have OJ : obj_in s5 j = Some oj by rewrite (@obj_get _ s5 j aj) ?GG // O5.
have OK k : k <> i -> k <> j -> obj_in s5 k = obj_in s k.
  move=> Ni Nj; case gk: (st_get k s) => [b|]; last by rewrite /obj_in GG gk.
  rewrite (@obj_get _ s5 k b) ?GG // (@obj_get _ s k b) //.
  rewrite (K5 k b) ?G4 ?G3 ?G2 ?G1 // (K4 k b) ?G3 ?G2 ?G1 // (K3 k b) ?G2 ?G1 // (K2 k b) ?G1 // (K1 k b) //.
have gi5 : st_get i s5 <> None by rewrite GG.
have gj5 : st_get j s5 <> None by rewrite GG.
have CIJ : cov (net_of s5) i j = ursubmx P'.
  rewrite covE // /fmx OI OJ /= !sf_get_set !eqxx rdE; exact: EF.
case: (obj_read OI erefl) => Rm [Rc Rt]; case: (obj_read OJ erefl) => Qm [Qc Qt].
have BP : block_mx (ulsubmx P') (ursubmx P') (ursubmx P')^T (drsubmx P') = P' by rewrite trmx_ursub sP' submxK.
split=> //; split=> //; split=> //; split=> //; split; last first.
  by split=> // _; rewrite /pair_cov (cov_sym dim_pos W5 gi5 gj5) CIJ Rc Qc BP.
move=> _; split=> //.
rewrite /jointly_updated (cov_sym dim_pos W gin gjn) Em Ec Et Dm Dc Dt (cov_sym dim_pos W5 gi5 gj5) CIJ Rm Rc Rt Qm Qc Qt -/C -/PP.
split; first by move=> k; rewrite /= GG.
split.
  rewrite BP.
  have -> : col_mx (xi + usubmx dx) (xj + dsubmx dx) = col_mx xi xj + dx by rewrite -{3}[dx]vsubmxK add_col_mx.
  exact: Me.
do 2 (split=> //).
have far k : but (net_of s) i k /\ k <> j -> [/\ k <> i, k <> j, st_get k s <> None, st_get k s5 <> None & obj_in s5 k = obj_in s k].
  by case=> -[Lk Ni] Nj; split=> //; [rewrite GG|exact: OK].
split.
  exists (ulsubmx P' *m inv_or_junk junk Pi); split; first by move=> u; rewrite /inv_or_junk u.
  apply: (carried_of dim_pos W W5 (obj_get gi) OI) => k /far [Ni Nj Lk Lk5 E]; do 3 (split=> //).
  by rewrite /fmx E /= sf_get_set; have /eqP/negPf -> := Nj; rewrite Hli.
split.
  exists (drsubmx P' *m inv_or_junk junk Pj); split; first by move=> u; rewrite /inv_or_junk u.
  apply: (carried_of dim_pos W W5 (obj_get gj) OJ) => k /far [Ni Nj Lk Lk5 E]; do 3 (split=> //).
  by rewrite /fmx E /= sf_get_set; have /eqP/negPf -> := Ni; rewrite Hlj.
by apply: same_of => // k /far [Ni Nj Lk Lk5 E].
Qed.

(** * C83: histories *)
Inductive reach : std -> Prop :=
| reach0 : reach empty
| reachS s c s' yes : reach s -> sane c -> exec c s = Ok (s', yes) -> reach s'.

Lemma wf_empty : wf empty. Proof. by []. Qed.
Lemma step_any c s s' yes : wf s -> sane c -> exec c s = Ok (s', yes) ->
  wf s' /\ (forall i, uses c i -> live (net_of s) i) /\ gate_of eps eps0 thr c (net_of s) yes /\
  (yes = true -> effect eps eps0 c (net_of s) (net_of s')) /\ (yes = false -> nothing (net_of s) (net_of s')).
Proof.
case: c => [i x P t|i|i x P t|i Phi Q t|i Phi Q t G u v|i m H R z|i j m Hi Hj R z] W Sa E.
- by case: (step_add W Sa E) => W' [Ga [Ef No]].
- by case: (step_remove W E) => W' [Ga [Ef No]].
- case: (step_set W Sa E) => L [W' [Y R]]; split=> //; split; first by move=> k ->.
  by split=> //; split=> // N; rewrite Y in N.
- case: (step_prop W Sa E) => L [W' [Ga [Ef No]]]; split=> //; split; first by move=> k ->.
  by [].
- case: (step_propu W Sa E) => L [W' [Ga [Ef No]]]; split=> //; split; first by move=> k ->.
  by [].
- case: (step_private W Sa E) => L [W' [Ga [Ef No]]]; split=> //; split; first by move=> k ->.
  by [].
case: Sa => sR N; case: (step_joint W sR N E) => Li [Lj [W' [Ga [Ef [No _]]]]]; split=> //; split; first by move=> k [->|->].
by [].
Qed.
Lemma reach_wf s : reach s -> wf s.
Proof. by elim=> [|s0 c s' yes _ W Sa E]; [exact: wf_empty|case: (step_any W Sa E)]. Qed.

Theorem C83_history : forall s c s' yes, reach s -> sane c -> exec c s = Ok (s', yes) ->
  (forall i, uses c i -> live (net_of s) i) /\ gate_of eps eps0 thr c (net_of s) yes /\
  (yes = true -> effect eps eps0 c (net_of s) (net_of s')) /\ (yes = false -> nothing (net_of s) (net_of s')).
Proof. by move=> s c s' yes /reach_wf W Sa E; case: (step_any W Sa E). Qed.
(** cross-covariances are consistent: Sigma_JI is the transpose of Sigma_IJ; a belief is stored for every registered filter *)
Theorem C83_consistent : forall s i j, reach s -> live (net_of s) i -> live (net_of s) j ->
  cov (net_of s) j i = (cov (net_of s) i j)^T /\
  exists b, bel_in s i = Some b /\ b_mean b = DM (mean (net_of s) i) /\ b_Sigma b = DM (cov (net_of s) i i) /\ b_t b = time (net_of s) i.
Proof.
move=> s i j /reach_wf W Li Lj; split; first exact: cov_sym.
rewrite /live /= in Li; case g: (st_get i s) Li => [a|] // _.
case: (obj_good W g) => x [P [t [f1 [f2 [f3 [E1 [E2 [sP [Sh [B [Em [Ec Et]]]]]]]]]]]].
by eexists; split; first exact: B; rewrite Em Ec Et.
Qed.

(** without regularisation, a private update gives the filter's belief and its cross-covariance with any other filter exactly as
    one centralised filter over the two would (which would also improve the other one's belief: that one is left alone) *)
Theorem C83_private_exact : forall s s' i k m (H : 'M[F]_(m, dim i)) (R : 'M[F]_m) z, reach s -> symmetric R -> eps = 0 ->
  exec (CPriv H R z) s = Ok (s', true) -> live (net_of s) k -> k <> i ->
  let n := net_of s in let n' := net_of s' in
  cov n i i \in unitmx -> innov H R (cov n i i) \in unitmx ->
  exists x P, measured 0 (row_mx H 0) R z (col_mx (mean n i) (mean n k)) (pair_cov n i k) x P /\
    mean n' i = usubmx x /\ cov n' i i = ulsubmx P /\ cov n' i k = ursubmx P /\ cov n' k i = dlsubmx P /\
    mean n' k = mean n k /\ cov n' k k = cov n k k.
Proof.
move=> s s' i k m H R z Rs sR e0 E Lk N n n' uP uS.
case: (C83_history Rs (c := CPriv H R z) sR E) => Us [_ [Ef _]]; have Li := Us i erefl; have {}Ef := Ef erefl.
have W := reach_wf Rs; have cs a b := @cov_sym F dim dim_pos s a b W.
rewrite /effect e0 -/n -/n' in Ef; case: Ef => Lv [[K [EK [Ex EP]]] [_ [[L [EL Ca]] [Sm Sc]]]].
rewrite raddf0 addr0 in EK; rewrite raddf0 addr0 in EP; have {}EK := EK uS; have {}EL := EL uP.
have sP : symmetric (cov n i i) by rewrite /symmetric -cs.
have B : but n i k by [].
case: (Ca _ B) => C1 C2; case: (Sm _ B) => Mk _.
have EJ : cov n' i i = (1%:M - K *m H) *m cov n i i by rewrite EP EK joseph_standard.
have EL2 : L = 1%:M - K *m H by rewrite EL EJ -mulmxA mulmxV // mulmx1.
set P := pair_cov n i k; set H2 := row_mx H (0 : 'M[F]_(m, dim k)).
have sPP : symmetric P by rewrite /P /pair_cov /symmetric tr_block_mx -!cs.
have PH : P *m H2^T = col_mx (cov n i i *m H^T) (cov n k i *m H^T).
  by rewrite /P /pair_cov /H2 tr_row_mx trmx0 mul_block_col !mulmx0 !addr0.
have ES : innov H2 R P = innov H R (cov n i i).
  by rewrite /innov -[H2 *m P *m _]mulmxA PH /H2 mul_row_col mul0mx addr0 mulmxA.
set K2 := P *m H2^T *m invmx (innov H2 R P).
have EK2 : K2 = col_mx K (cov n k i *m H^T *m invmx (innov H R (cov n i i))).
  by rewrite /K2 ES PH mul_col_mx EK.
have EG : gain_cov H2 R P K2 = (1%:M - K2 *m H2) *m P by rewrite joseph_standard // ES.
have sG : symmetric (gain_cov H2 R P K2).
  by rewrite EG; apply: standard_sym => //; rewrite ES.
exists (col_mx (mean n i) (mean n k) + K2 *m (z - H2 *m col_mx (mean n i) (mean n k))), (gain_cov H2 R P K2).
split; first by exists K2; have r0 q : (0%:M : ('M[F]_q)) = 0 := raddf0 _; rewrite !r0 !addr0.
have H2x : H2 *m col_mx (mean n i) (mean n k) = H *m mean n i by rewrite /H2 mul_row_col mul0mx addr0.
have U1 : 1%:M - K2 *m H2 = block_mx (1%:M - K *m H) 0 (- (cov n k i *m H^T *m invmx (innov H R (cov n i i)) *m H)) 1%:M.
  by rewrite EK2 /H2 mul_col_row !mulmx0 [1%:M]scalar_mx_block opp_block_mx add_block_mx !oppr0 !addr0 !add0r.
have EB : gain_cov H2 R P K2 = block_mx ((1%:M - K *m H) *m cov n i i) ((1%:M - K *m H) *m cov n i k)
    (- (cov n k i *m H^T *m invmx (innov H R (cov n i i)) *m H) *m cov n i i + cov n k i)
    (- (cov n k i *m H^T *m invmx (innov H R (cov n i i)) *m H) *m cov n i k + cov n k k).
  by rewrite EG U1 /P /pair_cov mulmx_block !mul0mx !addr0 !mul1mx.
split; first by rewrite H2x EK2 mul_col_mx add_col_mx col_mxKu Ex.
split; first by rewrite EB block_mxKul EJ.
have Cik : cov n' i k = ursubmx (gain_cov H2 R P K2) by rewrite EB block_mxKur C1 EL2.
split=> //; split; last by split=> //; apply: Sc.
have := congr1 trmx Cik; rewrite trmx_ursub sG => <-.
by rewrite C1 C2 trmx_mul -cs.
Qed.

(** * C82: the single unbuffered filter *)
(** propagation: accepted exactly when the sizes fit and time moves forward *)
Theorem C82_propagate : forall n (x : 'cV[F]_n) (P : 'M[F]_n) t0 f1 f2 f3 (Phi Q : dmat) t,
  let b := Bel (DM x) (DM P) t0 f1 f2 f3 in
  (forall A B : 'M[F]_n, Phi = DM A -> Q = DM B -> Z.lt t0 t ->
     ks_propagate Phi Q t b = Ok (Bel (DM (A *m x)) (DM (A *m P *m A^T + B)) t f1 f2 f3, true)) /\
  (drows Phi <> n \/ dcols Phi <> n \/ drows Q <> n \/ dcols Q <> n \/ Z.le t t0 -> ks_propagate Phi Q t b = Ok (b, false)).
Proof.
move=> n x P t0 f1 f2 f3 Phi Q t b; split.
  move=> A B -> -> L; rewrite /ks_propagate /check_dim_phi_q /check_dim_phi /= !eqxx /=.
  by have -> /= : Z.ltb t0 t = true by [exact/Z.ltb_lt]; rewrite cov_prop_ok /= dmul_ok.
rewrite /ks_propagate /check_dim_phi_q /check_dim_phi /= => H.
case: ifP => // /andP [/andP [/norP [/negPn/eqP a1 /negPn/eqP a2] /norP [/negPn/eqP a3 /negPn/eqP a4]] /Z.ltb_lt L].
by case: H => [H|[H|[H|[H|H]]]]; try (by case: H); lia.
Qed.
(** a scalar control input *)
Theorem C82_scalar_input : forall n (x g : 'cV[F]_n) (P Phi Q : 'M[F]_n) t0 f1 f2 f3 t (u v : F),
  let b := Bel (DM x) (DM P) t0 f1 f2 f3 in
  ks_propagate_u (DM Phi) (DM Q) t (DM g) (DM (u%:M : 'cV[F]_1)) (DM (v%:M : 'cV[F]_1)) b =
  Ok (if Z.ltb t0 t then (Bel (DM (Phi *m x + u *: g)) (DM (Phi *m P *m Phi^T + (v *: (g *m g^T) + Q))) t f1 f2 f3, true) else (b, false)).
Proof.
move=> n x g P Phi Q t0 f1 f2 f3 t u v b.
rewrite /ks_propagate_u /= /check_dim_phi_q /check_dim_phi /= !eqxx /=; case: Z.ltb => //.
by rewrite !dmul_ok /= dadd_ok /= dmul_ok /= dadd_ok /= cov_prop_ok /= !scalar1 -scalemxAl.
Qed.
(** two or more inputs abort: the variances are multiplied as a vector, G * var_u * G^T *)
Theorem C82_vector_input_aborts : forall n k (x : 'cV[F]_n) (P Phi Q : 'M[F]_n) t0 f1 f2 f3 t (G : 'M[F]_(n, k)) (u v : 'cV[F]_k),
  k <> 1%N -> Z.lt t0 t ->
  ks_propagate_u (DM Phi) (DM Q) t (DM G) (DM u) (DM v) (Bel (DM x) (DM P) t0 f1 f2 f3) = Abort EigenAssert.
Proof.
move=> n k x P Phi Q t0 f1 f2 f3 t G u v K L.
rewrite /ks_propagate_u /= /check_dim_phi_q /check_dim_phi /= !eqxx /=.
have -> /= : Z.ltb t0 t = true by exact/Z.ltb_lt.
by rewrite !dmul_ok /= dadd_ok /= dmul_bad //; exact: nesym.
Qed.
(** the measurement update, with its gate; a refused or misshaped measurement changes nothing *)
Theorem C82_private : forall n m (x : 'cV[F]_n) (P : 'M[F]_n) t0 f1 f2 f3 (H : 'M[F]_(m, n)) (R : 'M[F]_m) z, symmetric P -> symmetric R ->
  let b := Bel (DM x) (DM P) t0 f1 f2 f3 in
  exists yes x' P', ks_private junk eps (DM H) (DM R) (DM z) b = Ok (if yes then Bel (DM x') (DM P') t0 f1 f2 f3 else b, yes) /\
    gate eps thr H R z x P yes /\ (yes = true -> measured eps H R z x P x' P').
Proof.
move=> n m x P t0 f1 f2 f3 H R z sP sR b.
case: (default_update junk eps H z x sP sR) => K [U [rej [Er [Me Ga]]]].
exists (~~ rej), (x + K *m (z - H *m x)), (gain_cov H R P K + eps%:M); rewrite /ks_private /= dmul_ok /= dsub_ok /= Er /=.
by case: rej Ga Er => Ga Er //=; rewrite /bel_correct /bel_correct_mean /= dadd_ok.
Qed.
(** a wrong noise matrix is refused *)
Theorem C82_wrong_noise : forall n m (x : 'cV[F]_n) (P : 'M[F]_n) t0 f1 f2 f3 (H : 'M[F]_(m, n)) (R : dmat) (z : 'cV[F]_m),
  let b := Bel (DM x) (DM P) t0 f1 f2 f3 in
  drows R <> m \/ dcols R <> m -> ks_private junk eps (DM H) R (DM z) b = Ok (b, false).
Proof.
move=> n m x P t0 f1 f2 f3 H R z b D; rewrite /ks_private /= dmul_ok /= dsub_ok /=.
rewrite /correction_step /check_dim_meas /= !eqxx /=.
by case: D => /eqP D; rewrite ![_ == drows R]eq_sym ![_ == dcols R]eq_sym D ?orbT.
Qed.
(** time never goes back: along any history the time of a filter that stays registered and is not reset never decreases *)
Theorem C82_time_forward : forall s c s' yes i, reach s -> sane c -> exec c s = Ok (s', yes) -> live (net_of s) i ->
  (forall x P t, c <> @CSet F dim i x P t) -> c <> CRemove F dim i ->
  live (net_of s') i /\ Z.le (time (net_of s) i) (time (net_of s') i).
Proof.
move=> s c s' yes i Rs Sa E L NS NR; case: (C83_history Rs Sa E) => Us [Ga [Ef No]].
case: yes E Ga Ef No => E Ga Ef No; last first.
  by case: (No erefl) => Lv [Sm _]; split; [exact/Lv|case: (Sm _ L) => _ ->; lia].
have {}Ef := Ef erefl; clear No; move: Ef Ga Us NS NR {Sa E}.
case: c => [k x P t|k|k x P t|k Phi Q t|k Phi Q t G u v|k m H R z|k j m Hi Hj R z]; rewrite /effect /gate_of => Ef Ga Us NS NR.
- case: Ef => Lv [_ [_ [_ [_ [Sm _]]]]]; have N : i <> k by move=> Ei; subst k; case: Ga => /(_ erefl).
  by split; [apply/Lv; left|case: (Sm i) => // _ ->; lia].
- have N : i <> k by move=> Ei; subst k.
  by case: Ef => Lv [Sm _]; split; [apply/Lv|case: (Sm i) => // _ ->; lia].
- have N : i <> k by move=> Ei; subst k; case: (NS x P t).
  by case: Ef => Lv [_ [_ [_ [_ [Sm _]]]]]; split; [apply/Lv|case: (Sm i) => // _ ->; lia].
- case: Ef => Lv [_ [Et [_ [_ [Sm _]]]]]; split; first exact/Lv.
  case: (eqVneq i k) => [Ei|/eqP N]; last by case: (Sm i) => // _ ->; lia.
  by subst k; rewrite Et; move/esym/Z.ltb_lt: Ga; lia.
- case: Ef => Lv [_ [Et [_ [_ [Sm _]]]]]; split; first exact/Lv.
  case: (eqVneq i k) => [Ei|/eqP N]; last by case: (Sm i) => // _ ->; lia.
  by subst k; rewrite Et; move/esym/Z.ltb_lt: Ga; lia.
- case: Ef => Lv [_ [Et [_ [Sm _]]]]; split; first exact/Lv.
  case: (eqVneq i k) => [Ei|/eqP N]; last by case: (Sm i) => // _ ->; lia.
  by subst k; rewrite Et; lia.
case: Ef => _ [Lv [_ [Ti [Tj [_ [_ [Sm _]]]]]]]; split; first exact/Lv.
case: (eqVneq i k) => [Ei|/eqP N]; first by subst k; rewrite Ti; lia.
case: (eqVneq i j) => [Ei|/eqP N2]; first by subst j; rewrite Tj; lia.
by case: (Sm i) => // _ ->; lia.
Qed.

(** * C84: which calls go through *)
Theorem C84_total : forall s c, reach s -> sane c -> (forall i, uses c i -> live (net_of s) i) ->
  (forall i j m Hi Hj R z, c <> @CJoint F dim i j m Hi Hj R z) -> exists s' yes, exec c s = Ok (s', yes).
Proof.
move=> s c /reach_wf W; case: c => [i x P t|i|i x P t|i Phi Q t|i Phi Q t G u v|i m H R z|i j m Hi Hj R z] Sa Us NJ; rewrite /exec.
- by case: (st_new _ _ _) => s1 a; case: (st_add a s1) => s2 y; exists s2, y.
- by case: (st_remove i s) => s2 y; exists s2, y.
all: try (have := Us i erefl; rewrite /live /= /at_id; case g: (st_get i s) => [a|] // _).
- by do 2 eexists.
- case: (obj_good W g) => x0 [P0 [t0 [f1 [f2 [f3 [E1 [E2 [sP0 [Sh _]]]]]]]]].
  rewrite /is_propagate /is_propagate_with /with_bel_of E2 /ks_propagate /= /check_dim_phi_q /check_dim_phi /= !eqxx /=.
  case: Z.ltb; last by do 2 eexists.
  rewrite cov_prop_ok /= dmul_ok /=; case: (sf_scale_ok Phi Sh) => l [El _]; rewrite /so_scale /= El /=; by do 2 eexists.
- case: (obj_good W g) => x0 [P0 [t0 [f1 [f2 [f3 [E1 [E2 [sP0 [Sh _]]]]]]]]].
  rewrite /is_propagate_u /is_propagate_with /with_bel_of E2 C82_scalar_input /=; case: Z.ltb; last by do 2 eexists.
  cbn [obind]; case: (sf_scale_ok Phi Sh) => l [El _]; rewrite /so_scale /= El /=; by do 2 eexists.
- case: (obj_good W g) => x0 [P0 [t0 [f1 [f2 [f3 [E1 [E2 [sP0 [Sh _]]]]]]]]].
  rewrite /is_private /with_bel_of E2; case: (C82_private x0 t0 f1 f2 f3 H z sP0 Sa) => yes [x' [P' [-> _]]]; cbn [obind].
  case: yes; last by do 2 eexists.
  rewrite /so_correct /= dinv_ok /= dmul_ok /=.
  set L := _ *m _; case: (sf_scale_ok L Sh) => l [El _]; rewrite /so_scale /= El /=; by do 2 eexists.
by case: (NJ i j m Hi Hj R z).
Qed.
(** calling a method of an instance that is not registered dereferences a null pointer *)
Theorem C84_unregistered : forall s c i, uses c i -> ~ live (net_of s) i ->
  match c with CJoint k l _ _ _ _ _ => live (net_of s) k -> exec c s = Abort RTVerificationFailed | _ => exec c s = UB NullDeref end.
Proof.
move=> s c i; case: c => [k x P t|k|k x P t|k Phi Q t|k Phi Q t G u v|k m H R z|k j m Hi Hj R z] //= Us N;
  try (by subst k; rewrite /at_id; case: (st_get i s) N => // a []).
move=> Lk; case: Us => E; subst i; first by case: N.
rewrite /at_id; case gk: (st_get k s) Lk => [a|] // _.
by rewrite /is_joint /st_exists -/(st_get k s) -/(st_get j s) gk; case: (st_get j s) N => // b [].
Qed.
(** a joint update of two different registered filters: throws when their times differ; otherwise it returns, or throws because the
    joint posterior is refused by the positive-semidefiniteness test *)
Theorem C84_joint : forall s i j m (Hi : 'M[F]_(m, dim i)) (Hj : 'M[F]_(m, dim j)) R z, reach s -> symmetric R -> i <> j -> (0 < m)%N ->
  live (net_of s) i -> live (net_of s) j ->
  (time (net_of s) i <> time (net_of s) j -> exec (CJoint Hi Hj R z) s = Abort RTVerificationFailed) /\
  (time (net_of s) i = time (net_of s) j ->
     (exists s' yes, exec (CJoint Hi Hj R z) s = Ok (s', yes)) \/
     (exec (CJoint Hi Hj R z) s = Abort RTVerificationFailed /\
      exists x' P', is_psd (DM P') = false /\
        measured eps (row_mx Hi Hj) R z (col_mx (mean (net_of s) i) (mean (net_of s) j)) (pair_cov (net_of s) i j + eps0%:M) x' P')).
Proof.
move=> s i j m Hi Hj R z /reach_wf W sR N mpos gin gjn.
have [a gi] : exists a, st_get i s = Some a by move: gin; rewrite /live /=; case: (st_get i s) => // a; exists a.
have [aj gj] : exists aj, st_get j s = Some aj by move: gjn; rewrite /live /=; case: (st_get j s) => // aj; exists aj.
case: (obj_good W gi) => xi [Pi [ti [f1 [f2 [f3 [E1 [E2 [sPi [Shi [_ [Em [Ec Et]]]]]]]]]]]].
case: (obj_good W gj) => xj [Pj [tj [g1 [g2 [g3 [D1 [D2 [sPj [Shj [_ [Dm [Dc Dt]]]]]]]]]]]].
rewrite /pair_cov (cov_sym dim_pos W gin gjn) Em Ec Et Dm Dc Dt.
set C := cov (net_of s) i j.
rewrite /exec /at_id gi /is_joint /st_exists -/(st_get i s) -/(st_get j s) gi gj E1 Nat.eqb_refl; cbn [andb throw_unless obind].
rewrite /at_id gj /with_bel_of E2 D2; cbn [b_t b_mean b_Sigma drows dcols].
case: Z.eqb_spec => [Tt|] //=; split=> // _.
rewrite C54_horcat //= !vecE C54_vertcat_vec //= dmul_ok /= dsub_ok /=.
rewrite (stack_apriE _ _ _ _ _ _ W N gi gjn (Pj := Pj)) //; cbn [obind]; rewrite -/C stabilize_ok; cbn [obind].
rewrite symm_id; last exact: block_symm.
set PP := block_mx Pi C C^T Pj + eps0%:M.
have sPP : symmetric PP by apply: symD; [exact: block_symm|exact: sym_scalar].
case: (default_update junk eps (row_mx Hi Hj) z (col_mx xi xj) sPP sR) => K [U [rej [Er [Me Ga]]]]; rewrite Er /=.
case: rej Ga Er => Ga Er /=; first by left; do 2 eexists.
set P' := gain_cov (row_mx Hi Hj) R PP K + eps%:M in Me Er *.
set dx := K *m _ in Me Er *.
case PS: (is_psd _) => /=; last first.
  by right; split=> //; do 2 eexists; split; first exact: PS; exact: Me.
left; rewrite -{1}[P']submxK C38_split2 //; cbn [obind fst snd].
case: (correct_facE Pi (ulsubmx P') W gi) => li [-> [Shi' [Gi Hli]]]; cbn [obind].
case: (put W gi Gi); set s1 := st_write _ _ _ => W1 [O1 [K1 G1]].
have gj1 : st_get j s1 = Some aj by rewrite G1.
case: (correct_facE Pj (drsubmx P') W1 gj1) => lj [-> [Shj' [Gj Hlj]]]; cbn [obind].
rewrite (K1 _ _ gj (nesym N)) in Gj Hlj *.
case: (put W1 gj1 Gj); set s2 := st_write _ _ _ => W2 [O2 [K2 G2]].
have gi2 : st_get i s2 = Some a by rewrite G2 G1.
have gj2 : st_get j s2 = Some aj by rewrite G2.
case: (set_Sigma_std (ursubmx P') W2 N gi2 gj2) => s3 [Fi [Fj [-> [W3 [G3 [OI3 [OJ3 [K3 EF]]]]]]]]; cbn [obind].
rewrite usub dsub_; cbn [obind].
rewrite O2 /= in OJ3; rewrite (K2 i a) ?G1 // O1 /= in OI3.
have gi3 : st_get i s3 = Some a by rewrite G3.
have gj3 : st_get j s3 = Some aj by rewrite G3.
rewrite E2 in OI3; rewrite D2 in OJ3.
rewrite (@correct_belE _ _ _ xi _ Pi _ ti f1 f2 f3 W3 gi3) ?OI3 //; cbn [obind].
have sI : symmetric (ulsubmx P').
  by rewrite /symmetric trmx_ulsub; congr ulsubmx; apply: symD; [exact: gain_symm|exact: sym_scalar].
set oi := SObj i _ _.
have GI : good dim i oi by apply: mk_good => //; apply: shaped_set.
case: (put W3 gi3 GI); set s4 := st_write _ _ _ => W4 [O4 [K4 G4]].
have gj4 : st_get j s4 = Some aj by rewrite G4.
have OJ4 : st_obj s4 aj = st_obj s3 aj by apply: (K4 _ _ gj3 (nesym N)).
rewrite (@correct_belE _ _ _ xj _ Pj _ tj g1 g2 g3 W4 gj4) ?OJ4 OJ3 //; cbn [obind].
by do 2 eexists.
Qed.

(** naming the same filter twice is not refused: the two roles are treated as independent copies, both corrections are added to
    the one mean, the second block becomes the covariance, and a factor of the filter with itself stays behind *)
Theorem C84_self_joint : forall s i a m (Hi Hj : 'M[F]_(m, dim i)) R z (x : 'cV[F]_(dim i)) P t f1 f2 f3, (0 < m)%N -> symmetric P -> symmetric R ->
  st_get i s = Some a -> st_obj s a = SObj i (Some (Bel (DM x) (DM P) t f1 f2 f3)) nil ->
  exists yes x1 x2 P', gate eps thr (row_mx Hi Hj) R z (col_mx x x) (block_mx P 0 0 P + eps0%:M) yes /\
    measured eps (row_mx Hi Hj) R z (col_mx x x) (block_mx P 0 0 P + eps0%:M) (col_mx x1 x2) P' /\
    (yes = false -> exec (CJoint Hi Hj R z) s = Ok (s, false)) /\
    (yes = true -> is_psd (DM P') = true -> exists s', exec (CJoint Hi Hj R z) s = Ok (s', true) /\
       so_bel (st_obj s' a) = Some (Bel (DM (x1 + x2 - x)) (DM (drsubmx P')) t f1 f2 f3) /\
       so_fac (st_obj s' a) = [:: (i, DM (1%:M : 'M[F]_(dim i)))]).
Proof.
move=> s i a m Hi Hj R z x P t f1 f2 f3 m0 sP sR g O.
set PP := block_mx P 0 0 P + eps0%:M.
have sB : symmetric (block_mx P 0 0 P) by rewrite /symmetric tr_block_mx sP !trmx0.
have sPP : symmetric PP by apply: symD; [|exact: sym_scalar].
case: (default_update junk eps (row_mx Hi Hj) z (col_mx x x) sPP sR) => K [U [rej [Er [Me Ga]]]].
set P' := gain_cov (row_mx Hi Hj) R PP K + eps%:M in Me Er.
set dx := K *m _ in Me Er.
exists (~~ rej), (x + usubmx dx), (x + dsubmx dx), P'; split=> //; split.
  suff E : col_mx x x + dx = col_mx (x + usubmx dx) (x + dsubmx dx) by rewrite E in Me.
  by rewrite -{1}[dx]vsubmxK add_col_mx.
have Z0 : dzero F (dim i) (dim i) = DM (0 : 'M[F]_(dim i)) by [].
have G : st_get_Sigma i i s = Ok (dempty F).
  by rewrite /st_get_Sigma /st_get_fac /at_id g O.
have J : exec (CJoint Hi Hj R z) s =
  (let! res := correction_step junk (DM (row_mx Hi Hj)) (DM R) (DM (z - row_mx Hi Hj *m col_mx x x)) (DM PP) (default_cfg eps) in
   if ~~ rejected res then
    let! _ := throw_unless (is_psd (Sigma_apos res)) in
    let! (ij, Sij) := split2 (Sigma_apos res) (dim i) (dim i) in
    let! s := st_correct_fac junk a (DM P) ij.1 s in
    let! s := st_correct_fac junk a (DM P) ij.2 s in
    let! s := st_set_Sigma i i Sij s in
    let! di' := dblock (delta_mean res) 0 0 (dim i) 1 in
    let! dj' := dblock (delta_mean res) (drows (delta_mean res) - dim i) (dcols (delta_mean res) - 1) (dim i) 1 in
    let! s := st_correct_bel a di' ij.1 s in
    let! s := st_correct_bel a dj' ij.2 s in
    Ok (s, true) else Ok (s, false)).
  rewrite /exec /at_id g /is_joint /st_exists -/(st_get i s) g O; cbn [so_id andb throw_unless obind]; rewrite Nat.eqb_refl; cbn [throw_unless obind].
  rewrite /at_id g O /with_bel_of; cbn [so_bel b_t b_mean b_Sigma drows dcols]; rewrite Z.eqb_refl; cbn [throw_unless obind].
  rewrite C54_horcat //= !vecE C54_vertcat_vec //= dmul_ok /= dsub_ok /= /is_stack_apri O; cbn [so_id]; rewrite G; cbn [obind].
  rewrite dsize_empty eqxx; cbn [negb b_Sigma drows dcols]; rewrite Z0 C38_stack2 //; cbn [obind].
  by rewrite trmx0 stabilize_ok; cbn [obind]; rewrite symm_id.
rewrite J Er; cbn [obind rejected Sigma_apos delta_mean]; split; first by case: rej {Ga Er J}.
case: rej {Ga Er J} => // _ Ps; cbn [negb]; rewrite Ps; cbn [throw_unless obind].
rewrite -{1}[P']submxK C38_split2 //; cbn [obind fst snd].
rewrite /st_correct_fac /so_correct O dinv_ok; cbn [obind]; rewrite !dmul_ok; cbn [obind so_scale sf_scale so_fac so_id so_bel].
set s1 := st_write a _ s.
have O1 : st_obj s1 a = SObj i (Some (Bel (DM x) (DM P) t f1 f2 f3)) nil by rewrite /s1 /st_write /= Nat.eqb_refl.
rewrite O1 /so_scale; cbn [obind sf_scale so_fac so_id so_bel].
set s2 := st_write a _ s1.
have O2 : st_obj s2 a = SObj i (Some (Bel (DM x) (DM P) t f1 f2 f3)) nil by rewrite /s2 /st_write /= Nat.eqb_refl.
have g2 : st_get i s2 = Some a by [].
rewrite /st_set_Sigma Nat.ltb_irrefl /st_set_fac /at_id g2 O2; cbn [obind dtr so_bel so_id so_fac sf_set dcols].
set s3 := st_write a _ s2.
have O3 : st_obj s3 a = SObj i (Some (Bel (DM x) (DM P) t f1 f2 f3)) [:: (i, DM (ursubmx P')^T)] by rewrite /s3 /st_write /= Nat.eqb_refl.
have g3 : st_get i s3 = Some a by [].
rewrite g3 O3; cbn [obind so_bel so_id so_fac sf_set]; rewrite Nat.eqb_refl usub dsub_; cbn [obind].
set s4 := st_write a _ s3.
have O4 : st_obj s4 a = SObj i (Some (Bel (DM x) (DM P) t f1 f2 f3)) [:: (i, DM (1%:M : 'M[F]_(dim i)))].
  by rewrite /s4 /st_write /= Nat.eqb_refl deye_square.
rewrite /st_correct_bel O4 /with_bel_of /bel_correct /bel_correct_mean /= dadd_ok /= Nat.eqb_refl /= dadd_ok /=.
eexists; split; first by reflexivity.
rewrite /= Nat.eqb_refl /=; split=> //; congr (Some (Bel (DM _) _ _ _ _ _)).
by rewrite [x + dsubmx _]addrC addrA addrK.
Qed.

(** an empty measurement does not get through a joint update *)
Theorem C84_joint_empty : forall s i j (Hi : 'M[F]_(0, dim i)) (Hj : 'M[F]_(0, dim j)) R z, reach s -> i <> j ->
  live (net_of s) i -> live (net_of s) j -> time (net_of s) i = time (net_of s) j -> exec (CJoint Hi Hj R z) s = Abort EigenAssert.
Proof.
move=> s i j Hi Hj R z /reach_wf W N gin gjn.
have [a gi] : exists a, st_get i s = Some a by move: gin; rewrite /live /=; case: (st_get i s) => // a; exists a.
have [aj gj] : exists aj, st_get j s = Some aj by move: gjn; rewrite /live /=; case: (st_get j s) => // aj; exists aj.
case: (obj_good W gi) => xi [Pi [ti [f1 [f2 [f3 [E1 [E2 [sPi [Shi [_ [Em [Ec Et]]]]]]]]]]]].
case: (obj_good W gj) => xj [Pj [tj [g1 [g2 [g3 [D1 [D2 [sPj [Shj [_ [Dm [Dc Dt]]]]]]]]]]]].
rewrite Et Dt => Tt.
rewrite /exec /at_id gi /is_joint /st_exists -/(st_get i s) -/(st_get j s) gi gj E1 Nat.eqb_refl; cbn [andb throw_unless obind].
rewrite /at_id gj /with_bel_of E2 D2; cbn [b_t b_mean b_Sigma drows dcols]; rewrite Tt Z.eqb_refl; cbn [throw_unless obind].
rewrite /horcat /dsize /= !vecE C54_vertcat_vec //= dmul_bad //=.
by move=> E; have := dim_pos i; have : (0 + dim j)%N = (dim i + dim j)%N by [rewrite add0n]; move/addIn => <-.
Qed.
(** taking a filter out and putting the same object back changes nothing: it keeps its belief and its correlations *)
Theorem C84_put_back : forall s i a, reach s -> st_get i s = Some a ->
  exists s1 s2, st_remove i s = (s1, true) /\ ~ live (net_of s1) i /\ st_add a s1 = (s2, true) /\ nothing (net_of s) (net_of s2).
Proof.
move=> s i a /reach_wf W g; case: (W _ _ g) => _ [Ei _].
have Rm : st_remove i s = (Std (st_next s) (st_obj s) (List.filter (fun e => ~~ (fst e =? i)%nat) (st_dict s)), true).
  by rewrite /st_remove g Ei.
rewrite Rm; set s1 := Std _ _ _; exists s1; eexists; split; first by [].
have G1 k : st_get k s1 = if (k =? i)%nat then None else st_get k s by rewrite /st_get /s1 /= find_filter_id.
split; first by rewrite /live /= G1 Nat.eqb_refl.
rewrite /st_add /st_exists -/(st_get _ s1) /= Ei G1 Nat.eqb_refl /=; split; first by [].
set s2 := Std _ _ _.
have G2 k : st_get k s2 = st_get k s.
  rewrite /st_get /s2 /= -/(st_get k s1) G1 Nat.eqb_sym; case: Nat.eqb_spec => [->|] //; by rewrite g.
have W2 : wf s2 by move=> k b; rewrite G2; exact: W.
split; first by move=> k; rewrite /live /= G2.
by apply: same_of => // k L; split=> //; rewrite /obj_in G2.
Qed.

(** * C85: every stored covariance stays symmetric and positive semidefinite *)
Definition valid (c : call) : Prop :=
  match c with
  | CAdd _ _ P _ | CSet _ _ P _ => psd P
  | CProp _ _ Q _ => psd Q
  | CPropU _ _ Q _ _ _ v => psd Q /\ 0 <= v
  | CPriv _ _ _ R _ | CJoint _ _ _ _ _ R _ => psd R
  | CRemove _ => True
  end.
Inductive reach_valid : std -> Prop :=
| rv0 : reach_valid empty
| rvS s c s' yes : reach_valid s -> sane c -> valid c -> exec c s = Ok (s', yes) -> reach_valid s'.
Lemma psd_ul m n (P : 'M[F]_(m + n)) : psd P -> psd (ulsubmx P) /\ psd (drsubmx P).
Proof.
move=> p.
have E1 : ulsubmx P = row_mx 1%:M 0 *m P *m (row_mx 1%:M 0)^T.
  by rewrite -{2}[P]submxK mul_row_block !mul1mx !mul0mx !addr0 tr_row_mx mul_row_col trmx1 trmx0 mulmx1 mulmx0 addr0.
have E2 : drsubmx P = row_mx 0 1%:M *m P *m (row_mx 0 1%:M)^T.
  by rewrite -{2}[P]submxK mul_row_block !mul1mx !mul0mx !add0r tr_row_mx mul_row_col trmx1 trmx0 mulmx1 mulmx0 add0r.
by rewrite E1 E2; split; apply: psd_congr.
Qed.
Lemma measured_psd m n (H : 'M[F]_(m, n)) R z x P x' P' : 0 <= eps -> psd P -> psd R -> measured eps H R z x P x' P' -> psd P'.
Proof. by move=> e p r [K [_ [_ ->]]]; apply: psdD; [apply: psdD; apply: psd_congr|exact: psd_scalar]. Qed.
Theorem C85_covariances_valid :
  (forall n (A : 'M[F]_n), symmetric A -> is_psd (DM A) = true -> psd A) -> 0 <= eps ->
  forall s i, reach_valid s -> live (net_of s) i -> covariance (cov (net_of s) i i).
Proof.
move=> Hp He s i Rv Li.
have RR s0 : reach_valid s0 -> reach s0 by elim=> [|s1 c s' yes _ R1 Sa _ E]; [exact: reach0|exact: reachS E].
split; first by rewrite /symmetric -cov_sym //; exact: reach_wf (RR _ Rv).
elim: Rv i Li => [|s1 c s' yes Rv IH Sa Va E] i Li; first by [].
have R1 := RR _ Rv; case: (C83_history R1 Sa E) => Us [Ga [Ef No]].
have W1 := reach_wf R1; have W' := reach_wf (reachS R1 Sa E).
have SM A k : same A (net_of s1) (net_of s') -> A k -> live (net_of s1) k -> psd (cov (net_of s') k k).
  by move=> [_ Sm] Ak Lk; rewrite Sm //; exact: IH.
case: yes E Ga Ef No => E Ga Ef No; last by case: (No erefl) => Lv Sm; apply: (SM _ _ Sm); exact/Lv.
have {}Ef := Ef erefl; clear No.
case: c Sa Va E Us Ga Ef => [k x P t|k|k x P t|k Phi Q t|k Phi Q t G u v|k m H R z|k j m Hi Hj R z] Sa Va E Us Ga Ef.
- case: Ef => Lv [_ [_ [Ec [_ Sm]]]]; case: (eqVneq i k) => [Ei|/eqP N]; first by subst i; rewrite Ec.
  by case/Lv: Li => // Li; apply: (SM _ _ Sm).
- by case: Ef => Lv Sm; case/Lv: Li => Li N; apply: (SM _ _ Sm).
- case: Ef => Lv [_ [_ [Ec [_ Sm]]]]; case: (eqVneq i k) => [Ei|/eqP N]; first by subst i; rewrite Ec.
  by move/Lv: Li => Li; apply: (SM _ _ Sm).
- case: Ef => Lv [_ [_ [Ec [_ Sm]]]]; move/Lv: Li => Li; case: (eqVneq i k) => [Ei|/eqP N]; last exact: (SM _ _ Sm).
  by subst i; rewrite Ec; apply: psdD => //; apply: psd_congr; exact: IH.
- case: Ef => Lv [_ [_ [Ec [_ Sm]]]]; move/Lv: Li => Li; case: (eqVneq i k) => [Ei|/eqP N]; last exact: (SM _ _ Sm).
  subst i; rewrite Ec; case: Va => pQ v0; apply: psdD; first by apply: psd_congr; exact: IH.
  apply: psdD => //; apply: psdZ => //; rewrite -[G]mulmx1; have -> : G *m 1%:M *m (G *m 1%:M)^T = G *m (1%:M : 'M[F]_1) *m G^T by rewrite !mulmx1.
  by apply: psd_congr; apply: psd_scalar; rewrite ler01.
- case: Ef => Lv [Me [_ [_ Sm]]]; move/Lv: Li => Li; case: (eqVneq i k) => [Ei|/eqP N]; last exact: (SM _ _ Sm).
  by subst i; apply: measured_psd Me => //; exact: IH.
case: Sa => sR N; case: (step_joint W1 sR N E) => Lk [Lj [_ [_ [_ [_ /(_ erefl) PS]]]]].
case: Ef => _ [Lv [_ [_ [_ [_ [_ Sm]]]]]].
have Lk' : live (net_of s') k by exact/Lv.
have Lj' : live (net_of s') j by exact/Lv.
have pP : psd (pair_cov (net_of s') k j).
  apply: Hp PS; rewrite /pair_cov /symmetric tr_block_mx -!cov_sym //.
have [p1 p2] := psd_ul pP; rewrite /pair_cov block_mxKul block_mxKdr in p1 p2.
case: (eqVneq i k) => [->|/eqP N1] //; case: (eqVneq i j) => [->|/eqP N2] //.
by move/Lv: Li => Li; apply: (SM _ _ Sm).
Qed.
End Props.

(** ** A history over the rationals: two scalar filters are added, one is moved, the difference of the two is measured, and then one
    of the two alone. The calls satisfy all hypotheses of C83-C85; in the end the two are correlated. *)
Section Example.
Let Q := rat_realFieldType.
Let dm (_ : nat) := 1%N.
Let jk n (A : 'M[Q]_n) := A.
Let gb m n : 'M[Q]_(m, n) := 0.
(** the test accepts exactly the joint covariance that occurs *)
Let third : Q := 3%:R^-1.
Let psd_test (A : dmat Q) : bool :=
  [&& drows A == 2%N, dcols A == 2%N, entry A 0 0 == 2%:R * third, entry A 1 1 == 2%:R * third, entry A 0 1 == third & entry A 1 0 == third].
Lemma psd_test_ok n (A : 'M[Q]_n) : symmetric A -> psd_test (DM A) = true -> psd A.
Proof.
move=> _ /and5P [/= /eqP E _ /eqP a /eqP b /andP [/eqP c /eqP d]]; subst n.
have -> : A = third *: (1%:M + const_mx 1 *m (1%:M : 'M[Q]_1) *m (const_mx 1 : 'cV[Q]_2)^T).
  apply/matrixP => i j; rewrite mulmx1 !mxE big_ord1 !mxE mulr1 -(entryE A i j).
  case: i => [[|[|i]] hi] //; case: j => [[|[|j]] hj] //=; rewrite ?a ?b ?c ?d mulrC; congr (_ * _).
apply: psdZ; first by rewrite invr_ge0 ler0n.
by apply: psdD; [|apply: psd_congr]; apply: psd_scalar; rewrite ler01.
Qed.
Let ex := @exec Q jk gb psd_test 0 0 dm.
Let rv := @reach_valid Q jk gb psd_test 0 0 dm.
Let s1 (x : Q) : 'M[Q]_1 := x%:M.
Let c1 : call Q dm := @CAdd Q dm 1 (s1 0) (s1 1) Z0.
Let c2 : call Q dm := @CAdd Q dm 2 (s1 0) (s1 0) (Zneg 1).
Let c3 : call Q dm := @CProp Q dm 2 (s1 1) (s1 1) Z0.
Let c4 : call Q dm := @CJoint Q dm 1 2 1 (s1 1) (s1 (-1)) (s1 1) (s1 0).
Let c5 : call Q dm := @CPriv Q dm 2 1 (s1 1) (s1 1) (s1 0).
Lemma s1_sym x : symmetric (s1 x). Proof. by rewrite /symmetric /s1 tr_scalar_mx. Qed.
Lemma s1_psd x : 0 <= x -> psd (s1 x). Proof. exact: psd_scalar. Qed.
Lemma s1_mul x y : s1 x *m s1 y = s1 (x * y). Proof. by rewrite /s1 -scalar_mxM. Qed.
Lemma s1_add x y : s1 x + s1 y = s1 (x + y). Proof. by rewrite /s1 -raddfD. Qed.
Lemma thr1 : 0 <= table_threshold Q (Zpos 997) 1.
Proof. by rewrite /table_threshold /=; apply: mulr_ge0; [exact: ler0n|rewrite invr_ge0 ler0n]. Qed.
Lemma dm_pos i : (0 < dm i)%N. Proof. by []. Qed.
Lemma joint_value (x' : 'cV[Q]_2) (P' : 'M[Q]_2) :
  measured 0 (row_mx (s1 1) (s1 (-1))) (s1 1) (s1 0) (col_mx 0 0 : 'cV[Q]_(1 + 1)) (block_mx (s1 1) 0 0 (s1 1) + 0%:M : 'M[Q]_(1 + 1)) x' P' ->
  x' = 0 /\ P' = block_mx (s1 (2%:R * third)) (s1 third) (s1 third) (s1 (2%:R * third)).
Proof.
have r0 q : (0%:M : ('M[Q]_q)) = 0 := raddf0 _.
have b1 : block_mx (s1 1) 0 0 (s1 1) = (1%:M : 'M[Q]_(1 + 1)) by rewrite /s1 -scalar_mx_block.
rewrite !r0 !addr0 b1; set H := row_mx _ _ => -[K [EK [-> ->]]].
have ES : innov H (s1 1) 1%:M = s1 3%:R by rewrite /innov mulmx1 /H tr_row_mx mul_row_col !s1_sym !s1_mul !s1_add.
have uS : s1 3%:R \in unitmx by rewrite /s1 unitmxE det_scalar1 unitfE.
rewrite r0 addr0 ES in EK; rewrite EK // /s1 [0%:M]r0 col_mx0 !mulmx0 subr0 mulmx0 addr0; split=> //.
rewrite -/(s1 3%:R) -{1}ES r0 addr0 joseph_standard ?ES //; [|exact: sym_scalar|exact: s1_sym].
rewrite !mulmx1 /H tr_row_mx !s1_sym mul1mx /s1 invmx_scalar -/third -!/(s1 _) mul_col_mx mul_col_row !s1_mul.
by rewrite [1%:M]scalar_mx_block opp_block_mx add_block_mx !add0r -!/(s1 _) /s1 -!raddfN -!raddfD.
Qed.
Lemma psd_test_block : psd_test (DM (block_mx (s1 (2%:R * third)) (s1 third) (s1 third) (s1 (2%:R * third)))) = true.
Proof.
set M := block_mx _ _ _ _; have e (i j : 'I_(1 + 1)) := entryE M i j.
have := (e (lshift 1 ord0) (lshift 1 ord0), e (lshift 1 ord0) (rshift 1 ord0), e (rshift 1 ord0) (lshift 1 ord0), e (rshift 1 ord0) (rshift 1 ord0)).
rewrite /M block_mxEul block_mxEur block_mxEdl block_mxEdr !mxE !mulr1n => -[[[e1 e2] e3] e4].
by rewrite /psd_test; apply/and5P; split=> //; [apply/eqP; exact: e1|apply/eqP; exact: e4|apply/andP; split; apply/eqP; [exact: e2|exact: e3]].
Qed.
Example C83_example : exists st1 st2 st3 st4 st5,
  [/\ ex c1 (@empty Q) = Ok (st1, true), ex c2 st1 = Ok (st2, true), ex c3 st2 = Ok (st3, true), ex c4 st3 = Ok (st4, true) & ex c5 st4 = Ok (st5, true)] /\
  rv st3 /\ rv st4 /\ rv st5 /\
  cov (net_of dm st3) 1 2 = 0 /\ cov (net_of dm st4) 1 2 = s1 third /\ cov (net_of dm st5) 1 2 = s1 (third * (3%:R / 5%:R)).
Proof.
have RR s : rv s -> reach jk gb psd_test 0 0 dm s by elim=> [|x c s' y _ R1 Sa _ E]; [exact: reach0|exact: reachS E].
have H c s s' y R Sa E := @C83_history Q jk gb psd_test 0 0 dm dm_pos s c s' y R Sa E.
have T c s R Sa U J := @C84_total Q jk gb psd_test 0 0 dm dm_pos s c R Sa U J.
have step c s : rv s -> sane c -> valid c -> (forall i, uses c i -> live (net_of dm s) i) ->
    (forall i j m Hi Hj R z, c <> @CJoint Q dm i j m Hi Hj R z) ->
    (forall y, gate_of 0 0 (table_threshold Q (Zpos 997)) c (net_of dm s) y -> y = true) ->
    exists s', ex c s = Ok (s', true) /\ rv s' /\ effect 0 0 c (net_of dm s) (net_of dm s').
  move=> r Sa Va U J G; case: (T _ _ (RR _ r) Sa U J) => s' [y E]; case: (H _ _ _ _ (RR _ r) Sa E) => _ [Ga [Ef _]].
  have Ey := G _ Ga; subst y; exists s'; split=> //; split; last exact: Ef.
  exact: rvS r Sa Va E.
have r0 : rv (@empty Q) by exact: rv0.
have [st1 [E1 [r1 [L1 [M1 [T1 [C1 _]]]]]]] : exists s', ex c1 (@empty Q) = Ok (s', true) /\ rv s' /\ effect 0 0 c1 (net_of dm (@empty Q)) (net_of dm s').
  by apply: step => //; [exact: s1_sym|exact: s1_psd|move=> y /= [_ ->] // []].
set n1 := net_of dm st1 in L1 M1 T1 C1.
have N12 : ~ live n1 2 by case/L1 => // -[].
have v1 : live n1 1 by apply/L1; right.
have [st2 [E2 [r2 [L2 [M2 [T2 [C2 [X2 [S2 S2c]]]]]]]]] : exists s', ex c2 st1 = Ok (s', true) /\ rv s' /\ effect 0 0 c2 n1 (net_of dm s').
  by apply: step => //; [exact: s1_sym|exact: s1_psd|move=> y [_ ->]].
set n2 := net_of dm st2 in L2 M2 T2 C2 X2 S2 S2c.
have b1 : but n1 2 1 by [].
have v2 : live n2 2 by apply/L2; right.
have v21 : live n2 1 by apply/L2; left.
have [st3 [E3 [r3 [L3 [M3 [T3 [C3 [X3 [S3 S3c]]]]]]]]] : exists s', ex c3 st2 = Ok (s', true) /\ rv s' /\ effect 0 0 c3 n2 (net_of dm s').
  apply: step => //; [exact: s1_sym|exact: s1_psd|by move=> i ->|].
  by move=> y ->; rewrite -/n2 T2.
set n3 := net_of dm st3 in L3 M3 T3 C3 X3 S3 S3c.
have b2 : but n2 2 1 by [].
have [[m11 t11] [m21 t21]] := (S2 _ b1, S3 _ b2).
have c11 : cov n3 1 1 = s1 1 by rewrite S3c // S2c.
have c22 : cov n3 2 2 = s1 1 by rewrite C3 C2 /s1 raddf0 mulmx0 mul0mx add0r.
have [c12 c21] : cov n3 1 2 = 0 /\ cov n3 2 1 = 0.
  by case: (X3 _ b2) => -> ->; case: (X2 _ b1) => -> ->; rewrite mul0mx mulmx0.
have e1 : mean n3 1 = 0 by rewrite m21 m11 M1 /s1 raddf0.
have e2 : mean n3 2 = 0 by rewrite M3 M2 /s1 raddf0 mulmx0 add0r.
have t12 : time n3 1 = time n3 2 by rewrite t21 t11 T1 T3.
have v31 : live n3 1 by apply/L3.
have v32 : live n3 2 by apply/L3.
have [st4 [y4 E4]] : exists s' y, ex c4 st3 = Ok (s', y).
  case: (@C84_joint Q jk gb psd_test 0 0 dm dm_pos st3 1 2 1 (s1 1) (s1 (-1)) (s1 1) (s1 0) (RR _ r3) (s1_sym 1) _ isT v31 v32) => // _.
  case/(_ t12) => // -[_ [x' [P' []]]]; rewrite -/n3 /pair_cov c11 c12 c21 c22 e1 e2 => Ps /joint_value [_ EP].
  by move: Ps; rewrite EP psd_test_block.
case: (H c4 _ _ _ (RR _ r3) (conj (s1_sym 1) _) E4) => // _ [G4 [Ef4 _]].
have Ey : y4 = true.
  rewrite /c4 /gate_of /gate -/n3 c11 c12 c21 c22 e1 e2 in G4; rewrite G4; last first.
    have z0 q : (0%:M : ('M[Q]_q)) = 0 := raddf0 _.
    rewrite !z0 !addr0; have -> : block_mx (s1 1) 0 0 (s1 1) = (1%:M : 'M[Q]_(1 + 1)) by rewrite /s1 -scalar_mx_block.
    by rewrite /innov mulmx1 tr_row_mx mul_row_col !s1_sym !s1_mul !s1_add /s1 unitmxE det_scalar1 unitfE.
  set v := (_ - _); have -> : v = 0 by rewrite /v col_mx0 mulmx0 subr0 /s1 raddf0.
  by rewrite /quad mulmx0 mxE thr1.
subst y4; have r4 : rv st4 by apply: (rvS (c := c4) r3) E4; [split; [exact: s1_sym|]|exact: s1_psd].
case: (Ef4 erefl) => _ [L4 [Me [_ [T42 _]]]]; set n4 := net_of dm st4 in L4 Me T42.
rewrite -/n3 c11 c12 c21 c22 e1 e2 in Me; case: (joint_value Me) => Ex EP.
have [d11 d12 d21 d22] := @eq_block_mx _ 1 1 1 1 _ _ _ _ _ _ _ _ EP.
have [f1 f2] : mean n4 1 = 0 /\ mean n4 2 = 0 by apply: (@eq_col_mx _ 1 1 1); rewrite col_mx0; exact: Ex.
have v42 : live n4 2 by apply/L4.
have v41 : live n4 1 by apply/L4.
have ES : innov (s1 1) (s1 1) (cov n4 2 2) = s1 (5%:R * third) by rewrite d22 /innov s1_sym !s1_mul s1_add.
have uS : s1 (5%:R * third) \in unitmx by rewrite /s1 unitmxE det_scalar1 unitfE.
have r0' : (0%:M : 'M[Q]_1) = 0 := raddf0 _.
have [st5 [E5 [r5 [L5 [Me5 [_ [[Lf [El Ca]] _]]]]]]] : exists s', ex c5 st4 = Ok (s', true) /\ rv s' /\ effect 0 0 c5 n4 (net_of dm s').
  apply: step => //; [exact: s1_sym|exact: s1_psd|by move=> i ->|].
  move=> y; rewrite /c5 /gate_of /gate -/n4 ES r0' addr0 => ->; last exact: uS.
  set v := (_ - _); have -> : v = 0 by rewrite /v f2 mulmx0 subr0 /s1 raddf0.
  by rewrite /quad mulmx0 mxE thr1.
set n5 := net_of dm st5 in L5 Me5 El Ca.
exists st1, st2, st3, st4, st5; split=> //; split=> //; split=> //; split=> //; split=> //; split=> //.
case: Me5 => K [EK [Em Ec]]; rewrite r0' ES addr0 in EK; have {}EK := EK uS.
rewrite d22 s1_sym /s1 invmx_scalar -!/(s1 _) !s1_mul in EK.
have k25 : K = s1 (2%:R / 5%:R) by rewrite EK.
have q1 : (1%:M : 'M[Q]_1) - s1 (2%:R / 5%:R) *m s1 1 = s1 (3%:R / 5%:R) by rewrite s1_mul /s1 -raddfN -raddfD.
have uP : cov n4 2 2 \in unitmx by rewrite d22 /s1 unitmxE det_scalar1 unitfE.
have c5' : cov n5 2 2 = s1 (2%:R / 5%:R).
  by rewrite Ec r0' addr0 k25 d22 /gain_cov q1 !s1_sym !s1_mul s1_add.
rewrite (proj2 (Ca 1%N (conj v41 _))) // d12 (El uP) c5' d22 /s1 invmx_scalar -!/(s1 _) s1_mul s1_sym s1_mul.
by congr (s1 _).
Qed.
End Example.
Print Assumptions C82_propagate. Print Assumptions C82_scalar_input. Print Assumptions C82_vector_input_aborts. Print Assumptions C82_private.
Print Assumptions C82_wrong_noise. Print Assumptions C82_time_forward. Print Assumptions C83_history. Print Assumptions C83_consistent.
Print Assumptions C83_private_exact. Print Assumptions C84_total. Print Assumptions C84_unregistered. Print Assumptions C84_joint.
Print Assumptions C84_self_joint. Print Assumptions C84_joint_empty. Print Assumptions C84_put_back. Print Assumptions C85_covariances_valid.
