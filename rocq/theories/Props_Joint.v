(** C38 (any number of participants), C57 (joint observations only touch participants) and C67 (a joint observation is the
    centralized update of the stacked participants). *)
From Coq Require Import ZArith List Bool Arith Lia.
From mathcomp Require Import all_ssreflect all_algebra.
From Verif Require Import Outcome DoubleModel BufModel BufProofs HorizonModel MeasModel HandlerModel Spec_Handler DMat KFModel Spec_Mat KFProofs BeliefModel EigenModel EigenProofs IsoModel IsoProofs Spec_Joint JointProofs.
Set Implicit Arguments. Unset Strict Implicit. Unset Printing Implicit Defensive.
Import GRing.Theory Num.Theory.
Local Open Scope outcome_scope.
Local Open Scope ring_scope.

Section C57.
Variable F : realFieldType.
Variable junk : forall n, 'M[F]_n -> 'M[F]_n.
Notation dmat := (dmat F).
Notation belief := (belief F).
Notation dict := (dict belief dmat).
Notation inst := (inst belief dmat).
(** two states of one instance that agree on everything but what is stored at t *)
Definition same_but_t (t : Z) (i i' : inst) : Prop := i_enabled i' = i_enabled i /\
  (forall s, s <> t -> bel_at s i' = bel_at s i) /\ (forall j s, s <> t -> ccf_at j s i' = ccf_at j s i).
Definition near (t : Z) (ids : list nat) (d d' : dict) : Prop := forall id,
  (~ List.In id ids -> d_find id d' = d_find id d) /\
  (forall i, d_find id d = Some i -> exists i', d_find id d' = Some i' /\ same_but_t t i i') /\
  (d_find id d = None -> d_find id d' = None).
Lemma near_refl t ids d : near t ids d d.
Proof. by move=> id; split=> //; split=> // i G; exists i. Qed.
Lemma sbt_trans t i1 i2 i3 : same_but_t t i1 i2 -> same_but_t t i2 i3 -> same_but_t t i1 i3.
Proof.
move=> [e1 [b1 c1]] [e2 [b2 c2]]; split; first by rewrite e2.
by split=> [s Ns|j s Ns]; rewrite ?b2 ?c2 ?b1 ?c1.
Qed.
Lemma near_trans t ids d1 d2 d3 : near t ids d1 d2 -> near t ids d2 d3 -> near t ids d1 d3.
Proof.
move=> N1 N2 id; have [A1 [B1 C1]] := N1 id; have [A2 [B2 C2]] := N2 id; split; first by move=> H; rewrite A2 // A1.
split; last by move=> /C1 /C2.
by move=> i /B1 [i2 [/B2 [i3 [G3 S3]] S2]]; exists i3; split=> //; exact: sbt_trans S3.
Qed.
Lemma near_mod t ids id f (d d' : dict) : List.In id ids -> mod_inst id f d = Ok d' -> (forall i i', f i = Ok i' -> same_but_t t i i') -> near t ids d d'.
Proof.
move=> Hin E H id'; have [i [i' [G [Ef E']]]] := mod_inst_ok E; subst d'.
rewrite find_upd; case: Nat.eqb_spec => [->|_]; last by split=> //; split=> // x Gx; exists x.
rewrite G; split=> //; split=> // x [<-]; exists i'; split=> //; exact: H.
Qed.
Lemma sbt_scale t L (i : inst) c : ccf_scale t t L (i_ccf i) = Ok c -> same_but_t t i (with_ccf c i).
Proof. by move=> E; split=> //; split=> // j s Ns; rewrite -!fac_ccf_at /=; have [->] := fac_scale E j s. Qed.
Lemma sbt_bel t b (i : inst) : same_but_t t i (with_bel (hb_insert t b (i_bel i)) i).
Proof. by split=> //; split=> // s Ns; rewrite /bel_at /= get_ins; case: Z.eqb_spec. Qed.
Lemma sbt_set t j X (i : inst) : same_but_t t i (with_ccf (ccf_set j t X (i_ccf i)) i).
Proof. by split=> //; split=> // k s Ns; rewrite -!fac_ccf_at /= fac_set; case: (Z.eqb_spec s t) => //; rewrite andbF. Qed.
Lemma near_set t ids I J X (d d' : dict) : List.In I ids -> List.In J ids -> set_Sigma_IJ I J X t d = Ok d' -> near t ids d d'.
Proof.
move=> HI HJ; rewrite /set_Sigma_IJ; case: Nat.ltb.
  case E1: mod_inst => [d1|e|e] //= E2; apply: near_trans (near_mod HI E1 _) (near_mod HJ E2 _) => i i' [<-]; exact: sbt_set.
case E1: mod_inst => [d1|e|e] //= E2; apply: near_trans (near_mod HJ E1 _) (near_mod HI E2 _) => i i' [<-]; exact: sbt_set.
Qed.
Lemma near_row Sg I di row t ids (us : list (nat * belief)) : List.In I ids -> List.incl (List.map fst us) ids -> forall col (d d' : dict),
  split_row Sg I di row col us t d = Ok d' -> near t ids d d'.
Proof.
move=> HI; elim: us => [|[J b] us IH] /= H c d d'; first by case=> <-; exact: near_refl.
case: dblock => //= X; case E: set_Sigma_IJ => [d1|e|e] //= E2.
apply: near_trans (near_set HI (H J _) E) (IH _ _ _ _ E2); first by left.
by move=> x Hx; apply: H; right.
Qed.
Lemma near_rows Sg t ids (us : list (nat * belief)) : List.incl (List.map fst us) ids -> forall row (d d' : dict),
  split_rows Sg row us t d = Ok d' -> near t ids d d'.
Proof.
elim: us => [//|[J b] us IH] /= H row d d'; case: us IH H => [_ _ [<-]|e us IH H]; first exact: near_refl.
case E: split_row => [d1|x|x] //= E2.
have H2 : List.incl (List.map fst (e :: us)) ids by move=> x Hx; apply: H; right.
by apply: near_trans (near_row _ H2 E) (IH H2 _ _ _ E2); apply: H; left.
Qed.
Lemma near_fold {X} (f : dict * X -> nat * belief -> outcome (dict * X)) t ids (bs : list (nat * belief)) :
  (forall s e s', List.In e bs -> f s e = Ok s' -> near t ids (fst s) (fst s')) -> forall s s', ofold f s bs = Ok s' -> near t ids (fst s) (fst s').
Proof.
elim: bs => [|e bs IH] H s s' /=; first by case=> <-; exact: near_refl.
case E: (f s e) => [s1|x|x] //= E2.
apply: near_trans (H _ _ _ _ E) (IH _ _ _ E2); first by left.
by move=> a b c Hin; apply: H; right.
Qed.
Lemma near_write Sg dx (bs : list (nat * belief)) t (d d' : dict) : write_joint junk Sg dx bs t d = Ok d' -> near t (List.map fst bs) d d'.
Proof.
rewrite /write_joint; case E1: apply_corrections => [d1|x|x] //=; case E2: split_right_upper => [d2|x|x] //= E3.
have N1 : near t (List.map fst bs) d d1.
  move: E1; rewrite /apply_corrections; case E: ofold => [[d0 r]|x|x] //= [<-].
  apply: (near_fold (s := (d, 0%N)) (s' := (d0, r)) _ E) => [[x r1] e [x' r2] Hin] /=; case: ifP => [_|_ [<- _]]; [|exact: near_refl].
  case: dblock => //= A; case M: mod_inst => [d3|y|y] //= [<- _].
  apply: (near_mod _ M); first by apply: List.in_map.
  by move=> i i'; rewrite /ccf_correct; case: dinv => //= iv; case: dmul => //= L; case Ec: ccf_scale => [c|y|y] //= [<-]; exact: (sbt_scale Ec).
have N2 : near t (List.map fst bs) d1 d2.
  apply: (near_rows _ E2) => x /List.in_map_iff [e [<- /List.filter_In [Hin _]]]; exact: List.in_map.
have N3 : near t (List.map fst bs) d2 d'.
  move: E3; rewrite /correct_beliefs; case E: ofold => [[d0 r]|x|x] //= [<-].
  apply: (near_fold (s := (d2, 0%N)) (s' := (d0, r)) _ E) => [[x r1] e [x' r2] Hin] /=; case: ifP => [_|_ [<- _]]; [|exact: near_refl].
  case: dblock => //= A; case: dblock => //= v; case: bel_correct => //= b'; case M: mod_inst => [d3|y|y] //= [<- _].
  apply: (near_mod _ M); first by apply: List.in_map.
  by move=> i i' [<-]; exact: sbt_bel.
exact: near_trans (near_trans N1 N2) N3.
Qed.

Variable is_psd : dmat -> bool.
Variable nearest : dmat -> dmat.
Variable predict : nat -> Z -> inst -> outcome (inst * bool).
Variable eps0 : F.
(** collecting the participants' beliefs changes only participants that have no belief at t *)
Lemma dict_bel_frame t ids : forall (d d' : dict) acc bs, get_dict_bel_loop predict ids t d acc = Ok (d', bs) ->
  (forall id, ~ List.In id ids -> d_find id d' = d_find id d) /\
  (forall id i, d_find id d = Some i -> bel_at t i <> None -> d_find id d' = Some i) /\
  (forall id, List.In id (List.map fst bs) -> List.In id ids \/ List.In id (List.map fst acc)).
Proof.
elim: ids => [|x ids IH] d d' acc bs /=; first by case=> <- <-; split=> //; split=> // id; right.
rewrite /at_inst; case G: (d_find x d) => [ix|//]; case E: belief_or_predict => [[i' ob]|e|e] //=.
have K : bel_at t ix <> None -> i' = ix.
  move: E; rewrite /belief_or_predict /bel_at; case Ex: exist_at_t; first by case.
  have -> // : get_at_t t (i_bel ix) = None.
  by case Gt: get_at_t => [b|] //; move: Ex; rewrite (proj2 (exist_at_iff _ _)) //; exists b; exact: (get_at_In _ _ _ Gt).
have FD id : d_find id (d_upd x i' d) = if (id =? x)%nat then Some i' else d_find id d by rewrite find_upd G.
have ins k (v : belief) l id : List.In id (List.map fst (smap_insert k v l)) -> id = k \/ List.In id (List.map fst l).
  elim: l => [|[a w] l IHl] /=; first by case=> [->|//]; left.
  case: ifP => _ /=; first by case=> [->|[->|H]]; [left|right; left|right; right].
  by case: ifP => _ /= [->|H]; [right; left|right; right|right; left|case: (IHl H) => ?; [left|right; right]].
case: ob E => [b|] E.
  move=> /IH [A [B C]]; split; last split.
  - by move=> id H; rewrite A ?FD; [case: Nat.eqb_spec => // E'; case: H; left|move=> H'; apply: H; right].
  - move=> id i Gi Hi; apply: B => //; rewrite FD; case: Nat.eqb_spec => // E'; subst id.
    by move: Gi; rewrite G => -[E']; subst i; rewrite K.
  - by move=> id /C [H|/ins [->|H]]; [left; right|left; left|right].
case=> <- <-; split; last split=> //.
- by move=> id H; rewrite FD; case: Nat.eqb_spec => // E'; case: H; left.
- move=> id i Gi Hi; rewrite FD; case: Nat.eqb_spec => // E'; subst id.
  by move: Gi; rewrite G => -[E']; subst i; rewrite K.
Qed.

(** * C57 *)
(** whatever the participants, matrices and the user's predict_to are: if apply_observation returns, then nothing of a
    non-participant has changed; of a participant that has a belief at t only what is stored at t may have changed, and
    nothing at all if the observation was not applied *)
Definition touched (t : Z) (ids : list nat) (d d' : dict) (applied : bool) : Prop :=
  (forall id, ~ List.In id ids -> d_find id d' = d_find id d) /\
  (forall id i, d_find id d = Some i -> bel_at t i <> None -> exists i', d_find id d' = Some i' /\ same_but_t t i i') /\
  (applied = false -> forall id i, d_find id d = Some i -> bel_at t i <> None -> d_find id d' = Some i).
Lemma touched_of t ids (d d0 d' : dict) bs b : get_dict_bel predict ids t d = Ok (d0, bs) ->
  (b = true -> near t (List.map fst bs) d0 d') -> (b = false -> d' = d0) -> touched t ids d d' b.
Proof.
move=> /dict_bel_frame [A [B C]] N E.
have N' : near t (List.map fst bs) d0 d' by case: b N E => [N _|_ ->] //; [exact: N|exact: near_refl].
split; last split.
- move=> id H; have [X _] := N' id; rewrite X ?A // => /C [|//]; exact: H.
- move=> id i G Hi; have [_ [X _]] := N' id; exact: X (B _ _ G Hi).
- by move=> /E -> id i G Hi; exact: B.
Qed.
Lemma touched_joint H R r bs Sg t cfg (d d' : dict) b : joint_update junk is_psd nearest eps0 H R r bs Sg t cfg d = Ok (d', b) ->
  (b = true -> near t (List.map fst bs) d d') /\ (b = false -> d' = d).
Proof.
rewrite /joint_update; case: stabilize_covariance => //= S; case: correction_step => //= res; case: ifP => _; last by case=> <- <-.
by case E: write_joint => [d1|e|e] //= [<- <-]; split=> // _; exact: near_write E.
Qed.
Theorem C57_residual : forall dH R r t cfg (d d' : dict) applied,
  apply_observation_r junk is_psd nearest predict eps0 dH R r t cfg d = Ok (d', applied) -> touched t (List.map fst dH) d d' applied.
Proof.
move=> dH R r t cfg d d' b; rewrite /apply_observation_r; case: stack_H => //= H; case E: get_dict_bel => [[d0 bs]|e|e] //=.
case: bs E => [|e bs] E; first by case=> <- <-; exact: touched_of E _ _.
by case: stack_Sigma => //= S /touched_joint [X1 X2]; exact: touched_of E X1 X2.
Qed.
Theorem C57_measurement : forall dH z R t cfg (d d' : dict) applied,
  apply_observation_z junk is_psd nearest predict eps0 dH z R t cfg d = Ok (d', applied) -> touched t (List.map fst dH) d d' applied.
Proof.
move=> dH z R t cfg d d' b; rewrite /apply_observation_z; case: stack_H => //= H; case E: get_dict_bel => [[d0 bs]|e|e] //=.
case: bs E => [|e bs] E; first by case=> <- <-; exact: touched_of E _ _.
by case: stack_mean => //= m; case: stack_Sigma => //= S; case: dmul => //= hm; case: dsub => //= r /touched_joint [X1 X2]; exact: touched_of E X1 X2.
Qed.
End C57.

Section C38.
Variable F : realFieldType.
Notation dmat := (dmat F).
Notation belief := (belief F).
Notation dict := (dict belief dmat).
(** the participants in the order of the std::map, without the fixed ones *)
Definition free (bs : list (nat * belief)) : list (nat * belief) := List.filter (fun e => ~~ b_fixed (snd e)) bs.
Definition sizes (us : list (nat * belief)) : seq nat := List.map (fun e => drows (b_Sigma (snd e))) us.
Definition ascending (us : list (nat * belief)) : Prop := forall k l i j bi bj,
  List.nth_error us k = Some (i, bi) -> List.nth_error us l = Some (j, bj) -> (k < l)%N -> (i < j)%N.
Definition zero_if_none (m n : nat) (X : dmat) : dmat := if dsize X != 0%N then X else dzero F m n.
Lemma asc_idk us : ascending us -> forall k l, (k < l)%N -> (l < seq.size us)%N -> (idk us k < idk us l)%N.
Proof.
move=> A k l L Hl; have [bl El] := nth_idk Hl; have [bk Ek] := nth_idk (ltn_trans L Hl).
exact: A Ek El L.
Qed.
(** * C38, any number of participants: stacking *)
Theorem C38_stack_n : forall (bs : list (nat * belief)) t (d : dict), let us := free bs in let ds := sizes us in
  ascending us -> (forall i b, List.In (i, b) us -> dtr (b_Sigma b) = b_Sigma b) ->
  (forall k l i j bi bj, List.nth_error us k = Some (i, bi) -> List.nth_error us l = Some (j, bj) -> (k < l)%N ->
     exists X, get_Sigma_IJ i j t d = Ok X /\ (dsize X = 0%N \/ drows X = dim_k ds k /\ dcols X = dim_k ds l)) ->
  exists A : 'M[F]_(sumn ds), stack_Sigma bs t d = Ok (DM A) /\ symmetric A /\
    (forall k i b, List.nth_error us k = Some (i, b) -> blk ds (DM A) k k = Ok (b_Sigma b)) /\
    (forall k l i j bi bj X, List.nth_error us k = Some (i, bi) -> List.nth_error us l = Some (j, bj) -> (k < l)%N ->
       get_Sigma_IJ i j t d = Ok X -> let Y := zero_if_none (dim_k ds k) (dim_k ds l) X in
       blk ds (DM A) k l = Ok Y /\ blk ds (DM A) l k = Ok (dtr Y)).
Proof.
move=> bs t d us ds A Sy Cr.
have SN k : (k < seq.size us)%N -> exists b, List.nth_error us k = Some (idk us k, b) /\ dblk us k = b_Sigma b.
  by move=> Hk; have [b E] := nth_idk Hk; exists b; split=> //; have [_ [_ [_ [-> _]]]] := dim_rows E.
have [||M [E [S B]]] := stack_spec (t := t) (d := d) (asc_idk A).
- by move=> k /SN [b [Eb ->]]; apply: (Sy (idk us k)); exact: (List.nth_error_In _ _ Eb).
- move=> k l L Hl; have [bk [Ek _]] := SN _ (ltn_trans L Hl); have [bl [El _]] := SN _ Hl; exact: Cr Ek El L.
exists M; split=> //; split=> //; split.
  move=> k i b Ek; have [_ [_ [Ik [Dk Lk]]]] := dim_rows Ek; by rewrite B // /tblk eqxx Dk.
move=> k l i j bi bj X Ek El L EX Y; have [_ [_ [Ik [_ Lk]]]] := dim_rows Ek; have [_ [_ [Il [_ Ll]]]] := dim_rows El.
have Nkl : (k == l) = false by apply/negbTE; rewrite neq_ltn L.
have EY : xblk us t d k l = Y by rewrite /xblk Ik Il EX.
have Nlk : (l == k) = false by rewrite eq_sym.
by split; rewrite B // /tblk ?Nkl ?Nlk; [rewrite L EY|rewrite ltnNge (ltnW L) /= EY].
Qed.
(** * C38, any number of participants: splitting *)
Theorem C38_split_n : forall (bs : list (nat * belief)) t (d : dict) (S : dmat), let us := free bs in let ds := sizes us in
  ascending us -> us <> nil -> drows S = sumn ds -> dcols S = sumn ds ->
  (forall i b, List.In (i, b) us -> d_find i d <> None /\ (0 < drows (b_Sigma b))%N) ->
  exists d', split_right_upper S bs t d = Ok d' /\
    (forall k l i j bi bj, List.nth_error us k = Some (i, bi) -> List.nth_error us l = Some (j, bj) -> (k < l)%N ->
       get_Sigma_IJ i j t d' = blk ds S k l /\ get_Sigma_IJ j i t d' = (let! B := blk ds S k l in Ok (dtr B))) /\
    (forall id s, bel_of d' id s = bel_of d id s) /\
    (forall i j s, ~ (s = t /\ List.In i (List.map fst us) /\ List.In j (List.map fst us)) -> get_Sigma_IJ i j s d' = get_Sigma_IJ i j s d).
Proof.
move=> bs t d S us ds A Nu RS CS Reg.
have Xi k : (k < seq.size us)%N -> exists b, List.nth_error us k = Some (idk us k, b) by exact: nth_idk.
have Rg k : (k < seq.size us)%N -> d_find (idk us k) d <> None.
  by move=> /Xi [b Eb]; have [] := Reg _ _ (List.nth_error_In _ _ Eb).
have [d' [E [[K [B [N En]]] [P Fr]]]] := split_rows_spec t (conj RS CS : sq ds S) (asc_idk A) (erefl : us = [::] ++ us) Nu Rg.
exists d'; split; first by rewrite /= off0 in E.
split; last split=> //.
  move=> k l i j bi bj Ek El L; have [_ [Dk [Ik [_ Lk]]]] := dim_rows Ek; have [_ [Dl [Il [_ Ll]]]] := dim_rows El.
  have [M [EM [F1 F2]]] := P k l (leq0n _) L Ll; rewrite Ik Il in F1 F2.
  have Sq : sq ds S by split.
  have Lk' : (k < seq.size ds)%N by rewrite /ds dims_size.
  have Ll' : (l < seq.size ds)%N by rewrite /ds dims_size.
  have [RM [CM _]] := blk_entry Sq Lk' Ll' EM.
  have Hij : (i < j)%N by exact: A Ek El L.
  have dk0 : (0 < dim_k ds k)%N by rewrite -Dk; have [] := Reg _ _ (List.nth_error_In _ _ Ek).
  have dl0 : (0 < dim_k ds l)%N by rewrite -Dl; have [] := Reg _ _ (List.nth_error_In _ _ El).
  have Gi : d_find i d' <> None by rewrite -N; have [] := Reg _ _ (List.nth_error_In _ _ Ek).
  have Gj : d_find j d' <> None by rewrite -N; have [] := Reg _ _ (List.nth_error_In _ _ El).
  case Ei: (d_find i d') Gi => [ii|//] _; case Ej: (d_find j d') Gj => [jj|//] _.
  have L1 : (i <? j)%nat = true by apply/Nat.ltb_lt; apply/ltP.
  have L2 : (j <? i)%nat = false by apply/Nat.ltb_ge; apply/leP; exact: ltnW.
  rewrite (get_SigmaE _ Ei Ej) (get_SigmaE _ Ej Ei) F1 F2 EM L1 L2; cbv zeta; rewrite /odflt /oapp /eyeI.
  have -> : dsize M != 0%N by rewrite /dsize RM CM muln_eq0 negb_or -!lt0n dk0 dl0.
  have -> : dsize (deye F (dcols M) (dcols M)) != 0%N by rewrite /dsize /= CM muln_eq0 negb_or -!lt0n dl0.
  rewrite /= deye_square /dtr /= trmx1 -/(dtr M).
  by case: M {EM F1 F2 RM CM} => p q M; rewrite /= dmul_ok mulmx1.
move=> i j s H.
have Hr k : (k < seq.size us)%N -> List.In (idk us k) (List.map fst us).
  by move=> /Xi [b Eb]; apply/List.in_map_iff; exists (idk us k, b); split=> //; exact: (List.nth_error_In _ _ Eb).
apply: get_Sigma_ext; [by split=> /N|by split=> /N| |]; apply: Fr => -[Es [p [q [_ [Hp [_ [Hq [_ [Ei Ej]]]]]]]]]; apply: H; subst; split=> //; split; exact: Hr.
Qed.
End C38.
Print Assumptions C57_residual.
Print Assumptions C57_measurement.
Print Assumptions C38_stack_n.
Print Assumptions C38_split_n.
