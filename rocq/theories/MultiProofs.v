(** The collaborative handler with several agents: its registry and the other agents' registries together behave as one. *)
From Coq Require Import ZArith List Bool Arith Lia.
From mathcomp Require Import all_ssreflect all_algebra.
From Verif Require Import Outcome DoubleModel BufModel BufProofs HorizonModel HorizonProofs MeasModel HandlerModel Spec_Handler DMat KFModel Spec_Mat KFProofs BeliefModel EigenModel EigenProofs IsoModel IsoProofs Spec_Joint JointProofs Props_Joint Props_Joint2 IsoTrace DPModel Spec_DP DPProofs HObsModel HObsProofs AgentModel AgentProofs CollabModel CollabProofs MultiModel Spec_Multi.
Set Implicit Arguments. Unset Strict Implicit. Unset Printing Implicit Defensive.
Import Order.Theory GRing.Theory Num.Theory.
Local Open Scope outcome_scope.
Local Open Scope ring_scope.

Section World.
Variable F : realFieldType.
Variable junk : forall n, 'M[F]_n -> 'M[F]_n.
Notation dmat := (dmat F).
Notation belief := (belief F).
Notation dict := (dict belief dmat).
Notation inst := (inst belief dmat).
Notation bels := (list (nat * belief)).
Notation keys m := (List.map fst m).
Notation world := (world F).
Notation w_set_bel := (@w_set_bel F).
Notation w_set_fact := (@w_set_fact F).
Notation w_fact := (@w_fact F).
Notation w_redo := (@w_redo F).
Variable predict : nat -> Z -> inst -> outcome (inst * bool).
(** two outcomes agree: the two registries side by side are the one registry *)
Definition agree {X} (kd kr : list nat) (lg : list (nat * Z)) (o : outcome (dict * world * X)) (u : outcome (dict * X)) : Prop :=
  match o, u with
  | Ok ((d, w), x), Ok (u, y) => u = d ++ fst w /\ x = y /\ keys d = kd /\ keys (fst w) = kr /\ snd w = lg
  | Abort e, Abort e' => e = e'
  | UB e, UB e' => e = e'
  | _, _ => False
  end.
Definition agree0 (kd kr : list nat) (lg : list (nat * Z)) (o : outcome (dict * world)) (u : outcome dict) : Prop :=
  match o, u with
  | Ok (d, w), Ok u => u = d ++ fst w /\ keys d = kd /\ keys (fst w) = kr /\ snd w = lg
  | Abort e, Abort e' => e = e'
  | UB e, UB e' => e = e'
  | _, _ => False
  end.
Lemma mod_cat id f (d dr : dict) : mod_inst id f (d ++ dr) =
  if local id d then let! d' := mod_inst id f d in Ok (d' ++ dr) else let! dr' := mod_inst id f dr in Ok (d ++ dr').
Proof.
rewrite /mod_inst /at_inst /local find_cat; case G: (d_find id d) => [i|].
  by case: (f i) => //= i'; rewrite upd_cat G.
by case: (d_find id dr) => [i|] //; case: (f i) => //= i'; rewrite upd_cat G.
Qed.
Lemma mod_keys id f (d d' : dict) : mod_inst id f d = Ok d' -> keys d' = keys d.
Proof. by rewrite /mod_inst /at_inst; case: d_find => // i; case: (f i) => //= i' [<-]; rewrite upd_keys. Qed.
Lemma local_keys id (d d' : dict) : keys d' = keys d -> local id d' = local id d.
Proof.
by move=> K; rewrite /local; have := find_keys_eq id K; case: (d_find id d') => [x|]; case: (d_find id d) => [y|] // [A B]; [have := B erefl|have := A erefl].
Qed.
Lemma found_keys id (d d' : dict) : keys d' = keys d -> d_find id d <> None -> d_find id d' <> None.
Proof. by move=> K H E; apply: H; apply/(find_keys_eq id K). Qed.

(** ** the beliefs *)
Lemma beliefs_agree t : forall ids (d dr : dict) lg acc, (forall id, List.In id ids -> d_find id (d ++ dr) <> None) ->
  agree (keys d) (keys dr) lg (m_beliefs predict (w_bel predict) ids t (d, (dr, lg)) acc) (get_dict_bel_loop predict ids t (d ++ dr) acc).
Proof.
elim=> [|id ids IH] d dr lg acc R //=; rewrite /at_inst find_cat; have := R id (or_introl erefl); rewrite find_cat.
case G: (d_find id d) => [i|] => [_|].
  case: (belief_or_predict predict id t i) => [[i' [b|]]|e|e] //=; rewrite upd_cat G; last by rewrite upd_keys.
  have -> : keys d = keys (d_upd id i' d) by rewrite upd_keys.
  apply: IH => j Hj; rewrite -(_ : d_upd id i' (d ++ dr) = d_upd id i' d ++ dr); last by rewrite upd_cat G.
  by apply: (found_keys (d := d ++ dr)); [rewrite upd_keys|apply: R; right].
rewrite /w_bel /acc_get_bel /=; case Gr: (d_find id dr) => [i|] // _.
case: (belief_or_predict predict id t i) => [[i' [b|]]|e|e] //=; rewrite upd_cat G; last by rewrite upd_keys.
have -> : keys dr = keys (d_upd id i' dr) by rewrite upd_keys.
apply: IH => j Hj; rewrite -(_ : d_upd id i' (d ++ dr) = d ++ d_upd id i' dr); last by rewrite upd_cat G.
by apply: (found_keys (d := d ++ dr)); [rewrite upd_keys|apply: R; right].
Qed.
(** the dictionary has only IDs that were asked for *)
Lemma beliefs_from t : forall ids (d d' : dict) acc bs, get_dict_bel_loop predict ids t d acc = Ok (d', bs) ->
  forall id, List.In id (keys bs) -> List.In id ids \/ List.In id (keys acc).
Proof.
elim=> [|i ids IH] d d' acc bs /=; first by case=> _ <- id H; right.
rewrite /at_inst; case: d_find => [x|] //; case: (belief_or_predict predict i t x) => [[x' [b|]]|e|e] //=.
  move=> /IH H id /H [Hi|]; first by left; right.
  by move=> Hk; have [->|H'] := keys_ins Hk; [left; left|right].
by case=> _ <-.
Qed.

(** ** the covariance *)
Lemma get_agree I J t (d dr : dict) lg : d_find I (d ++ dr) <> None -> d_find J (d ++ dr) <> None ->
  c_get_Sigma (w_fact (dr, lg)) I J t d = get_Sigma_IJ I J t (d ++ dr).
Proof.
move=> RI RJ; rewrite /get_Sigma_IJ /at_inst; move: RI RJ; case GI: (d_find I (d ++ dr)) => [i|] // _; case GJ: (d_find J (d ++ dr)) => [j|] // _.
have H a b x : d_find a (d ++ dr) = Some x -> match d_find a d with Some i => ccf_get b t (i_ccf i) | None => w_fact (dr, lg) a b t end = ccf_get b t (i_ccf x).
  by rewrite find_cat /w_fact /acc_get_fact /=; case: (d_find a d) => [y [->]|->].
by rewrite /c_get_Sigma (H I J i GI) (H J I j GJ).
Qed.
Lemma ofold_in {S A} (f g : S -> A -> outcome S) l : (forall s a, List.In a l -> f s a = g s a) -> forall s, ofold f s l = ofold g s l.
Proof.
elim: l => [//|a l IH] H s /=; rewrite H; last by left.
by case: (g s a) => //= s'; apply: IH => s0 b Hb; apply: H; right.
Qed.
Lemma stack_agree (bs : bels) t (d dr : dict) lg : (forall id, List.In id (keys bs) -> d_find id (d ++ dr) <> None) ->
  m_stack_Sigma w_fact bs t (d, (dr, lg)) = stack_Sigma bs t (d ++ dr).
Proof.
move=> R; rewrite /m_stack_Sigma /stack_Sigma; congr (obind _ _); apply: ofold_in => s ei Hi; case: ifP => // _.
congr (obind _ _); apply: ofold_in => s' ej Hj; case: ifP => // _; congr (obind _ _).
by rewrite get_agree //; apply: R; apply: List.in_map.
Qed.

(** ** the writes *)
Lemma correct_mod id t Sa Sp (dr : dict) lg : d_find id dr <> None ->
  (w_correct junk) id t Sa Sp (dr, lg) = let! dr' := mod_inst id (fun i => let! c := ccf_correct junk t Sa Sp (i_ccf i) in Ok (with_ccf c i)) dr in Ok (dr', lg).
Proof.
rewrite /w_correct /acc_correct /mod_inst /at_inst /ccf_correct /=; case: (d_find id dr) => [i|] // _.
by case: (dinv junk Sa) => //= x; case: (dmul Sp x) => //= y; case: (ccf_scale t t y (i_ccf i)).
Qed.
Definition cstep (S : dmat) (t : Z) (s : dict * nat) (e : nat * belief) : outcome (dict * nat) :=
  let di := bel_dim (snd e) in
  let! Sii := dblock S (snd s) (snd s) di di in
  let! d := mod_inst (fst e) (fun i => let! c := ccf_correct junk t (b_Sigma (snd e)) Sii (i_ccf i) in Ok (with_ccf c i)) (fst s) in
  Ok (d, (snd s + di)%nat).
Lemma corrections_agree S t (bs : bels) (d dr : dict) lg : (forall id, List.In id (keys bs) -> d_find id (d ++ dr) <> None) ->
  List.Forall (fun e => b_fixed (snd e) = false) bs ->
  agree0 (keys d) (keys dr) lg (m_corrections junk (w_correct junk) S bs t (d, (dr, lg))) (apply_corrections junk S bs t (d ++ dr)).
Proof.
move=> R Nf; rewrite /m_corrections /apply_corrections.
set f := (fun a e => _); rewrite (_ : ofold _ (d ++ dr, 0%N) bs = ofold (cstep S t) (d ++ dr, 0%N) bs); last first.
  by apply: ofold_in => s e He; have /List.Forall_forall /(_ e He) -> := Nf.
suff H : forall bs row (d dr : dict), (forall id, List.In id (keys bs) -> d_find id (d ++ dr) <> None) ->
   agree (keys d) (keys dr) lg (ofold f (d, (dr, lg), row) bs) (ofold (cstep S t) (d ++ dr, row) bs).
  have := H bs 0%N d dr R; case: (ofold f _ _) => [[[d' [dr' lg']] n]|e|e]; case: (ofold (cstep S t) _ _) => [[u n']|e'|e'] //=.
  by case=> -> [_ [-> [-> ->]]].
move=> {Nf R bs d dr}; elim=> [|e bs IH] row d dr R; first by [].
rewrite -[ofold f _ _]/(obind (f (d, (dr, lg), row) e) (fun s => ofold f s bs)).
rewrite -[ofold (cstep S t) _ _]/(obind (cstep S t (d ++ dr, row) e) (fun s => ofold (cstep S t) s bs)).
rewrite {1}/f {1}/cstep [snd _]/= [fst _]/=; case: (dblock S row row _ _) => [Sii|?|?] //; cbn [obind].
rewrite mod_cat; have := R _ (or_introl erefl); rewrite find_cat /local [(d, (dr, lg)).1]/=; case G: (d_find (fst e) d) => [i|] => [_|Rr].
  case Em: (mod_inst _ _ _) => [d'|?|?] //=; have K := mod_keys Em; rewrite -K; apply: IH => id Hid.
  by apply: (found_keys (d := d ++ dr)); [rewrite !List.map_app K|apply: R; right].
rewrite correct_mod //; case Em: (mod_inst _ _ dr) => [dr'|?|?] //=; have K := mod_keys Em; rewrite -K; apply: IH => id Hid.
by apply: (found_keys (d := d ++ dr)); [rewrite !List.map_app K|apply: R; right].
Qed.
Lemma set_agree I J S t (d dr : dict) lg : d_find I (d ++ dr) <> None -> d_find J (d ++ dr) <> None ->
  agree0 (keys d) (keys dr) lg (m_set_Sigma w_set_fact I J S t (d, (dr, lg))) (set_Sigma_IJ I J S t (d ++ dr)).
Proof.
pose set1 a b m (d : dict) := mod_inst a (fun i => Ok (with_ccf (ccf_set b t m (i_ccf i)) i)) d.
pose two a b m b' a' m' := (let! s := c_set_fact a b m t (d, nil) in c_set_fact b' a' m' t s).
have H a b m m' : d_find a (d ++ dr) <> None -> d_find b (d ++ dr) <> None ->
  agree0 (keys d) (keys dr) lg (let! (d1, sent) := two a b m b a m' in let! w := ofold (fun w x => let '(a, b, X) := x in w_set_fact a b X t w) (dr, lg) sent in Ok (d1, w))
    (let! u := set1 a b m (d ++ dr) in set1 b a m' u).
  move=> Ra Rb; rewrite /two /set1 /c_set_fact /mod_inst /at_inst /=; move: Ra; rewrite find_cat.
  have Kb i : local b (d_upd a i d) = local b d by apply: local_keys; rewrite upd_keys.
  case Ga: (d_find a d) => [i|] => [_|Ra].
    cbn [obind]; rewrite upd_cat Ga find_cat; have := Kb (with_ccf (ccf_set b t m (i_ccf i)) i); rewrite /local.
    move: Rb; rewrite find_cat; case Gb: (d_find b d) => [j|]; case G': (d_find b (d_upd a _ d)) => [j'|] // Rb _.
      by cbn [obind]; rewrite upd_cat G' /= !upd_keys.
    move: Rb; case Gr: (d_find b dr) => [j|] // _; cbn [obind ofold]; rewrite /w_set_fact /acc_set_fact /= Gr /= upd_cat G'.
    by rewrite !upd_keys.
  move: Ra; case Gr: (d_find a dr) => [i|] // _; cbn [obind]; rewrite upd_cat Ga find_cat /=.
  move: Rb; rewrite find_cat; case Gb: (d_find b d) => [j|] => [_|Rb].
    by cbn [obind ofold]; rewrite /w_set_fact /acc_set_fact /= Gr /= upd_cat Gb !upd_keys.
  have := Rb; move/(@found_keys b dr (d_upd a (with_ccf (ccf_set b t m (i_ccf i)) i) dr)); rewrite upd_keys => /(_ erefl).
  case G'': (d_find b (d_upd a _ dr)) => [j|] // _; cbn [obind ofold]; rewrite /w_set_fact /acc_set_fact /= Gr /= G'' /= upd_cat Gb.
  by rewrite !upd_keys.
move=> RI RJ; rewrite /m_set_Sigma /set_Sigma_IJ /c_set_Sigma /=; case: Nat.ltb; exact: H.
Qed.
Lemma agree0_bind kd kr lg (o : outcome (dict * world)) (u : outcome dict) f g : agree0 kd kr lg o u ->
  (forall d dr, keys d = kd -> keys dr = kr -> agree0 kd kr lg (f (d, (dr, lg))) (g (d ++ dr))) -> agree0 kd kr lg (obind o f) (obind u g).
Proof.
case: o => [[d [dr l]]|e|e]; case: u => [u'|e'|e'] //= H G; case: H => -> [Kd [Kr ->]]; exact: G.
Qed.
Lemma reg_keys (d dr d' dr' : dict) (ids : list nat) : keys d' = keys d -> keys dr' = keys dr ->
  (forall id, List.In id ids -> d_find id (d ++ dr) <> None) -> forall id, List.In id ids -> d_find id (d' ++ dr') <> None.
Proof. by move=> Kd Kr R id H; apply: (found_keys (d := d ++ dr)); [rewrite !List.map_app Kd Kr|exact: R]. Qed.
Lemma split_row_agree S I di t : forall rest row col (d dr : dict) lg, d_find I (d ++ dr) <> None -> (forall id, List.In id (keys rest) -> d_find id (d ++ dr) <> None) ->
  agree0 (keys d) (keys dr) lg (m_split_row w_set_fact S I di row col rest t (d, (dr, lg))) (split_row S I di row col rest t (d ++ dr)).
Proof.
elim=> [|[J b] rest IH] row col d dr lg RI R //=; case: (dblock S row col di _) => [B|?|?] //; cbn [obind].
apply: agree0_bind => [|d' dr' Kd Kr]; first by apply: set_agree => //; apply: R; left.
rewrite -Kd -Kr; apply: IH; first by apply: (found_keys (d := d ++ dr)) => //; rewrite !List.map_app Kd Kr.
by apply: (reg_keys Kd Kr) => id H; apply: R; right.
Qed.
Lemma split_rows_agree S t : forall us row (d dr : dict) lg, (forall id, List.In id (keys us) -> d_find id (d ++ dr) <> None) ->
  agree0 (keys d) (keys dr) lg (m_split_rows w_set_fact S row us t (d, (dr, lg))) (split_rows S row us t (d ++ dr)).
Proof.
elim=> [//|[I b] us IH] row d dr lg R; case: us IH R => [//|[J c] us] IH R.
rewrite -[split_rows _ _ _ _ _]/(let! u := split_row S I (bel_dim b) row (row + bel_dim b) ((J, c) :: us) t (d ++ dr) in split_rows S (row + bel_dim b) ((J, c) :: us) t u).
rewrite -[m_split_rows _ _ _ _ _ _]/(let! s := m_split_row w_set_fact S I (bel_dim b) row (row + bel_dim b) ((J, c) :: us) t (d, (dr, lg)) in m_split_rows w_set_fact S (row + bel_dim b) ((J, c) :: us) t s).
apply: agree0_bind => [|d' dr' Kd Kr].
  by apply: split_row_agree => [|id H]; apply: R; [left|right].
by rewrite -Kd -Kr; apply: IH; apply: (reg_keys Kd Kr) => id H; apply: R; right.
Qed.

(** the corrected beliefs *)
Definition put (t : Z) (d : dict) (out : bels) (dr : dict) : dict :=
  List.fold_left (fun dr e => if local (fst e) d then dr else fst (acc_set_bel (fst e) (snd e) t dr)) out dr.
Lemma put_keys t d : forall out dr, keys (put t d out dr) = keys dr.
Proof.
elim=> [//|e out IH] dr; rewrite /= -/(put t d out _) IH; case: local => //.
by rewrite /acc_set_bel; case: d_find => // i; rewrite upd_keys.
Qed.
Lemma put_local t (d d' : dict) : keys d' = keys d -> forall out dr, put t d' out dr = put t d out dr.
Proof. by move=> K; elim=> [//|e out IH] dr /=; rewrite (local_keys _ K) IH. Qed.
Definition mstep (S dx : dmat) (t : Z) (s : dict * bels * nat) (e : nat * belief) : outcome (dict * bels * nat) :=
  let di := bel_dim (snd e) in
  let! Sii := dblock S (snd s) (snd s) di di in
  let! v := dblock dx (snd s) 0 di 1 in
  let! b' := bel_correct v Sii (snd e) in
  let! d := (if local (fst e) (fst (fst s)) then mod_inst (fst e) (fun i => Ok (with_bel (hb_insert t b' (i_bel i)) i)) (fst (fst s)) else Ok (fst (fst s))) in
  Ok ((d, snd (fst s) ++ [:: (fst e, b')]), (snd s + di)%nat).
Definition bstep (S dx : dmat) (t : Z) (s : dict * nat) (e : nat * belief) : outcome (dict * nat) :=
  let di := bel_dim (snd e) in
  let! Sii := dblock S (snd s) (snd s) di di in
  let! v := dblock dx (snd s) 0 di 1 in
  let! b' := bel_correct v Sii (snd e) in
  let! d := mod_inst (fst e) (fun i => Ok (with_bel (hb_insert t b' (i_bel i)) i)) (fst s) in
  Ok (d, (snd s + di)%nat).
Definition crel (t : Z) (bs : bels) (d dr : dict) (acc : bels) (o : outcome (dict * bels * nat)) (u : outcome (dict * nat)) : Prop :=
  match o with
  | Ok (d', acc', n) => exists out, acc' = acc ++ out /\ keys out = keys bs /\ keys d' = keys d /\ u = Ok (d' ++ put t d out dr, n)
  | Abort e => u = Abort e
  | UB e => u = UB e
  end.
Lemma correct_loop S dx t : forall bs row (d dr : dict) acc, (forall id, List.In id (keys bs) -> d_find id (d ++ dr) <> None) ->
  crel t bs d dr acc (ofold (mstep S dx t) (d, acc, row) bs) (ofold (bstep S dx t) (d ++ dr, row) bs).
Proof.
elim=> [|e bs IH] row d dr acc R; first by exists nil; rewrite cats0.
rewrite -[ofold (mstep S dx t) _ _]/(obind (mstep S dx t (d, acc, row) e) (fun s => ofold (mstep S dx t) s bs)).
rewrite -[ofold (bstep S dx t) _ _]/(obind (bstep S dx t (d ++ dr, row) e) (fun s => ofold (bstep S dx t) s bs)).
rewrite {1}/mstep {1}/bstep [snd _]/= [fst _]/= [(d, acc).1]/= [(d, acc).2]/=.
case: (dblock S row row _ _) => [Sii|?|?] //; cbn [obind]; case: (dblock dx row 0 _ 1) => [v|?|?] //; cbn [obind].
case: (bel_correct v Sii _) => [b'|?|?] //; cbn [obind]; rewrite mod_cat.
have Re := R _ (or_introl erefl); case L: (local (fst e) d).
  move/localE: (L); rewrite /mod_inst /at_inst; case G: (d_find (fst e) d) => [i|] // _; cbn [obind].
  set d1 := d_upd _ _ _; have K1 : keys d1 = keys d by exact: upd_keys.
  have R1 : forall id, List.In id (keys bs) -> d_find id (d1 ++ dr) <> None by apply: (reg_keys K1 erefl) => id H; apply: R; right.
  have := IH (row + bel_dim (snd e))%N d1 dr (acc ++ [:: (fst e, b')]) R1.
  rewrite /crel; case: (ofold (mstep S dx t) _ _) => [[[d' acc'] n]|?|?] //.
  case=> out [-> [Ko [K' E]]]; exists ((fst e, b') :: out); rewrite -catA /= Ko K' K1; split=> //; split=> //; split=> //.
  by rewrite E L (put_local _ K1).
have Gd : d_find (fst e) d = None by move: L; rewrite /local; case: d_find.
move: Re; rewrite find_cat Gd; rewrite /mod_inst /at_inst; case G: (d_find (fst e) dr) => [i|] // _; cbn [obind].
set dr1 := d_upd _ _ _; have K1 : keys dr1 = keys dr by exact: upd_keys.
have R1 : forall id, List.In id (keys bs) -> d_find id (d ++ dr1) <> None by apply: (reg_keys erefl K1) => id H; apply: R; right.
have := IH (row + bel_dim (snd e))%N d dr1 (acc ++ [:: (fst e, b')]) R1.
rewrite /crel; case: (ofold (mstep S dx t) _ _) => [[[d' acc'] n]|?|?] //.
case=> out [-> [Ko [K' E]]]; exists ((fst e, b') :: out); rewrite -catA /= Ko K'; split=> //; split=> //; split=> //.
by rewrite E L /acc_set_bel G.
Qed.
Lemma find_nodup {V} (l : list (nat * V)) i v : List.NoDup (keys l) -> List.In (i, v) l -> smap_find i l = Some v.
Proof.
elim: l => [//|[k x] l IH] /= D; inversion D as [|? ? N D']; subst; case=> [[-> ->]|H]; first by rewrite Nat.eqb_refl.
by case: (Nat.eqb_spec k i) => [E|_]; [subst; case: N; apply/List.in_map_iff; exists (i, v)|exact: IH].
Qed.
Lemma send_ok t (d : dict) (out : bels) lg : List.NoDup (keys out) -> forall dr,
  m_send w_set_bel (m_remote (keys out) d) t out (dr, lg) = Ok (put t d out dr, lg).
Proof.
move=> D; have : forall e, List.In e out -> smap_find (fst e) out = Some (snd e) by case=> i v; exact: find_nodup.
suff G : forall (l : bels), (forall e, List.In e l -> smap_find (fst e) out = Some (snd e)) -> forall dr,
    m_send w_set_bel (m_remote (keys l) d) t out (dr, lg) = Ok (put t d l dr, lg) by exact: G.
rewrite /m_send /m_remote; elim=> [//|e l IH] H dr /=.
have He := H e (or_introl erefl); have Hl x (Hx : List.In x l) := H x (or_intror Hx).
case: local => /=; first exact: IH.
rewrite He /=; exact: IH.
Qed.
(** ** the update *)
Variable is_psd : dmat -> bool.
Variable nearest : dmat -> dmat.
Variable eps0 : F.
Notation m_update := (m_update junk is_psd nearest eps0 w_set_bel w_set_fact (w_correct junk) w_redo).
Lemma redo_all t ag : forall (dr : dict) lg, ofold (fun w a => w_redo a t w) (dr, lg) ag = Ok (dr, lg ++ [seq (a, t) | a <- ag]).
Proof. by elim: ag => [|a ag IH] dr lg /=; [rewrite cats0|rewrite IH -catA]. Qed.
Lemma update_agree H R r (bs : bels) Sg ag t cfg (d dr d0 : dict) lg : (forall id, List.In id (keys bs) -> d_find id (d ++ dr) <> None) ->
  List.Forall (fun e => b_fixed (snd e) = false) bs -> List.NoDup (keys bs) -> keys d0 = keys d ->
  (forall S', stabilize_covariance Sg eps0 = Ok S' -> is_psd S' = true) ->
  as_one (keys d) (keys dr) (fun b => if b then lg ++ [seq (a, t) | a <- ag] else lg)
    (m_update H R r bs Sg (m_remote (keys bs) d0) ag t cfg (d, (dr, lg))) (joint_update junk is_psd nearest eps0 H R r bs Sg t cfg (d ++ dr)).
Proof.
move=> Rg Nf ND K0 Psd; rewrite /MultiModel.m_update /joint_update.
case E: (stabilize_covariance Sg eps0) => [S'|e|e] //; cbn [obind]; rewrite (Psd _ E).
case: (correction_step junk H R r S' cfg) => [res|e|e] //; cbn [obind]; case: (rejected res) => //=.
set Sp := if _ then _ else _; rewrite /write_joint.
have := corrections_agree Sp t lg Rg Nf.
case: (m_corrections _ _ _ _ _ _) => [[d1 [dr1 l1]]|e|e]; case: (apply_corrections _ _ _ _ _) => [u1|e1|e1] //.
case=> -> [Kd1 [Kr1 /= El]]; subst l1; rewrite /m_split /split_right_upper.
have R1 := reg_keys Kd1 Kr1 Rg.
have FE : List.filter (fun e : nat * belief => ~~ b_fixed (snd e)) bs = bs.
  by elim: (bs) Nf => [//|e l IH] /= N; inversion N as [|? ? E1 E2]; subst; rewrite E1 /= IH.
rewrite FE; have := split_rows_agree Sp t 0 lg R1.
case: (m_split_rows _ _ _ _ _ _) => [[d2 [dr2 l2]]|e|e]; case: (split_rows _ _ _ _ _) => [u2|e1|e1] //.
case=> -> [Kd2 [Kr2 /= El]]; subst l2; have R2 := reg_keys Kd2 Kr2 R1.
rewrite /m_correct /correct_beliefs.
rewrite (_ : ofold _ (d2, nil, 0%N) bs = ofold (mstep Sp (delta_mean res) t) (d2, nil, 0%N) bs); last first.
  by apply: ofold_in => s e He; have /List.Forall_forall /(_ e He) -> := Nf.
rewrite (_ : ofold _ (d2 ++ dr2, 0%N) bs = ofold (bstep Sp (delta_mean res) t) (d2 ++ dr2, 0%N) bs); last first.
  by apply: ofold_in => s e He; have /List.Forall_forall /(_ e He) -> := Nf.
have := correct_loop Sp (delta_mean res) t 0 nil R2; rewrite /crel.
case: (ofold (mstep _ _ _) _ _) => [[[d3 out] n]|e|e]; [|by move=> ->|by move=> ->].
case=> o [-> [Ko [Kd3 ->]]]; cbn [obind]; rewrite cat0s.
have -> : m_remote (keys bs) d0 = m_remote (keys o) d2.
  rewrite -Ko /m_remote; apply: List.filter_ext => id; by rewrite (local_keys id K0) (local_keys id Kd2) (local_keys id Kd1).
rewrite send_ok ?Ko //; cbn [obind]; rewrite redo_all /=; split=> //; split=> //.
by rewrite Kd3 Kd2 Kd1 put_keys Kr2 Kr1.
Qed.
End World.
