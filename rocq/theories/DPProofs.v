(** Lemmas about the DecoupledPropagationHandler: selection matrices, stacking, writing back. *)
From Coq Require Import ZArith List Bool Arith Lia.
From mathcomp Require Import all_ssreflect all_algebra.
From Verif Require Import Outcome DoubleModel BufModel BufProofs HorizonModel HorizonProofs MeasModel HandlerModel Spec_Handler DMat KFModel Spec_Mat KFProofs BeliefModel EigenModel EigenProofs IsoModel IsoProofs Spec_Joint JointProofs Props_Joint Props_Joint2 IsoTrace DPModel Spec_DP.
Set Implicit Arguments. Unset Strict Implicit. Unset Printing Implicit Defensive.
Import GRing.Theory Num.Theory.
Local Open Scope outcome_scope.
Local Open Scope ring_scope.

(** ** blocks as products with selection matrices *)
Section Sel.
Variable F : realFieldType.
Variable ds : seq nat.
Notation N := (sumn ds).
Notation sel := (@sel F ds).
Lemma sel_mul p (A : 'M[F]_(N, p)) k a c : (k < seq.size ds)%N -> (sel k *m A) a c = entry (DM A) (off ds k + a) c.
Proof.
move=> Hk; have Lt : (off ds k + a < N)%N by apply: leq_trans (off_fit Hk); rewrite ltn_add2l.
rewrite mxE (bigD1 (Ordinal Lt)) //= mxE /= eqxx mul1r big1 ?addr0; first by rewrite (entry_in _ Lt (ltn_ord c)); congr (A _ _); apply: val_inj.
by move=> e /eqP Ne; rewrite mxE; case: eqP => [Ee|_]; [case: Ne; apply: val_inj|rewrite mul0r].
Qed.
Lemma sel_mulr p (A : 'M[F]_(p, N)) k a c : (k < seq.size ds)%N -> (A *m (sel k)^T) a c = entry (DM A) a (off ds k + c).
Proof.
move=> Hk; have Lt : (off ds k + c < N)%N by apply: leq_trans (off_fit Hk); rewrite ltn_add2l.
rewrite -[A *m _]trmxK trmx_mul trmxK mxE sel_mul // (entry_in _ Lt (ltn_ord a)) mxE (entry_in _ (ltn_ord a) Lt).
by congr (A _ _); apply: val_inj.
Qed.
Lemma sel_id k : (k < seq.size ds)%N -> sel k *m (sel k)^T = 1%:M.
Proof.
move=> Hk; apply/matrixP => a b; have La : (off ds k + a < N)%N by apply: leq_trans (off_fit Hk); rewrite ltn_add2l.
by rewrite sel_mul // (entry_in _ La (ltn_ord b)) !mxE /= eqn_add2l.
Qed.
Lemma sel_other k l : (k < seq.size ds)%N -> k <> l -> sel k *m (sel l)^T = 0.
Proof.
move=> Hk Nl; apply/matrixP => a b; have La : (off ds k + a < N)%N by apply: leq_trans (off_fit Hk); rewrite ltn_add2l.
rewrite sel_mul // (entry_in _ La (ltn_ord b)) !mxE /=; case: eqP => // E; exfalso.
by have := off_in l (ltn_ord a); rewrite E leq_addr ltn_add2l ltn_ord /= => /esym/eqP.
Qed.
Lemma blkE (A : 'M[F]_N) k l : (k < seq.size ds)%N -> (l < seq.size ds)%N -> blk ds (DM A) k l = Ok (DM (sel k *m A *m (sel l)^T)).
Proof.
move=> Hk Hl; rewrite blk_ok //; congr (Ok (DM _)); apply/matrixP => a b; rewrite mxE sel_mulr //.
have Lb : (off ds l + b < N)%N by apply: leq_trans (off_fit Hl); rewrite ltn_add2l.
by rewrite (entry_in _ (ltn_ord a) Lb) sel_mul //=; congr entry; apply: val_inj.
Qed.
Lemma meanE (mu : 'cV[F]_N) k : (k < seq.size ds)%N -> dblock (DM mu) (off ds k) 0 (dim_k ds k) 1 = Ok (DM (sel k *m mu)).
Proof.
move=> Hk; rewrite dblock_ok //=; last exact: off_fit.
by congr (Ok (DM _)); apply/matrixP => a b; rewrite mxE sel_mul.
Qed.
Lemma colsE m (H : 'M[F]_(m, N)) k : (k < seq.size ds)%N -> dblock (DM H) 0 (off ds k) m (dim_k ds k) = Ok (DM (H *m (sel k)^T)).
Proof.
move=> Hk; rewrite dblock_ok //=; last exact: off_fit.
by congr (Ok (DM _)); apply/matrixP => a b; rewrite mxE sel_mulr.
Qed.
Lemma mean_ext (mu nu : 'cV[F]_N) : (forall k, (k < seq.size ds)%N -> sel k *m mu = sel k *m nu) -> mu = nu.
Proof.
move=> H; apply/matrixP => a b; have [k [x [Hk [Hx Ea]]]] := locate (ltn_ord a).
have /matrixP /(_ (Ordinal Hx) b) := H k Hk; rewrite !sel_mul //= -Ea.
by rewrite !entryE.
Qed.
(** blocks of [only] and [at_block] *)
Lemma only_row k l (Phi : 'M[F]_(dim_k ds k)) : (k < seq.size ds)%N -> (l < seq.size ds)%N -> l <> k -> sel l *m only Phi = sel l.
Proof.
move=> Hk Hl Ne; rewrite /only mulmxDr mulmx1 !mulmxA sel_other // !mul0mx addr0 //.
Qed.
Lemma only_self k (Phi : 'M[F]_(dim_k ds k)) : (k < seq.size ds)%N -> sel k *m only Phi = Phi *m sel k.
Proof. by move=> Hk; rewrite /only mulmxDr mulmx1 !mulmxA sel_id // mul1mx mulmxBl mul1mx addrC subrK. Qed.
Lemma at_self k (Q : 'M[F]_(dim_k ds k)) : (k < seq.size ds)%N -> sel k *m at_block Q *m (sel k)^T = Q.
Proof. by move=> Hk; rewrite /at_block !mulmxA sel_id // mul1mx -mulmxA sel_id // mulmx1. Qed.
Lemma at_other k (Q : 'M[F]_(dim_k ds k)) p q : (p < seq.size ds)%N -> (q < seq.size ds)%N -> p <> k \/ q <> k -> sel p *m at_block Q *m (sel q)^T = 0.
Proof.
move=> Hp Hq [Ne|Ne]; rewrite /at_block.
  by rewrite !mulmxA sel_other // !mul0mx.
rewrite !mulmxA -[_ *m sel k *m _]mulmxA.
have -> : sel k *m (sel q)^T = (sel q *m (sel k)^T)^T by rewrite trmx_mul trmxK.
by rewrite (sel_other Hq Ne) trmx0 mulmx0.
Qed.
End Sel.

(** ** maps: lists in ascending key order *)
Section Maps.
Variable V : Type.
Definition below (k : nat) (l : list (nat * V)) : Prop := forall x w, List.In (x, w) l -> (k < x)%N.
Fixpoint asc (l : list (nat * V)) : Prop := match l with nil => True | (k, _) :: r => below k r /\ asc r end.
Lemma ins_In k v (l : list (nat * V)) x w : ~ List.In k (List.map fst l) -> List.In (x, w) (smap_insert k v l) <-> (x, w) = (k, v) \/ List.In (x, w) l.
Proof.
have E : (x, w) = (k, v) <-> (k, v) = (x, w) by split=> ->.
elim: l => [|[y u] l IH] /= Nk; first by tauto.
case: Nat.ltb => /=; first by tauto.
case: Nat.eqb_spec => [Ek|_] /=; first by case: Nk; left.
have {}IH := IH (fun H => Nk (or_intror H)); by tauto.
Qed.
Lemma ins_asc k v (l : list (nat * V)) : ~ List.In k (List.map fst l) -> asc l -> asc (smap_insert k v l).
Proof.
elim: l => [|[y u] l IH] /= Nk A; first by split.
case: A => By Al; case: (Nat.ltb_spec k y) => L.
  split=> //; move=> x w [[<- _]|/By H]; first by apply/ltP.
  by apply: ltn_trans H; apply/ltP.
case: Nat.eqb_spec => [E|Ne]; first by case: Nk; left.
have Nl : ~ List.In k (List.map fst l) by move=> H; apply: Nk; right.
split; last exact: IH.
by move=> x w /(ins_In _ _ _ Nl) [[-> _]|/By //]; apply/ltP; lia.
Qed.
Lemma asc_ext (l l' : list (nat * V)) : asc l -> asc l' -> (forall x w, List.In (x, w) l <-> List.In (x, w) l') -> l = l'.
Proof.
elim: l l' => [|[k v] l IH] [|[k' v'] l'] //= A A' E.
- by have := proj2 (E k' v') (or_introl erefl).
- by have := proj1 (E k v) (or_introl erefl).
case: A => B A; case: A' => B' A'.
have [Ek Ev] : k = k' /\ v = v'.
  have := (proj1 (E k v)) (or_introl erefl); have := (proj2 (E k' v')) (or_introl erefl).
  case=> [[-> ->] //|H1] [[-> ->] //|H2]; have := B _ _ H1; have := B' _ _ H2 => L1 L2.
  by move: (ltn_trans L1 L2); rewrite ltnn.
subst k' v'; congr cons; apply: IH => // x w; split=> H.
  by have := (proj1 (E x w)) (or_intror H) => -[[Ex _]|//]; have := B _ _ H; rewrite Ex ltnn.
by have := (proj2 (E x w)) (or_intror H) => -[[Ex _]|//]; have := B' _ _ H; rewrite Ex ltnn.
Qed.
Lemma find_In k v (l : list (nat * V)) : List.NoDup (List.map fst l) -> List.In (k, v) l -> smap_find k l = Some v.
Proof.
elim: l => [//|[x w] l IH] /= /List.NoDup_cons_iff [Nx ND] [[-> ->]|H]; first by rewrite Nat.eqb_refl.
case: Nat.eqb_spec => [E|_]; last exact: IH.
by case: Nx; rewrite E; apply/List.in_map_iff; exists (k, v).
Qed.
Lemma find_None k (l : list (nat * V)) : ~ List.In k (List.map fst l) -> smap_find k l = None.
Proof.
elim: l => [//|[x w] l IH] /= H; case: Nat.eqb_spec => [E|_]; first by case: H; left.
by apply: IH => H1; apply: H; right.
Qed.
Lemma find_Some k v (l : list (nat * V)) : smap_find k l = Some v -> List.In (k, v) l.
Proof. by elim: l => [//|[x w] l IH] /=; case: Nat.eqb_spec => [-> [->]|_ /IH H]; [left|right]. Qed.
(** inserting the elements of a list with distinct keys *)
Lemma ins_all (post acc : list (nat * V)) : List.NoDup (List.map fst post) -> (forall k, List.In k (List.map fst post) -> ~ List.In k (List.map fst acc)) -> asc acc ->
  let r := List.fold_left (fun a e => smap_insert (fst e) (snd e) a) post acc in
  asc r /\ forall x w, List.In (x, w) r <-> List.In (x, w) post \/ List.In (x, w) acc.
Proof.
elim: post acc => [|[k v] post IH] acc /= ND Nd A; first by split=> // x w; split; [right|case].
case/List.NoDup_cons_iff: ND => Nk ND.
have Na : ~ List.In k (List.map fst acc) by apply: Nd; left.
case: (IH (smap_insert k v acc)) => //.
- move=> x Hx /List.in_map_iff [[y w] [/= Ey /(ins_In _ _ _ Na) [[E1 _]|H]]]; first by apply: Nk; rewrite -E1 Ey.
  by apply: (Nd x (or_intror Hx)); apply/List.in_map_iff; exists (y, w).
- exact: ins_asc.
move=> A' E; split=> // x w; rewrite E (ins_In _ _ _ Na); split; first by case=> [H|[->|H]]; [left; right|left; left|right].
by case=> [[->|H]|H]; [right; left|left|right; right].
Qed.
End Maps.

(** ** stacking over all instances *)
Section StackD.
Variable F : realFieldType.
Notation dmat := (dmat F).
Notation belief := (belief F).
Variables (dH : list (nat * dmat)) (bs : list (nat * belief)) (m : nat).
Notation ds := (dims bs).
Definition given (e : nat * belief) : dmat := if smap_find (fst e) dH is Some X then X else dzero F m (bel_dim (snd e)).
Hypothesis givenD : forall e, List.In e bs -> drows (given e) = m /\ dcols (given e) = bel_dim (snd e).
Notation hblk A k := (dblock A 0 (off ds k) m (dim_k ds k)).
Definition bodyD (rows : nat) (s : dmat * nat) (e : nat * nat) : outcome (dmat * nat) :=
  let! H := (match smap_find (fst e) dH with Some X => dset_block (fst s) 0 (snd s) rows (snd e) X | None => Ok (fst s) end) in
  Ok (H, (snd s + snd e)%nat).
Definition dimlist (l : list (nat * belief)) : list (nat * nat) := List.map (fun e => (fst e, bel_dim (snd e))) l.
Lemma runD : forall post pre (A : dmat), bs = pre ++ post -> drows A = m -> dcols A = sumn ds ->
  (forall k, (seq.size pre <= k)%N -> (k < seq.size ds)%N -> hblk A k = Ok (dzero F m (dim_k ds k))) ->
  exists C, ofold (bodyD m) (A, off ds (seq.size pre)) (dimlist post) = Ok (C, sumn ds) /\ drows C = m /\ dcols C = sumn ds /\
    (forall k, (k < seq.size pre)%N -> hblk C k = hblk A k) /\
    (forall pre1 e post1, bs = pre1 ++ e :: post1 -> (seq.size pre <= seq.size pre1)%N -> hblk C (seq.size pre1) = Ok (given e)).
Proof.
elim=> [|e post IH] pre A Ee RA CA Z.
  rewrite cats0 in Ee; exists A; split; first by rewrite -Ee /= -(off_end ds) dims_size.
  split=> //; split=> //; split=> // pre1 e post1 E1; rewrite -Ee E1 size_cat /= addnS => L; exfalso.
  by move: (leq_ltn_trans (leq_addr (seq.size post1) _) L); rewrite ltnn.
have dc := dims_nth Ee; have [_ [_ Lc]] := nth_pre Ee; rewrite -(dims_size bs) in Lc.
have Hin : List.In e bs by rewrite Ee; apply/List.in_or_app; right; left.
have [Re Ce] := givenD Hin.
have [C [E1 [R1 [C1 B]]]] : exists C, (match smap_find (fst e) dH with Some X => dset_block A 0 (off ds (seq.size pre)) m (bel_dim (snd e)) X | None => Ok A end) = Ok C /\
    drows C = m /\ dcols C = sumn ds /\ forall k, (k < seq.size ds)%N -> hblk C k = if k == seq.size pre then Ok (given e) else hblk A k.
  move: Re Ce; rewrite /given; case: smap_find => [X|] Re Ce; last first.
    exists A; split=> //; split=> //; split=> // k Hk; case: eqP => // Ek; subst k; by rewrite Z // dc.
  have [||||C [E1 [R1 [C1 X1]]]] := @set_block_ok F A X 0 (off ds (seq.size pre)) m (bel_dim (snd e)) => //; rewrite ?add0n ?RA //.
    by rewrite CA -dc; exact: off_fit.
  rewrite RA in R1 X1; rewrite CA in C1 X1; exists C; split=> //; split=> //; split=> // k Hk; have Fk := off_fit Hk.
  have Y a b : (a < m)%N -> (b < dim_k ds k)%N -> entry C a (off ds k + b) = if k == seq.size pre then entry X a (off ds k + b - off ds (seq.size pre)) else entry A a (off ds k + b).
    move=> Ha Hb; rewrite X1 //; last by apply: leq_trans Fk; rewrite ltn_add2l.
    by rewrite /= add0n Ha subn0 -dc /= (off_in (seq.size pre) Hb).
  case: eqP Y => [Ek|_] Y.
    subst k; apply: block_eq => //; rewrite ?R1 ?C1 ?add0n //; first by rewrite Ce dc.
    by move=> a b Ha Hb; rewrite add0n Y // addKn.
  rewrite !dblock_ok ?R1 ?C1 ?RA ?CA ?add0n //; congr (Ok (DM _)); apply/matrixP => a b; rewrite !mxE !add0n Y //.
have := IH (rcons pre e) C; rewrite cat_rcons size_rcons offS dc => /(_ Ee R1 C1) [|C' [E' [R' [C'' [P' Q']]]]].
  by move=> k Lk Hk; rewrite B //; case: eqP => [Ek|_]; [rewrite Ek ltnn in Lk|exact: Z (ltnW Lk) Hk].
exists C'; rewrite /= {1}/bodyD /= E1 /=; split=> //; split=> //; split=> //; split.
  move=> k Hk; rewrite P'; last exact: ltnW.
  rewrite B; last exact: ltn_trans Lc.
  by case: eqP => // Ek; rewrite Ek ltnn in Hk.
move=> pre1 e1 post1 Ee1; case: ltngtP => // [L _|Es _]; first exact: Q' Ee1 L.
have [Ep [Ee' _]] := cat_inj_size (esym Es) (etrans (esym Ee1) Ee); subst pre1 e1.
by rewrite P' // B // eqxx.
Qed.
Lemma stackD : exists A : 'M[F]_(m, sumn ds), ofold (bodyD m) (dzero F m (sumn ds), 0%N) (dimlist bs) = Ok (DM A, sumn ds) /\
  forall k e, List.nth_error bs k = Some e -> hblk (DM A) k = Ok (given e).
Proof.
have [|C [E [R [C1 [_ Q]]]]] := runD (erefl : bs = [::] ++ bs) (erefl : drows (dzero F m (sumn ds)) = m) erefl.
  move=> k _ Hk; rewrite dblock_ok ?add0n //=; last exact: off_fit.
  congr (Ok (DM _)); apply/matrixP => a b; rewrite !mxE add0n.
  have Lb : (off ds k + b < sumn ds)%N by apply: leq_trans (off_fit Hk); rewrite ltn_add2l.
  by rewrite (entry_in _ (ltn_ord a) Lb) mxE.
case: C R C1 E Q => p q C /= R C1; subst p q => E Q; rewrite off0 in E; exists C; split=> // k e /nth_cut [pre [post [Ee <-]]].
exact: (Q _ _ _ Ee (leq0n _)).
Qed.
End StackD.

(** ** the registry as a list of beliefs *)
Section Registry.
Variable F : realFieldType.
Notation dmat := (dmat F).
Notation belief := (belief F).
Notation dict := (dict belief dmat).
Notation inst := (inst belief dmat).
Lemma reg_find (d : dict) e : List.NoDup (List.map fst d) -> List.In e d -> d_find (fst e) d = Some (snd e).
Proof.
elim: d => [//|[k i] d IH] /= /List.NoDup_cons_iff [Nk ND] [<-|H] /=; first by rewrite Nat.eqb_refl.
case: Nat.eqb_spec => [E|_]; last exact: IH.
by case: Nk; rewrite E; apply/List.in_map_iff; exists e.
Qed.
Lemma reg_key (d : dict) id i : d_find id d = Some i -> List.In id (List.map fst d).
Proof. by elim: d => [//|[k x] d IH] /=; case: Nat.eqb_spec => [-> _|_ /IH]; [left|right]. Qed.
Lemma key_reg (d : dict) id : List.In id (List.map fst d) -> exists i, d_find id d = Some i.
Proof.
elim: d => [//|[k x] d IH] /=; case: Nat.eqb_spec => [_ _|Ne [//|/IH H]]; first by exists x.
exact: H.
Qed.
Lemma asc_map {V} (f : nat -> V) (ids : list nat) : (forall k l i j, List.nth_error ids k = Some i -> List.nth_error ids l = Some j -> (k < l)%N -> (i < j)%N) ->
  asc (List.map (fun id => (id, f id)) ids).
Proof.
elim: ids => [//|x ids IH] H /=; split.
  move=> y w /List.in_map_iff [z [[<- _] Hz]]; have [k Ek] := List.In_nth_error _ _ Hz; exact: (H 0%N k.+1 x z).
by apply: IH => k l i j Ek El L; apply: (H k.+1 l.+1).
Qed.
Variable predict : nat -> Z -> inst -> outcome (inst * bool).
Lemma dp_collect t (d : dict) (f : nat -> belief) : forall l acc, (forall id, List.In id l -> bel_of d id t = Some (f id)) ->
  dp_get_dict_bel predict l t d acc = Ok (d, List.fold_left (fun a e => smap_insert (fst e) (snd e) a) (List.map (fun id => (id, f id)) l) acc).
Proof.
elim=> [//|id l IH] acc Hb /=; have := Hb id (or_introl erefl); rewrite /bel_of /at_inst; case G: (d_find id d) => [i|//] Gb.
have Ex : exist_at_t t (i_bel i) = true by apply/exist_at_iff; exists (f id); exact: (get_at_In _ _ _ Gb).
rewrite /belief_or_predict Ex /= -/(bel_at t i) Gb upd_same // IH // => x Hx; apply: Hb; by right.
Qed.
Lemma dp_dimsE (f : nat -> nat) : forall (l : dict) n acc, (forall e, List.In e l -> exists tl b, get_latest (i_bel (snd e)) = Some (tl, b) /\ bel_dim b = f (fst e)) ->
  ofold (fun s (e : nat * inst) => match get_latest (i_bel (snd e)) with
                    | Some (_, b) => Ok ((fst s + bel_dim b)%nat, smap_insert (fst e) (bel_dim b) (snd s))
                    | None => UB NullDeref
                    end) (n, acc) l =
  Ok ((n + sumn (List.map f (List.map fst l)))%N, List.fold_left (fun a e => smap_insert (fst e) (snd e) a) (List.map (fun id => (id, f id)) (List.map fst l)) acc).
Proof.
elim=> [|e l IH] n acc H /=; first by rewrite addn0.
have [tl [b [-> <-]]] := H e (or_introl erefl); rewrite /= IH ?addnA // => x Hx; apply: H; by right.
Qed.
Lemma fold_map {V} (f : nat -> V) (l ids : list nat) : List.NoDup l -> (forall x, List.In x l <-> List.In x ids) ->
  (forall k m i j, List.nth_error ids k = Some i -> List.nth_error ids m = Some j -> (k < m)%N -> (i < j)%N) ->
  List.fold_left (fun a e => smap_insert (fst e) (snd e) a) (List.map (fun id => (id, f id)) l) nil = List.map (fun id => (id, f id)) ids.
Proof.
move=> ND S A.
have ND' : List.NoDup (List.map fst (List.map (fun id => (id, f id)) l)) by rewrite List.map_map List.map_id.
have [A' E] := @ins_all V _ nil ND' (fun k _ => id) I.
refine (asc_ext A' (asc_map _ A) _) => x w; rewrite E !List.in_map_iff; split=> [[[y [<- /S H]]|//]|[y [<- /S H]]]; first by exists y.
by left; exists y.
Qed.
Lemma sum_perm (f : nat -> nat) (l ids : list nat) : List.NoDup l -> List.NoDup ids -> (forall x, List.In x l <-> List.In x ids) ->
  sumn (List.map f l) = sumn (List.map f ids).
Proof.
move=> N1 N2 E; have := Permutation.NoDup_Permutation N1 N2 E.
by elim=> //= [x l1 l2 _ ->|x y l1|l1 l2 l3 _ -> _ ->] //; rewrite !addnA [(f y + _)%N]addnC.
Qed.
Lemma asc_nodup (ids : list nat) : (forall k m i j, List.nth_error ids k = Some i -> List.nth_error ids m = Some j -> (k < m)%N -> (i < j)%N) -> List.NoDup ids.
Proof.
move=> A; apply/List.NoDup_nth_error => k l Hk E.
have [i Ek] : exists i, List.nth_error ids k = Some i by case X: (List.nth_error ids k) => [i|]; [exists i|move/List.nth_error_Some: Hk; rewrite X].
have El : List.nth_error ids l = Some i by rewrite -E.
by case: (ltngtP k l) => // L; [have := A _ _ _ _ Ek El L|have := A _ _ _ _ El Ek L]; rewrite ltnn.
Qed.
End Registry.

Lemma latest_insert {T} (t : Z) (v : T) l : exists e, get_latest (hb_insert t v l) = Some e /\ (e = (t, v) \/ get_latest l = Some e).
Proof.
elim: l => [|[k w] l IH]; first by exists (t, v); split=> //; left.
have cons (a : Z * T) r : r <> nil -> get_latest (a :: r) = get_latest r.
  move=> /List.exists_last [r0 [b ->]]; rewrite get_latest_app; exact: (get_latest_app (a :: r0) b).
have one (a : Z * T) : get_latest [:: a] = Some a by [].
rewrite /=; case: Z.ltb; first by rewrite cons //; case E: (get_latest ((k, w) :: l)) => [e|]; [exists e; split=> //; right|move/get_latest_none: E].
case: Z.eqb; first by case: l {IH} => [|x l]; [exists (t, v); split=> //; left|rewrite cons //; case E: (get_latest (x :: l)) => [e|]; [exists e; rewrite cons //; split=> //; right|move/get_latest_none: E]].
case: IH => e [E1 E2]; exists e; rewrite cons; last by case: (l) => [|[x y] r] //=; case: Z.ltb => //; case: Z.eqb.
split=> //; case: E2 => [->|E2]; [by left|right].
by rewrite cons //; move=> El; move: E2; rewrite El.
Qed.
(** ** writing factors keeps beliefs and time bounds *)
Section Bounds.
Variable F : realFieldType.
Notation dmat := (dmat F).
Notation belief := (belief F).
Notation dict := (dict belief dmat).
Notation inst := (inst belief dmat).
Notation ccfs := (list (nat * buf dmat)).
(** factors in time order, none newer than t *)
Definition bounded (t : Z) (c : ccfs) : Prop := forall j b, ccf_find j c = Some b -> ssorted b /\ forall e, List.In e b -> Z.le (fst e) t.
Lemma find_set j t m (c : ccfs) j' : ccf_find j' (ccf_set j t m c) = if (j =? j')%nat then Some (hb_insert t m (odflt nil (ccf_find j c))) else ccf_find j' c.
Proof.
elim: c => [|[k b] c IH] /=; first by case: Nat.eqb.
case: (Nat.eqb_spec k j) => [->|Nk] /=; first by case: Nat.eqb.
rewrite IH; case: (Nat.eqb_spec k j') => [E|//]; case: Nat.eqb_spec => // E2; by case: Nk; rewrite E.
Qed.
Lemma bounded_set j t m (c : ccfs) : bounded t c -> bounded t (ccf_set j t m c).
Proof.
move=> B j' b; rewrite find_set; case: Nat.eqb_spec => [E|_]; last exact: B.
case=> <-; case G: (ccf_find j c) => [b0|] /=; last first.
  have S0 : ssorted (@nil (Z * dmat)) by constructor.
  by split; [exact: (hb_insert_ssorted t m _ S0)|move=> e [<-|//]; apply: Z.le_refl].
have [S H] := B _ _ G; split; first exact: hb_insert_ssorted.
by move=> e /hb_insert_In -/(_ S) [->|[/H //]]; apply: Z.le_refl.
Qed.
Definition kept (t : Z) (d d' : dict) : Prop := forall id,
  match d_find id d with
  | Some i => exists i', d_find id d' = Some i' /\ i_bel i' = i_bel i /\ i_enabled i' = i_enabled i /\ (bounded t (i_ccf i) -> bounded t (i_ccf i'))
  | None => d_find id d' = None
  end.
Lemma kept_refl t d : kept t d d.
Proof. by move=> id; case: d_find => // i; exists i. Qed.
Lemma kept_trans t d1 d2 d3 : kept t d1 d2 -> kept t d2 d3 -> kept t d1 d3.
Proof.
move=> H1 H2 id; have := H1 id; have := H2 id; case: (d_find id d1) => [i|]; last by move=> + E; rewrite E.
move=> + [i2 [E2 [B2 [N2 C2]]]]; rewrite E2 => -[i3 [E3 [B3 [N3 C3]]]]; exists i3; rewrite B3 N3; split=> //; split=> //; split=> // H; auto.
Qed.
Lemma kept_set I J (X : dmat) t (d d' : dict) : set_Sigma_IJ I J X t d = Ok d' -> kept t d d'.
Proof.
have one a b m (d1 d2 : dict) : mod_inst a (fun i => Ok (with_ccf (ccf_set b t m (i_ccf i)) i)) d1 = Ok d2 -> kept t d1 d2.
  move=> /mod_inst_ok [i [i' [G [[<-] ->]]]] id; rewrite find_upd G.
  case: Nat.eqb_spec => [->|_]; last by case: d_find => // x; exists x.
  rewrite G; eexists; split; first reflexivity.
  by split=> //; split=> //; exact: bounded_set.
rewrite /set_Sigma_IJ; case: Nat.ltb.
  by case E1: mod_inst => [d1|e|e] //= E2; apply: kept_trans (one _ _ _ _ _ E1) (one _ _ _ _ _ E2).
by case E1: mod_inst => [d1|e|e] //= E2; apply: kept_trans (one _ _ _ _ _ E1) (one _ _ _ _ _ E2).
Qed.
Lemma kept_row Sg I di row t (us : list (nat * belief)) : forall col (d d' : dict), split_row Sg I di row col us t d = Ok d' -> kept t d d'.
Proof.
elim: us => [|[J b] us IH] col d d' /=; first by case=> <-; exact: kept_refl.
case: dblock => //= X; case E: set_Sigma_IJ => [d1|e|e] //= E2; apply: kept_trans (kept_set E) (IH _ _ _ E2).
Qed.
Lemma kept_rows Sg t (us : list (nat * belief)) : forall row (d d' : dict), split_rows Sg row us t d = Ok d' -> kept t d d'.
Proof.
elim: us => [//|[J b] us IH] row d d' /=; case: us IH => [_ [<-]|e us IH]; first exact: kept_refl.
by case E: split_row => [d1|x|x] //= E2; apply: kept_trans (kept_row E) (IH _ _ _ E2).
Qed.
End Bounds.

(** ** one observation *)
Section Obs.
Variable F : realFieldType.
Variable junk : forall n, 'M[F]_n -> 'M[F]_n.
Notation dmat := (dmat F).
Notation belief := (belief F).
Notation dict := (dict belief dmat).
Notation inst := (inst belief dmat).
Variable predict : nat -> Z -> inst -> outcome (inst * bool).
Definition bels (d : dict) (t : Z) (ids : list nat) : list (nat * belief) :=
  List.map (fun id => (id, odflt (Bel (dempty F) (dempty F) Z0 false false false) (bel_of d id t))) ids.
Lemma bels_nth d t ids k id b : List.nth_error (bels d t ids) k = Some (id, b) <->
  List.nth_error ids k = Some id /\ b = odflt (Bel (dempty F) (dempty F) Z0 false false false) (bel_of d id t).
Proof.
rewrite /bels List.nth_error_map; case: List.nth_error => [x|]; last by split=> // -[].
by split=> [[-> ->]|[[->] ->]].
Qed.
Lemma reg_ids ids ds t (d : dict) id : registered ids ds t d -> List.In id ids -> exists i b tl bl, d_find id d = Some i /\
  bel_of d id t = Some b /\ get_at_t t (i_bel i) = Some b /\ b_fixed b = false /\ get_latest (i_bel i) = Some (tl, bl) /\ bel_dim bl = bel_dim b.
Proof.
move=> G Hin; have [i Gi] := key_reg (proj2 (g_ids G id) Hin); have [b [tl [bl [E1 [E2 [E3 E4]]]]]] := g_bel G Gi.
by exists i, b, tl, bl; rewrite /bel_of Gi.
Qed.
Lemma reg_dims ids ds t (mu : 'cV[F]_(sumn ds)) P (d : dict) : registered ids ds t d -> shows ids t mu P d -> ds = dims (bels d t ids).
Proof.
move=> G [S1 _]; have L := g_len G.
apply: (@eq_from_nth _ 0%N); first by rewrite dims_size /bels -L; elim: (ids) => //= x l ->.
move=> k Hk; have Hk' := Hk; rewrite -L in Hk'.
have [id En] : exists id, List.nth_error ids k = Some id.
  elim: (ids) k Hk' {L S1 G Hk} => [//|x l IH] [|k] //= H; [by exists x|exact: IH].
have [b [Eb [_ Es]]] := S1 _ _ En.
have Eb' : List.nth_error (bels d t ids) k = Some (id, b) by apply/bels_nth; rewrite Eb.
have [R _] := dim_rows Eb'; rewrite -[RHS]/(dim_k _ k) -R.
by move: Es; rewrite blkE // => Es; rewrite -(Ok_inj Es).
Qed.

Section Run.
Variables (ids : list nat) (t : Z) (d : dict).
Notation bs := (bels d t ids).
Notation ds := (dims bs).
Variables (mu : 'cV[F]_(sumn ds)) (P : 'M[F]_(sumn ds)).
Hypothesis G : registered ids ds t d.
Hypothesis S : shows ids t mu P d.
Hypothesis sP : symmetric P.
Lemma bs_len : seq.size bs = seq.size ids. Proof. by rewrite /bels; elim: (ids) => //= x l ->. Qed.
Lemma bs_at k id b : List.nth_error bs k = Some (id, b) -> List.nth_error ids k = Some id /\ bel_of d id t = Some b /\ b_fixed b = false /\
  b_mean b = DM (sel F ds k *m mu) /\ b_Sigma b = DM (sel F ds k *m P *m (sel F ds k)^T) /\ (k < seq.size ds)%N.
Proof.
move=> E; have [_ [_ [_ [_ Lk]]]] := dim_rows E; rewrite -(dims_size bs) in Lk.
have /bels_nth [En Eb] := E; have [i [b' [tl [bl [_ [Eb' [_ [Fx _]]]]]]]] := reg_ids G (List.nth_error_In _ _ En).
have Ebb : b' = b by rewrite Eb Eb'.
subst b'; split=> //; split=> //; split=> //.
have [b2 [Eb2 [Em Es]]] := proj1 S _ _ En; move: Eb2; rewrite Eb' => -[Eb2]; subst b2.
by move: Em Es; rewrite meanE // blkE // => Em Es; rewrite -(Ok_inj Em) -(Ok_inj Es).
Qed.
Lemma bs_nth k id : List.nth_error ids k = Some id -> exists b, List.nth_error bs k = Some (id, b).
Proof. by move=> En; eexists; apply/bels_nth; split; [exact: En|reflexivity]. Qed.
Lemma bs_asc : ascending bs.
Proof. move=> k l i j bi bj /bels_nth [Ek _] /bels_nth [El _]; exact: (g_asc G Ek El). Qed.
Lemma bs_in e : List.In e bs -> b_fixed (snd e) = false.
Proof. by case: e => id b Hin; have [k Ek] := List.In_nth_error _ _ Hin; have [_ [_ [-> _]]] := bs_at Ek. Qed.
Lemma bs_free : free bs = bs.
Proof.
have := bs_in; rewrite /free; elim: (bs) => [//|e l IH] H /=; rewrite (H e (or_introl erefl)) /= IH // => x Hx; apply: H; by right.
Qed.
Lemma bs_some : bs <> nil.
Proof. by have := g_some G; rewrite /bels; case: (ids). Qed.
Lemma obs_bel : dp_get_dict_bel predict (List.map fst d) t d nil = Ok (d, bs).
Proof.
rewrite (@dp_collect _ _ t d (fun id => odflt (Bel (dempty F) (dempty F) Z0 false false false) (bel_of d id t))).
  congr (Ok (_, _)); apply: fold_map; [exact: (g_once G)|exact: (g_ids G)|exact: (g_asc G)].
by move=> id Hid; have [i [b [_ [_ [_ [-> _]]]]]] := reg_ids G (proj1 (g_ids G id) Hid).
Qed.
Lemma obs_dims : dp_dims d = Ok (sumn ds, dimlist bs).
Proof.
set f := fun id => bel_dim (odflt (Bel (dempty F) (dempty F) Z0 false false false) (bel_of d id t)).
have Eds : ds = List.map f ids by rewrite /dims /bels; elim: (ids) => //= x l ->.
have Ebs : dimlist bs = List.map (fun id => (id, f id)) ids by rewrite /dimlist /bels List.map_map.
rewrite /dp_dims (@dp_dimsE _ f); last first.
  move=> e He; have Ge := reg_find (g_once G) He; have [b [tl [bl [E1 [_ [E2 E3]]]]]] := g_bel G Ge.
  by exists tl, bl; split=> //; rewrite E3 /f /bel_of Ge /bel_at E1.
congr (Ok (_, _)); last by rewrite Ebs; apply: fold_map; [exact: (g_once G)|exact: (g_ids G)|exact: (g_asc G)].
rewrite add0n Eds; apply: sum_perm; [exact: (g_once G)|apply: asc_nodup; exact: (g_asc G)|exact: (g_ids G)].
Qed.
Lemma obs_H dH m : fits ids ds dH m -> exists Hs : 'M[F]_(m, sumn ds), dp_stack_H dH d = Ok (DM Hs) /\ spread ids dH Hs.
Proof.
move=> Ft; have Rm : List.fold_left (fun s (e : nat * dmat) => drows (snd e)) dH 0%nat = m.
  have X : forall l s, (forall id X, List.In (id, X) l -> drows X = m) -> (l = nil -> s = m) -> List.fold_left (fun s (e : nat * dmat) => drows (snd e)) l s = m.
    elim=> [|[i X] l IH] s H1 H2 /=; first exact: H2.
    by apply: IH => [id Y Hin|_]; [apply: (H1 id); right|apply: (H1 i); left].
  by apply: X; [exact: (h_rows Ft)|move=> /(h_some Ft)].
have [|Hs [E Q]] := @stackD F dH bs m.
  case=> id b Hin; have [k Ek] := List.In_nth_error _ _ Hin; have [_ [Dk _]] := dim_rows Ek; have [En _] := bs_at Ek.
  rewrite /given /=; case Ef: smap_find => [X|] //=; have HX := find_Some Ef.
  by rewrite (h_rows Ft HX) (h_cols Ft En HX) Dk.
exists Hs; split.
  by rewrite /dp_stack_H Rm obs_dims /= -/(bodyD dH m) E.
move=> k id En; have [b Eb] := bs_nth En; have := Q _ _ Eb; rewrite /given /= => Ek; have [_ [Dk _]] := dim_rows Eb; split.
  by move=> X HX; move: Ek; rewrite (find_In (h_once Ft) HX).
by move=> Nin; move: Ek; rewrite (find_None Nin) Dk.
Qed.
Lemma obs_mean : stack_mean bs = Ok (DM mu).
Proof.
have [|A [-> EA]] := stack_mean_spec _ (bs_free : unfixed bs = bs).
  move=> id b Hin; have [k Ek] := List.In_nth_error _ _ Hin; have [_ [Dk _]] := dim_rows Ek; have [_ [_ [_ [-> _]]]] := bs_at Ek.
  by rewrite Dk.
congr (Ok (DM _)); apply: mean_ext => k Hk.
have Lk := Hk; rewrite dims_size in Lk; have [b Eb] := nth_idk Lk.
have := EA _ _ _ Eb; rewrite meanE //; have [_ [_ [_ [-> _]]]] := bs_at Eb => E; exact: (DM_inj (Ok_inj E)).
Qed.
Lemma obs_cov : stack_Sigma bs t d = Ok (DM P).
Proof.
have symB k : (sel F ds k *m P *m (sel F ds k)^T)^T = sel F ds k *m P *m (sel F ds k)^T by rewrite !trmx_mul trmxK sP mulmxA.
have [|||A [E [_ [D O]]]] := @C38_stack_n F bs t d; rewrite ?bs_free.
- exact: bs_asc.
- move=> id b Hin; have [k Ek] := List.In_nth_error _ _ Hin; have [_ [_ [_ [_ [-> _]]]]] := bs_at Ek.
  by rewrite /dtr /= symB.
- move=> k l i j bi bj Ek El L; have [Ni [_ [_ [_ [_ Lk]]]]] := bs_at Ek; have [Nj [_ [_ [_ [_ Ll]]]]] := bs_at El.
  have [X [EX BX]] := proj2 S _ _ _ _ Ni Nj L; exists X; split=> //.
  move: BX; rewrite blkE // /zero_if_none; case: eqP => [->|_] BX; [by left|right].
  by have := Ok_inj BX => <-.
rewrite bs_free in A E D O; rewrite E; congr Ok.
have Sq (B : 'M[F]_(sumn ds)) : sq ds (DM B) by [].
apply: (blk_ext (Sq _) (Sq _)) => k l Hk Hl.
have Lk := Hk; rewrite dims_size in Lk; have Ll := Hl; rewrite dims_size in Ll.
have [bk Ek] := nth_idk Lk; have [bl El] := nth_idk Ll.
have [Nk [_ [_ [_ [Sk _]]]]] := bs_at Ek; have [Nl _] := bs_at El.
case: (ltngtP k l) => [L|L|Ekl].
- have [X [EX BX]] := proj2 S _ _ _ _ Nk Nl L; have [-> _] := O _ _ _ _ _ _ _ Ek El L EX; by rewrite BX.
- have [X [EX BX]] := proj2 S _ _ _ _ Nl Nk L; have [_ ->] := O _ _ _ _ _ _ _ El Ek L EX.
  move: BX; rewrite !blkE // => BX; rewrite -(Ok_inj BX) /dtr /= !trmx_mul trmxK sP.
  by rewrite mulmxA.
- by subst l; rewrite (D _ _ _ Ek) Sk blkE.
Qed.
(** writing the result back *)
Lemma obs_write (A : 'M[F]_(sumn ds)) (dx : 'cV[F]_(sumn ds)) : exists d1 d', split_right_upper (DM A) bs t d = Ok d1 /\ correct_beliefs (DM A) (DM dx) bs t d1 = Ok d' /\
  List.map fst d' = List.map fst d /\
  (forall id, match d_find id d with
     | Some i => exists i' b', d_find id d' = Some i' /\ i_enabled i' = i_enabled i /\ (bounded t (i_ccf i) -> bounded t (i_ccf i')) /\
         i_bel i' = hb_insert t b' (i_bel i) /\ b_fixed b' = false /\
         forall k, List.nth_error ids k = Some id -> b_mean b' = DM (sel F ds k *m (mu + dx)) /\ b_Sigma b' = DM (sel F ds k *m A *m (sel F ds k)^T)
     | None => d_find id d' = None end) /\
  (forall k l i j, List.nth_error ids k = Some i -> List.nth_error ids l = Some j -> (k < l)%N ->
     fac_of d' i j t = Some (DM (sel F ds k *m A *m (sel F ds l)^T)) /\ fac_of d' j i t = Some (eyeI F (dim_k ds l))) /\
  (forall id j s, s <> t -> fac_of d' id j s = fac_of d id j s).
Proof.
have asc := asc_idk bs_asc.
have SA : sq ds (DM A) by [].
have Rg k : (k < seq.size bs)%N -> d_find (idk bs k) d <> None.
  move=> /nth_idk [b /bs_at [En _]] X; have [i [b' [_ [_ [Gi _]]]]] := reg_ids G (List.nth_error_In _ _ En); by rewrite X in Gi.
have [d1 [E1 [[K1 [B1 [N1 En1]]] [P1 F1]]]] := split_rows_spec t SA asc (erefl : bs = [::] ++ bs) bs_some Rg.
rewrite off0 in E1; have Kp := kept_rows E1.
set stp := fun (b' : belief) (i : inst) => Ok (with_bel (hb_insert t b' (i_bel i)) i).
have prepE k id b : List.nth_error bs k = Some (id, b) -> prep_bel (DM A) (DM dx) (off ds k) (id, b) =
   Ok (Bel (DM (sel F ds k *m (mu + dx))) (DM (sel F ds k *m A *m (sel F ds k)^T)) (b_t b) (b_fixed b) (b_fej b) (b_ess b)).
  move=> Ek; have [_ [Dk _]] := dim_rows Ek; have [_ [_ [_ [Em [_ Lk]]]]] := bs_at Ek.
  rewrite /prep_bel /= Dk -/(blk ds (DM A) k k) blkE //= meanE //= /bel_correct /bel_correct_mean Em dadd_ok /= mulmxDr //.
have [|d2 [E2 [K2 [N2 P2]]]] := @each_spec _ bs asc _ (prep_bel (DM A) (DM dx)) stp bs nil d1 erefl.
  move=> pre [id b] post Ee _; have Ek : List.nth_error bs (seq.size pre) = Some (id, b) by apply/nth_cut; exists pre, post.
  have [En _] := bs_at Ek; have [i [b' [_ [_ [Gi _]]]]] := reg_ids G (List.nth_error_In _ _ En).
  have := Kp id; rewrite Gi => -[i1 [Gi1 _]].
  by rewrite (prepE _ _ _ Ek); do 3!eexists; split; [reflexivity|split; [exact: Gi1|reflexivity]].
rewrite off0 in E2; exists d1, d2; split; first by rewrite /split_right_upper -/(free bs) bs_free.
split; first by rewrite (correct_beliefsE _ _ _ _ (bs_free : unfixed bs = bs)) E2.
split; first by rewrite K2.
have F2 id j s : fac_of d2 id j s = fac_of d1 id j s.
  rewrite /fac_of; case: (List.in_dec Nat.eq_dec id ids) => [Hin|Nin].
    have [k Ek] := List.In_nth_error _ _ Hin; have [b Eb] := bs_nth Ek; have /nth_cut [pre [post [Ee Sz]]] := Eb.
    have [x [i [i' [_ [/= -> [[<-] ->]]]]]] := P2 _ _ _ Ee (leq0n _); by [].
  rewrite N2 // => k _ Lk E; apply: Nin; have [b /bs_at [En _]] := nth_idk Lk; rewrite E; exact: (List.nth_error_In _ _ En).
split; last split; last by move=> id j s Ns; rewrite F2 F1 // => -[/Ns].
2: {
  move=> k l i j Ei Ej L; have [bi Ek] := bs_nth Ei; have [bj El] := bs_nth Ej.
  have [_ [_ [Ik [_ Lk]]]] := dim_rows Ek; have [_ [_ [Il [_ Ll]]]] := dim_rows El.
  have [B [EB [X1 X2]]] := P1 k l (leq0n _) L Ll; rewrite !F2 -Ik -Il X1 X2.
  by move: EB; rewrite blkE ?dims_size // => EB; rewrite -(Ok_inj EB). }
move=> id; have := Kp id; case Gi: (d_find id d) => [i|].
  case=> i1 [G1 [Eb [Ee Bd]]].
  have Hin : List.In id ids by apply/(g_ids G); exact: reg_key Gi.
  have [k Ek] := List.In_nth_error _ _ Hin; have [b Ebs] := bs_nth Ek; have /nth_cut [pre [post [Epp Sz]]] := Ebs.
  have [x [i2 [i' [Px [/= Gx [[Ex] Gx']]]]]] := P2 _ _ _ Epp (leq0n _).
  move: Gx; rewrite G1 => -[E12]; subst i2; move: Px; rewrite Sz (prepE _ _ _ Ebs) => -[Px].
  have [_ [_ [Fx _]]] := bs_at Ebs.
  exists i', x; rewrite -Ex /= Eb Ee -Px /= Fx; split; first by rewrite Gx' -Ex -Px Eb /= Fx.
  do 4!split=> //; move=> k0 H; have Ekl : k0 = k.
    case: (ltngtP k0 k) => // L; [have := g_asc G H Ek L|have := g_asc G Ek H L]; by rewrite ltnn.
  by subst k0.
by move=> G1; rewrite N2 // => k _ Lk E; case: (Rg k Lk); rewrite -E.
Qed.
End Run.
End Obs.
