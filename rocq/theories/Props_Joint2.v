(** C67: a joint observation is the centralized update of the stacked participants. *)
From Coq Require Import ZArith List Bool Arith Lia.
From mathcomp Require Import all_ssreflect all_algebra.
From Verif Require Import Outcome DoubleModel BufModel BufProofs HorizonModel MeasModel HandlerModel Spec_Handler DMat KFModel Spec_Mat KFProofs BeliefModel EigenModel EigenProofs IsoModel IsoProofs Spec_Joint JointProofs Props_Joint.
Set Implicit Arguments. Unset Strict Implicit. Unset Printing Implicit Defensive.
Import GRing.Theory Num.Theory.
Local Open Scope outcome_scope.
Local Open Scope ring_scope.

(** ** stacking the measurement matrices *)
Section StackH.
Variable F : realFieldType.
Notation dmat := (dmat F).
Variable dH : list (nat * dmat).
Variable m : nat.
Definition cols_of (l : list (nat * dmat)) : seq nat := List.map (fun e => dcols (snd e)) l.
Notation hs := (cols_of dH).
Hypothesis rowsH : forall id X, List.In (id, X) dH -> drows X = m.
Definition hblk (A : dmat) (k : nat) : outcome dmat := dblock A 0 (off hs k) m (dim_k hs k).
Lemma cols_nth pre e post : dH = pre ++ e :: post -> dim_k hs (seq.size pre) = dcols (snd e) /\ (seq.size pre < seq.size hs)%N.
Proof.
move=> ->; rewrite /dim_k /cols_of; split; first by elim: pre => [//|a l IH] /=.
by elim: pre => [//|a l IH] /=.
Qed.
Definition bodyH (rows : nat) (s : dmat * nat) (e : nat * dmat) : outcome (dmat * nat) :=
  let! H := dset_block (fst s) 0 (snd s) rows (dcols (snd e)) (snd e) in Ok (H, (snd s + dcols (snd e))%nat).
Lemma runH : forall post pre (A : dmat), dH = pre ++ post -> drows A = m -> dcols A = sumn hs ->
  exists C, ofold (bodyH m) (A, off hs (seq.size pre)) post = Ok (C, sumn hs) /\ drows C = m /\ dcols C = sumn hs /\
    (forall k, (k < seq.size pre)%N -> hblk C k = hblk A k) /\
    (forall pre1 e post1, dH = pre1 ++ e :: post1 -> (seq.size pre <= seq.size pre1)%N -> hblk C (seq.size pre1) = Ok (snd e)).
Proof.
elim=> [|e post IH] pre A Ee RA CA.
  rewrite cats0 in Ee; exists A; split; first by rewrite -Ee /= -(off_end hs) /cols_of -/cols_of; congr (Ok (_, off _ _)); elim: dH => //= a l ->.
  split=> //; split=> //; split=> // pre1 e post1 E1; rewrite -Ee E1 size_cat /= addnS => L; exfalso.
  by move: (leq_ltn_trans (leq_addr (seq.size post1) _) L); rewrite ltnn.
have [dc Lc] := cols_nth Ee.
have Re : drows (snd e) = m by apply: (rowsH (id := fst e)); rewrite Ee; apply/List.in_or_app; right; left; case: (e).
have [||||C [E1 [R1 [C1 X1]]]] := @set_block_ok F A (snd e) 0 (off hs (seq.size pre)) m (dcols (snd e)) => //; rewrite ?add0n ?RA //.
  by rewrite CA -dc; exact: off_fit.
rewrite RA in R1 X1; rewrite CA in C1 X1.
have B k : (k < seq.size hs)%N -> hblk C k = if k == seq.size pre then Ok (snd e) else hblk A k.
  move=> Hk; have Fk := off_fit Hk.
  have X a b : (a < m)%N -> (b < dim_k hs k)%N -> entry C a (off hs k + b) = if k == seq.size pre then entry (snd e) a (off hs k + b - off hs (seq.size pre)) else entry A a (off hs k + b).
    move=> Ha Hb; rewrite X1 //; last by apply: leq_trans Fk; rewrite ltn_add2l.
    by rewrite /= add0n Ha subn0 -dc /= (off_in (seq.size pre) Hb).
  rewrite /hblk; case: eqP X => [Ek|_] X.
    subst k; apply: block_eq => //; rewrite ?R1 ?C1 ?add0n //.
    by move=> a b Ha Hb; rewrite add0n X // addKn.
  rewrite !dblock_ok ?R1 ?C1 ?RA ?CA ?add0n //; congr (Ok (DM _)); apply/matrixP => a b; rewrite !mxE !add0n X //.
have := IH (rcons pre e) C; rewrite cat_rcons size_rcons offS dc => /(_ Ee R1 C1) [C' [E' [R' [C'' [P' Q']]]]].
exists C'; rewrite /= {1}/bodyH /= E1 /=; split=> //; split=> //; split=> //; split.
  move=> k Hk; rewrite P'; last exact: ltnW.
  rewrite B; last exact: ltn_trans Lc.
  by case: eqP => // Ek; rewrite Ek ltnn in Hk.
move=> pre1 e1 post1 Ee1; case: ltngtP => // [L _|Es _]; first exact: Q' Ee1 L.
have [Ep [Ee' _]] := cat_inj_size (esym Es) (etrans (esym Ee1) Ee); subst pre1 e1.
by rewrite P' // B // eqxx.
Qed.
Lemma stack_H_spec : dH <> nil -> exists A : 'M[F]_(m, sumn hs), stack_H dH = Ok (DM A) /\
  forall k id X, List.nth_error dH k = Some (id, X) -> dblock (DM A) 0 (off hs k) m (dim_k hs k) = Ok X.
Proof.
move=> Nn.
have [C [E [R [C1 [_ Q]]]]] := runH (erefl : dH = [::] ++ dH) (erefl : drows (dzero F m (sumn hs)) = m) erefl.
case: C R C1 E Q => p q C /= R C1; subst p q => E Q.
exists C; split.
  rewrite /stack_H.
  have -> : List.fold_left (fun s e => (s + dcols (snd e))%nat) dH 0%nat = sumn hs.
    have G : forall l s, List.fold_left (fun s (e : nat * dmat) => (s + dcols (snd e))%nat) l s = (s + sumn (cols_of l))%N.
      by elim=> [|e l IH] s /=; rewrite ?addn0 // IH -addnA.
    by rewrite G.
  have -> : List.fold_left (fun s (e : nat * dmat) => drows (snd e)) dH 0%nat = m.
    have G : forall l s, (forall id X, List.In (id, X) l -> drows X = m) -> (l = nil -> s = m) -> List.fold_left (fun s (e : nat * dmat) => drows (snd e)) l s = m.
      elim=> [|[i X] l IH] s H1 H2 /=; first exact: H2.
      by apply: IH => [id Y Hin|_]; [apply: (H1 id); right|apply: (H1 i); left].
    exact: G.
  by rewrite off0 in E; rewrite E.
move=> k id X En.
have [pre [post [Ee Sz]]] : exists pre post, dH = pre ++ (id, X) :: post /\ seq.size pre = k.
  elim: (dH) k En => [|a l IH] [|k] //=; first by case=> ->; exists nil, l.
  by move=> /IH [pre [post [-> <-]]]; exists (a :: pre), post.
by rewrite -Sz; exact: (Q _ _ _ Ee (leq0n _)).
Qed.
End StackH.

(** ** collecting the beliefs *)
Section Collect.
Variable F : realFieldType.
Notation dmat := (dmat F).
Notation belief := (belief F).
Notation dict := (dict belief dmat).
Notation inst := (inst belief dmat).
Variable predict : nat -> Z -> inst -> outcome (inst * bool).
Lemma smap_app {V} k (v : V) l : (forall x w, List.In (x, w) l -> (x < k)%N) -> smap_insert k v l = l ++ [:: (k, v)].
Proof.
elim: l => [//|[x w] l IH] H /=.
have /ltP Lx : (x < k)%N by apply: (H x w); left.
have -> : (k <? x)%nat = false by apply/Nat.ltb_ge; lia.
have -> : (k =? x)%nat = false by apply/Nat.eqb_neq; lia.
by rewrite IH // => y z Hin; apply: (H y z); right.
Qed.
Lemma collect t (d : dict) : forall bs2 bs1, (forall id b, List.In (id, b) bs2 -> bel_of d id t = Some b) ->
  ascending (bs1 ++ bs2) -> get_dict_bel_loop predict (List.map fst bs2) t d bs1 = Ok (d, bs1 ++ bs2).
Proof.
elim=> [|[id b] bs2 IH] bs1 Hb A /=; first by rewrite cats0.
have := Hb id b (or_introl erefl); rewrite /bel_of /at_inst; case G: (d_find id d) => [i|//] Gb.
have Ex : exist_at_t t (i_bel i) = true by apply/exist_at_iff; exists b; exact: (get_at_In _ _ _ Gb).
rewrite /belief_or_predict Ex /= -/(bel_at t i) Gb upd_same // smap_app.
  rewrite IH -?catA //; first by move=> x y Hin; apply: Hb; right.
move=> x w Hin; have [k Ek] := List.In_nth_error _ _ Hin.
apply: (A k (seq.size bs1) x id w b).
- rewrite List.nth_error_app1 //; apply/List.nth_error_Some; by rewrite Ek.
- by elim: (bs1).
- by apply/ltP; apply/List.nth_error_Some; rewrite Ek.
Qed.
End Collect.

(** ** stacking the means *)
Section StackM.
Variable F : realFieldType.
Notation dmat := (dmat F).
Notation belief := (belief F).
Variable us : list (nat * belief).
Notation ds := (dims us).
Hypothesis meanD : forall id b, List.In (id, b) us -> drows (b_mean b) = bel_dim b /\ dcols (b_mean b) = 1%N.
Definition mblk (A : dmat) (k : nat) : outcome dmat := dblock A (off ds k) 0 (dim_k ds k) 1.
Definition bodyM (s : dmat * nat) (e : nat * belief) : outcome (dmat * nat) :=
  let! m := dset_block (fst s) (snd s) 0 (bel_dim (snd e)) 1 (b_mean (snd e)) in Ok (m, (snd s + bel_dim (snd e))%nat).
Lemma runM : forall post pre (A : dmat), us = pre ++ post -> drows A = sumn ds -> dcols A = 1%N ->
  exists C, ofold bodyM (A, off ds (seq.size pre)) post = Ok (C, sumn ds) /\ drows C = sumn ds /\ dcols C = 1%N /\
    (forall k, (k < seq.size pre)%N -> mblk C k = mblk A k) /\
    (forall pre1 e post1, us = pre1 ++ e :: post1 -> (seq.size pre <= seq.size pre1)%N -> mblk C (seq.size pre1) = Ok (b_mean (snd e))).
Proof.
elim=> [|e post IH] pre A Ee RA CA.
  rewrite cats0 in Ee; exists A; split; first by rewrite -Ee /= -(off_end ds) dims_size.
  split=> //; split=> //; split=> // pre1 e post1 E1; rewrite -Ee E1 size_cat /= addnS => L; exfalso.
  by move: (leq_ltn_trans (leq_addr (seq.size post1) _) L); rewrite ltnn.
have dc := dims_nth Ee; have [_ [_ Lc]] := nth_pre Ee; rewrite -(dims_size us) in Lc.
have [Re Ce] : drows (b_mean (snd e)) = bel_dim (snd e) /\ dcols (b_mean (snd e)) = 1%N.
  by apply: (meanD (id := fst e)); rewrite Ee; apply/List.in_or_app; right; left; case: (e).
have [||||C [E1 [R1 [C1 X1]]]] := @set_block_ok F A (b_mean (snd e)) (off ds (seq.size pre)) 0 (bel_dim (snd e)) 1 => //; rewrite ?add0n ?CA //.
  by rewrite RA -dc; exact: off_fit.
rewrite RA in R1 X1; rewrite CA in C1 X1.
have B k : (k < seq.size ds)%N -> mblk C k = if k == seq.size pre then Ok (b_mean (snd e)) else mblk A k.
  move=> Hk; have Fk := off_fit Hk.
  have X a b : (a < dim_k ds k)%N -> (b < 1)%N -> entry C (off ds k + a) b = if k == seq.size pre then entry (b_mean (snd e)) (off ds k + a - off ds (seq.size pre)) b else entry A (off ds k + a) b.
    move=> Ha Hb; rewrite X1 //; last by apply: leq_trans Fk; rewrite ltn_add2l.
    by rewrite /= add0n Hb subn0 -dc /= andbT (off_in (seq.size pre) Ha).
  rewrite /mblk; case: eqP X => [Ek|_] X.
    subst k; apply: block_eq => //; rewrite ?R1 ?C1 ?add0n //; first by rewrite dc.
    by move=> a b Ha Hb; rewrite add0n X // addKn.
  rewrite !dblock_ok ?R1 ?C1 ?RA ?CA ?add0n //; congr (Ok (DM _)); apply/matrixP => a b; rewrite !mxE !add0n X //.
have := IH (rcons pre e) C; rewrite cat_rcons size_rcons offS dc => /(_ Ee R1 C1) [C' [E' [R' [C'' [P' Q']]]]].
exists C'; rewrite /= {1}/bodyM /= E1 /=; split=> //; split=> //; split=> //; split.
  move=> k Hk; rewrite P'; last exact: ltnW.
  rewrite B; last exact: ltn_trans Lc.
  by case: eqP => // Ek; rewrite Ek ltnn in Hk.
move=> pre1 e1 post1 Ee1; case: ltngtP => // [L _|Es _]; first exact: Q' Ee1 L.
have [Ep [Ee' _]] := cat_inj_size (esym Es) (etrans (esym Ee1) Ee); subst pre1 e1.
by rewrite P' // B // eqxx.
Qed.
Lemma stack_mean_spec bs : unfixed bs = us -> exists A : 'cV[F]_(sumn ds), stack_mean bs = Ok (DM A) /\
  forall k id b, List.nth_error us k = Some (id, b) -> dblock (DM A) (off ds k) 0 (dim_k ds k) 1 = Ok (b_mean b).
Proof.
move=> Eu.
have [C [E [R [C1 [_ Q]]]]] := runM (erefl : us = [::] ++ us) (erefl : drows (dzero F (sumn ds) 1) = _) erefl.
case: C R C1 E Q => p q C /= R C1; subst p q => E Q.
exists C; split.
  rewrite /stack_mean get_dimE Eu (ofold_ext (g := fun s e => if ~~ b_fixed (snd e) then bodyM s e else Ok s)) //.
  by rewrite ofold_filter -/(unfixed bs) Eu; rewrite off0 in E; rewrite E.
by move=> k id b /nth_cut [pre [post [Ee <-]]]; exact: (Q _ _ _ Ee (leq0n _)).
Qed.
Notation dict := (dict belief dmat).
(** a factor next to an identity factor reads back as itself *)
Lemma read_pair i j t (d : dict) (M : dmat) : (i < j)%N -> d_find i d <> None -> d_find j d <> None -> dsize M != 0%N ->
  fac_of d i j t = Some M -> fac_of d j i t = Some (eyeI F (dcols M)) -> get_Sigma_IJ i j t d = Ok M /\ get_Sigma_IJ j i t d = Ok (dtr M).
Proof.
move=> Hij; case Ei: (d_find i d) => [ii|//] _; case Ej: (d_find j d) => [jj|//] _ Ms F1 F2.
have L1 : (i <? j)%nat = true by apply/Nat.ltb_lt; apply/ltP.
have L2 : (j <? i)%nat = false by apply/Nat.ltb_ge; apply/leP; exact: ltnW.
rewrite (get_SigmaE _ Ei Ej) (get_SigmaE _ Ej Ei) F1 F2 L1 L2; cbv zeta; rewrite /odflt /oapp /eyeI Ms.
have -> : dsize (deye F (dcols M) (dcols M)) != 0%N.
  by move: Ms; rewrite /dsize /= !muln_eq0 orbb negb_or => /andP [].
rewrite /= deye_square /dtr /= trmx1 -/(dtr M).
by case: M {F1 F2 Ms} => p q M; rewrite /= dmul_ok mulmx1.
Qed.
End StackM.

Section C67.
Variable F : realFieldType.
Variable junk : forall n, 'M[F]_n -> 'M[F]_n.
Notation dmat := (dmat F).
Notation belief := (belief F).
Notation dict := (dict belief dmat).
Notation inst := (inst belief dmat).
Variable is_psd : dmat -> bool.
Variable nearest : dmat -> dmat.
Variable predict : nat -> Z -> inst -> outcome (inst * bool).
Variable eps0 : F.
(** Eigen's eigenvalue-based repair returns a matrix of the same size *)
Hypothesis nearest_dims : forall n (A : 'M[F]_n), exists B : 'M[F]_n, nearest (DM A) = DM B.

(** the participants: (ID, measurement matrix) and (ID, belief at t), in map order, none of them fixed *)
Record participants (dH : list (nat * dmat)) (bs : list (nat * belief)) (m : nat) (t : Z) (d : dict) : Prop := Participants {
  p_ids : List.map fst dH = List.map fst bs;
  p_some : bs <> nil;
  p_asc : ascending bs;
  p_H : forall k i Hk b, List.nth_error dH k = Some (i, Hk) -> List.nth_error bs k = Some (i, b) -> drows Hk = m /\ dcols Hk = drows (b_Sigma b);
  p_bel : forall i b, List.In (i, b) bs -> b_fixed b = false /\ bel_of d i t = Some b;
  p_sym : forall i b, List.In (i, b) bs -> dtr (b_Sigma b) = b_Sigma b /\ (0 < drows (b_Sigma b))%N;
  p_mean : forall i b, List.In (i, b) bs -> drows (b_mean b) = drows (b_Sigma b) /\ dcols (b_mean b) = 1%N;
  p_keys : forall id (i : inst), d_find id d = Some i -> List.NoDup (List.map fst (i_ccf i));
  p_fac : forall i b j X, List.In (i, b) bs -> fac_of d i j t = Some X -> drows X = drows (b_Sigma b);
  p_cross : forall i j bi bj, List.In (i, bi) bs -> List.In (j, bj) bs -> (i < j)%N ->
     exists X, get_Sigma_IJ i j t d = Ok X /\ (dsize X = 0%N \/ drows X = drows (b_Sigma bi) /\ dcols X = drows (b_Sigma bj))
}.
(** the joint measurement matrix, mean and covariance of the participants *)
Definition stacked_H (dH : list (nat * dmat)) m N (Hs : 'M[F]_(m, N)) (ds : seq nat) : Prop :=
  forall k i X, List.nth_error dH k = Some (i, X) -> dblock (DM Hs) 0 (off ds k) m (dim_k ds k) = Ok X.
Definition stacked_mean (bs : list (nat * belief)) N (mu : 'cV[F]_N) (ds : seq nat) : Prop :=
  forall k i b, List.nth_error bs k = Some (i, b) -> dblock (DM mu) (off ds k) 0 (dim_k ds k) 1 = Ok (b_mean b).
Definition stacked_cov (bs : list (nat * belief)) t (d : dict) N (P : 'M[F]_N) (ds : seq nat) : Prop :=
  symmetric P /\ (forall k i b, List.nth_error bs k = Some (i, b) -> blk ds (DM P) k k = Ok (b_Sigma b)) /\
  (forall k l i j bi bj X, List.nth_error bs k = Some (i, bi) -> List.nth_error bs l = Some (j, bj) -> (k < l)%N ->
     get_Sigma_IJ i j t d = Ok X -> blk ds (DM P) k l = Ok (zero_if_none (dim_k ds k) (dim_k ds l) X)).
(** what the handler shows after the update with joint covariance S and joint correction dx *)
Definition distributed (bs : list (nat * belief)) t (d d' : dict) N (S : 'M[F]_N) (dx : 'cV[F]_N) (ds : seq nat) : Prop :=
  (* means and covariances *)
  (forall k i b, List.nth_error bs k = Some (i, b) -> exists b' v, bel_of d' i t = Some b' /\
     dblock (DM dx) (off ds k) 0 (dim_k ds k) 1 = Ok v /\ dadd (b_mean b) v = Ok (b_mean b') /\ blk ds (DM S) k k = Ok (b_Sigma b') /\
     b_t b' = b_t b /\ b_fixed b' = b_fixed b /\ b_fej b' = b_fej b /\ b_ess b' = b_ess b) /\
  (* cross-covariances among the participants *)
  (forall k l i j bi bj, List.nth_error bs k = Some (i, bi) -> List.nth_error bs l = Some (j, bj) -> (k < l)%N ->
     get_Sigma_IJ i j t d' = blk ds (DM S) k l /\ get_Sigma_IJ j i t d' = (let! B := blk ds (DM S) k l in Ok (dtr B))) /\
  (* cross-covariances with others: multiplied by (new covariance)(old covariance)^-1 of the participant *)
  (forall k i b j X, List.nth_error bs k = Some (i, b) -> ~ List.In j (List.map fst bs) -> get_Sigma_IJ i j t d = Ok X -> dsize X <> 0%N ->
     exists B iv L, blk ds (DM S) k k = Ok B /\ dinv junk (b_Sigma b) = Ok iv /\ dmul B iv = Ok L /\ get_Sigma_IJ i j t d' = dmul L X).

Section Proof.
Variables (dH : list (nat * dmat)) (bs : list (nat * belief)) (m : nat) (t : Z) (d : dict).
Hypothesis P : participants dH bs m t d.
Notation ds := (sizes bs).
Lemma same_len : seq.size dH = seq.size bs.
Proof. by have := f_equal (@List.length nat) (p_ids P); rewrite !List.map_length. Qed.
Lemma free_all : free bs = bs.
Proof.
have := p_bel P; rewrite /free; elim: (bs) => [//|[i b] l IH] H /=; have [-> _] := H i b (or_introl erefl); rewrite /= IH // => x y Hin.
by apply: H; right.
Qed.
Lemma pairH k i X : List.nth_error dH k = Some (i, X) -> exists b, List.nth_error bs k = Some (i, b).
Proof.
move=> E; have := f_equal (fun l => List.nth_error l k) (p_ids P); rewrite !List.nth_error_map E /=.
by case Eb: (List.nth_error bs k) => [[j b]|] //= [->]; exists b.
Qed.
Lemma same_cols : cols_of dH = ds.
Proof.
have := p_H P; have := p_ids P; rewrite /cols_of /sizes; elim: (dH) (bs) => [|[i X] l IH] [|[j b] l'] //= [Ei El] H.
rewrite Ei in H; have [_ ->] := H 0%N j X b erefl erefl; congr cons; apply: IH => // k i0 Hk b0 E1 E2; exact: (H k.+1 i0 Hk b0).
Qed.
Lemma H_ok : exists Hs : 'M[F]_(m, sumn ds), stack_H dH = Ok (DM Hs) /\ stacked_H dH Hs ds.
Proof.
have R id X : List.In (id, X) dH -> drows X = m.
  by move=> Hin; have [k Ek] := List.In_nth_error _ _ Hin; have [b Eb] := pairH Ek; have [] := p_H P Ek Eb.
have Nn : dH <> nil by move=> E; apply: (p_some P); move: same_len; rewrite E; case: (bs).
by have := stack_H_spec R Nn; rewrite same_cols.
Qed.
Lemma bel_ok : get_dict_bel predict (List.map fst dH) t d = Ok (d, bs).
Proof.
rewrite (p_ids P); apply: (@collect _ _ _ _ bs nil); first by move=> id b /(p_bel P) [].
exact: (p_asc P).
Qed.
Lemma cov_ok : exists A : 'M[F]_(sumn ds), stack_Sigma bs t d = Ok (DM A) /\ stacked_cov bs t d A ds.
Proof.
have [|||A [E [S [D O]]]] := @C38_stack_n F bs t d; rewrite ?free_all.
- exact: (p_asc P).
- by move=> i b /(p_sym P) [].
- move=> k l i j bi bj Ek El L; have [_ [Dk _]] := dim_rows Ek; have [_ [Dl _]] := dim_rows El.
  have [X [EX DX]] := p_cross P (List.nth_error_In _ _ Ek) (List.nth_error_In _ _ El) (p_asc P Ek El L).
  by exists X; rewrite -[sizes bs]/(dims bs) -Dk -Dl.
rewrite free_all in A E S D O; exists A; split=> //; split=> //; split=> //.
by move=> k l i j bi bj X Ek El L EX; have [] := O _ _ _ _ _ _ _ Ek El L EX.
Qed.
Lemma mean_ok : exists mu : 'cV[F]_(sumn ds), stack_mean bs = Ok (DM mu) /\ stacked_mean bs mu ds.
Proof.
apply: (stack_mean_spec _ (free_all : unfixed bs = bs)) => i b Hin; exact: (p_mean P Hin).
Qed.
Lemma part : part_ok bs t d.
Proof.
move=> k id b E; have Hin := List.nth_error_In _ _ E; have [R1 [R2 [Ik [Dk Lk]]]] := dim_rows E.
have [Sy _] := p_sym P Hin; have [M1 M2] := p_mean P Hin; have [_ Bo] := p_bel P Hin.
split; first by rewrite -R1 -{2}Sy.
split; first by rewrite -R1.
split=> //; move: Bo; rewrite /bel_of; case G: (d_find id d) => [i|//] _; exists i; split=> //; split; first exact: (p_keys P G).
by move=> j X; rewrite -R1 => Ex; apply: (p_fac P Hin (j := j)); rewrite /fac_of G.
Qed.
Lemma lam_dims (B0 Sb iv L : dmat) p : drows B0 = p -> dcols B0 = p -> drows Sb = p -> dcols Sb = p ->
  dinv junk Sb = Ok iv -> dmul B0 iv = Ok L -> dcols L = p /\ drows L = p.
Proof.
case: B0 => p0 q0 B0; case: Sb => p1 q1 Sb /= e1 e2 e3 e4; subst; rewrite dinv_ok => E0; rewrite -(Ok_inj E0) dmul_ok => E1.
by rewrite -(Ok_inj E1).
Qed.
(** any registry with the belief and factor entries of the write phases shows the distributed update *)
Lemma dist_of (S : 'M[F]_(sumn ds)) (dx : 'cV[F]_(sumn ds)) (d' : dict) :
  (forall id j, (forall k b, List.nth_error bs k <> Some (id, b)) -> fac_of d' id j t = fac_of d id j t) ->
  (forall id i, d_find id d = Some i -> d_find id d' <> None) ->
  (forall k id b, List.nth_error bs k = Some (id, b) ->
     exists B v b', blk ds (DM S) k k = Ok B /\ dblock (DM dx) (off ds k) 0 (dim_k ds k) 1 = Ok v /\ bel_correct v B b = Ok b' /\ bel_of d' id t = Some b') ->
  (forall k l idk idl bk bl, List.nth_error bs k = Some (idk, bk) -> List.nth_error bs l = Some (idl, bl) -> (k < l)%N ->
     exists B, blk ds (DM S) k l = Ok B /\ fac_of d' idk idl t = Some B /\ fac_of d' idl idk t = Some (eyeI F (dcols B))) ->
  (forall k id b j, List.nth_error bs k = Some (id, b) -> (forall l bl, List.nth_error bs l = Some (j, bl) -> j = id) ->
     exists L, Lam junk bs (DM S) k b L /\ match fac_of d id j t with
       | Some m => exists p, dmul L m = Ok p /\ fac_of d' id j t = Some p
       | None => fac_of d' id j t = None end) ->
  distributed bs t d d' S dx ds.
Proof.
move=> N En B C O; have Sq : sq (dims bs) (DM S) by [].
split; last split.
- move=> k i b Ek; have [X [v [b' [E1 [E2 [E3 E4]]]]]] := B _ _ _ Ek.
  move: E3; rewrite /bel_correct /bel_correct_mean; case Em: dadd => [mm|e|e] //= [Eb].
  by exists b', v; rewrite -Eb /= in E4 *.
- move=> k l i j bi bj Ek El L; have [X [EX [F1 F2]]] := C _ _ _ _ _ _ Ek El L.
  have Reg id b : List.In (id, b) bs -> d_find id d' <> None.
    move=> Hin; have [_] := p_bel P Hin; rewrite /bel_of; case G: (d_find id d) => [ii|//] _.
    exact: En G.
  have [_ [Dk [_ [_ Lk]]]] := dim_rows Ek; have [_ [Dl [_ [_ Ll]]]] := dim_rows El.
  rewrite -(dims_size bs) in Lk; rewrite -(dims_size bs) in Ll.
  have [RM [CM _]] := blk_entry Sq Lk Ll EX.
  have Hk := List.nth_error_In _ _ Ek; have Hl := List.nth_error_In _ _ El.
  have [_ k0] := p_sym P Hk; have [_ l0] := p_sym P Hl.
  have Ms : dsize X != 0%N by rewrite /dsize RM CM muln_eq0 negb_or -!lt0n -Dk -Dl k0.
  by have [-> ->] := read_pair (p_asc P Ek El L) (Reg _ _ Hk) (Reg _ _ Hl) Ms F1 F2; rewrite EX.
- move=> k i b j X Ek Nj GX Xs; have Hk := List.nth_error_In _ _ Ek.
  have Nj' l bl : List.nth_error bs l <> Some (j, bl).
    by move=> El; apply: Nj; apply/List.in_map_iff; exists (j, bl); split=> //; exact: (List.nth_error_In _ _ El).
  have [L [[B0 [iv [EB [Ei EL]]]] HF]] := O _ _ _ _ Ek (fun l bl El => False_ind _ (Nj' l bl El)).
  exists B0, iv, L; split=> //; split=> //; split=> //.
  case Fi: (d_find i d) => [ii|]; last by rewrite get_Sigma_null in GX; [|left].
  case Fj: (d_find j d) => [jj|]; last by rewrite get_Sigma_null in GX; [|right].
  case Fi': (d_find i d') (En _ _ Fi) => [ii'|//] _; case Gj: (d_find j d') (En _ _ Fj) => [jj'|//] _.
  move: GX; rewrite (get_SigmaE _ Fi Fj) (get_SigmaE _ Fi' Gj).
  rewrite (N j i Nj').
  case F1: (fac_of d i j t) HF => [x|] HF; last by rewrite /= => -[EX]; case: Xs; rewrite -EX.
  have [px [EP ->]] := HF; case F2: (fac_of d j i t) => [y|]; last by rewrite /= andbF => -[EX]; case: Xs; rewrite -EX.
  cbv zeta; rewrite /odflt /oapp; case: ifP => [/andP [xs ys]|_] EX; last by case: Xs; case: EX => <-.
  have [_ [Dk [_ [_ Lk]]]] := dim_rows Ek; rewrite -(dims_size bs) in Lk.
  have [RB [CB _]] := blk_entry Sq Lk Lk EB.
  have Rx : drows x = drows (b_Sigma b) by exact: (p_fac P Hk F1).
  have DL : dcols L = drows x /\ drows L = drows x.
    have [Sy _] := p_sym P Hk; rewrite /bel_dim in Dk.
    by apply: (lam_dims _ _ _ _ Ei EL); rewrite ?RB ?CB ?Rx // -{1}Sy.
  case: L DL EL HF EP => p q L /= [e1 e2] EL HF EP.
  case: x {HF F1 Rx} EP e1 e2 EX xs => rx cx x EP /= e1 e2 EX xs; subst p q.
  move: EP; rewrite dmul_ok => EP; have {}EP := Ok_inj EP; subst px.
  rewrite /dsize /= in xs ys *; rewrite /dsize /= xs ys /=.
  case: y F2 EX ys => ry cy y F2 EX ys.
  have ec : cx = cy.
    by move: EX; rewrite /dtr /=; case: Nat.ltb; rewrite /dmul; case: eqP => //=.
  subst cy; move: EX; rewrite /dtr /=; case: Nat.ltb; rewrite !dmul_ok /= => EX; rewrite -(Ok_inj EX) /dtr /=.
    by rewrite dmul_ok mulmxA.
  by rewrite !trmx_mul !trmxK dmul_ok mulmxA.
Qed.
Lemma dist (S : 'M[F]_(sumn ds)) (dx : 'cV[F]_(sumn ds)) : exists d', write_joint junk (DM S) (DM dx) bs t d = Ok d' /\ distributed bs t d d' S dx ds.
Proof.
have asc := asc_idk (p_asc P).
have Sq : sq (dims bs) (DM S) by [].
have [d' [E [K [N [En [B [C [O _]]]]]]]] := write_joint_spec junk asc Sq (erefl : drows (DM dx) = _) (erefl : dcols (DM dx) = _) (free_all : unfixed bs = bs) (p_some P) part.
exists d'; split=> //; apply: dist_of => //.
- by move=> id j H; rewrite /fac_of N.
- by move=> id i /En [i' [-> _]].
- by move=> k id b Ek; have [H _] := B _ _ _ Ek.
Qed.

(** the centralized filter's step on the stacked state, and what the handler must do with its result *)
Definition as_centralized N (Hs : 'M[F]_(m, N)) (Ps : 'M[F]_N) (R : 'M[F]_m) (r : 'cV[F]_m) cfg (seen : outcome (dict * bool)) : Prop :=
  match correction_step junk (DM Hs) (DM R) (DM r) (DM (Ps + eps0%:M)) cfg with
  | Ok res => if rejected res then seen = Ok (d, false) else
      exists (S : 'M[F]_N) (dx : 'cV[F]_N) d', DM S = (if is_psd (Sigma_apos res) then Sigma_apos res else nearest (Sigma_apos res)) /\
        DM dx = delta_mean res /\ seen = Ok (d', true) /\ distributed bs t d d' S dx ds
  | Abort e => seen = Abort e
  | UB e => seen = UB e
  end.
Lemma joint_central (Hs : 'M[F]_(m, sumn ds)) (Ps : 'M[F]_(sumn ds)) (R : 'M[F]_m) (r : 'cV[F]_m) cfg : symmetric Ps ->
  as_centralized Hs Ps R r cfg (joint_update junk is_psd nearest eps0 (DM Hs) (DM R) (DM r) bs (DM Ps) t cfg d).
Proof.
move=> sP; rewrite /as_centralized /joint_update stabilize_ok (symm_id sP) /= correction_step_ok.
case: step_gate => [rej|e|e] //=; case: rej => //=.
set Sf := step_final _ _ _ _ _; have [X EX] : exists X : 'M[F]_(sumn ds), DM X = (if is_psd (DM Sf) then DM Sf else nearest (DM Sf)).
  by case: is_psd; [exists Sf|have [B EB] := nearest_dims Sf; exists B].
rewrite -EX; have [d' [E D]] := dist X (step_K junk Hs R (Ps + eps0%:M) cfg *m r); rewrite E /=.
by exists X, (step_K junk Hs R (Ps + eps0%:M) cfg *m r), d'.
Qed.
Lemma bs_cons A (x y : A) : (if bs is nil then x else y) = y.
Proof. by case: (bs) (p_some P). Qed.
Theorem C67_residual : forall (R : 'M[F]_m) (r : 'cV[F]_m) cfg, exists (Hs : 'M[F]_(m, sumn ds)) (Ps : 'M[F]_(sumn ds)),
  stacked_H dH Hs ds /\ stacked_cov bs t d Ps ds /\
  as_centralized Hs Ps R r cfg (apply_observation_r junk is_psd nearest predict eps0 dH (DM R) (DM r) t cfg d).
Proof.
move=> R r cfg; have [Hs [EH SH]] := H_ok; have [Ps [EP SP]] := cov_ok; exists Hs, Ps; split=> //; split=> //.
rewrite /apply_observation_r EH /= bel_ok /= bs_cons EP /=; apply: joint_central; by case: SP.
Qed.
(** with a measurement the residual is z - H mu *)
Theorem C67_measurement : forall (R : 'M[F]_m) (z : 'cV[F]_m) cfg, exists (Hs : 'M[F]_(m, sumn ds)) (mu : 'cV[F]_(sumn ds)) (Ps : 'M[F]_(sumn ds)),
  stacked_H dH Hs ds /\ stacked_mean bs mu ds /\ stacked_cov bs t d Ps ds /\
  as_centralized Hs Ps R (z - Hs *m mu) cfg (apply_observation_z junk is_psd nearest predict eps0 dH (DM z) (DM R) t cfg d).
Proof.
move=> R z cfg; have [Hs [EH SH]] := H_ok; have [Ps [EP SP]] := cov_ok; have [mu [EM SM]] := mean_ok.
exists Hs, mu, Ps; split=> //; split=> //; split=> //.
rewrite /apply_observation_z EH /= bel_ok /= bs_cons EM /= EP /= dmul_ok /= dsub_ok /=; apply: joint_central; by case: SP.
Qed.
End Proof.
End C67.
(** two correlated participants and a third instance correlated with the first *)
Section Example67.
Let Q := rat_realFieldType.
Let c1 (x : Q) : dmat Q := DM (x%:M : 'M[Q]_1).
Let b (x s : Q) : belief Q := Bel (c1 x) (c1 s) Z0 false false true.
Let d0 : dict (belief Q) (dmat Q) :=
  [:: (9, Inst true [:: (Z0, b 1 1)] [:: (2, [:: (Z0, c1 1)])]);
      (5, Inst true [:: (Z0, b 3%:R 4%:R)] [:: (2, [:: (Z0, c1 1)])]);
      (2, Inst true [:: (Z0, b 2%:R 3%:R)] [:: (5, [:: (Z0, c1 2%:R)]); (9, [:: (Z0, c1 1)])])]%N.
Let H0 : list (nat * dmat Q) := [:: (2, c1 1); (5, c1 (- 1))]%N.
Let bs0 : list (nat * belief Q) := [:: (2, b 2%:R 3%:R); (5, b 3%:R 4%:R)]%N.
Lemma c1_sym x : dtr (c1 x) = c1 x.
Proof. by rewrite /dtr /c1 /= tr_scalar_mx. Qed.
Example C67_example : participants H0 bs0 1 Z0 d0 /\ get_Sigma_IJ 2 5 Z0 d0 <> Ok (dempty Q) /\ ~ List.In 9%N (List.map fst bs0).
Proof.
have G25 : get_Sigma_IJ 2 5 Z0 d0 = Ok (c1 2%:R).
  by rewrite /get_Sigma_IJ /= c1_sym /c1 dmul_ok mulmx1.
split; last by split; [rewrite G25 /c1 => /(f_equal (fun o => if o is Ok x then drows x else 0%N))|move=> /= [|[]]].
have nnil T k : List.nth_error (@nil T) k = None by case: k.
split=> //=.
- by case=> [|[|k]] [|[|l]] //= i j bi bj; rewrite ?nnil // => -[<- _] [<- _].
- case=> [|[|k]] //= i Hk bb; rewrite ?nnil // => -[_ <-] [_ <-]; by [].
- by move=> i bb [[<- <-]|[[<- <-]|//]].
- by move=> i bb [[_ <-]|[[_ <-]|//]] /=; rewrite c1_sym.
- by move=> i bb [[_ <-]|[[_ <-]|//]].
- move=> id i; case: ifP => _; first by case=> <-; repeat constructor; case.
  case: ifP => _; first by case=> <-; repeat constructor; case.
  by case: ifP => // _ [<-] /=; repeat constructor => /=; [case|case].
- move=> i bb j X [[<- <-]|[[<- <-]|//]]; rewrite /fac_of /= /ccf_at /=; do !case: ifP => //= _; by case=> <-.
- move=> i j bi bj [[<- <-]|[[<- <-]|//]] [[<- <-]|[[<- <-]|//]] // _.
  by exists (c1 2%:R); split=> //; right.
Qed.
(** the hypotheses of C57 and C38 are met by the same case: the joint observation runs through and is applied *)
Example C57_example : exists d' : dict (belief Q) (dmat Q),
  apply_observation_r (fun n A => A) (fun _ => true) id (fun _ _ i => Ok (i, false)) 0 H0 (DM (1%:M : 'M_1)) (DM (1%:M : 'M_1)) Z0
    (CorrCfg false true true (d_of_Z 1) 0) d0 = Ok (d', true) /\ ascending (free bs0) /\ free bs0 <> nil.
Proof.
have [P [_ _]] := C67_example.
have nd n (A : 'M[Q]_n) : exists B : 'M[Q]_n, id (DM A) = DM B by exists A.
have [Hs [Ps [_ [_]]]] := @C67_residual Q (fun n A => A) (fun _ => true) id (fun _ _ i => Ok (i, false)) 0 nd _ _ _ _ _ P 1%:M 1%:M (CorrCfg false true true (d_of_Z 1) 0).
rewrite /as_centralized correction_step_ok /= => -[S [dx [d' [_ [_ [E _]]]]]]; exists d'; split; first exact: E.
have E0 := free_all P; split; first exact: (p_asc P).
by [].
Qed.
End Example67.
Print Assumptions C67_residual.
Print Assumptions C67_measurement.
