(** Joint observations: block grids, stacking and splitting. *)
From Coq Require Import ZArith List Bool Arith Lia.
From mathcomp Require Import all_ssreflect all_algebra.
From Verif Require Import Outcome DoubleModel BufModel BufProofs HorizonModel MeasModel HandlerModel Spec_Handler DMat KFModel Spec_Mat KFProofs BeliefModel EigenModel EigenProofs IsoModel IsoProofs Spec_Joint.
Set Implicit Arguments. Unset Strict Implicit. Unset Printing Implicit Defensive.
Import GRing.Theory Num.Theory.
Local Open Scope outcome_scope.
Local Open Scope ring_scope.

(** ** loops *)
Lemma ofold_filter {S A} (p : A -> bool) (f : S -> A -> outcome S) l : forall s,
  ofold (fun s e => if p e then f s e else Ok s) s l = ofold f s (List.filter p l).
Proof.
elim: l => [//|a l IH] s /=; case: (p a) => /=; last by rewrite IH.
by case: (f s a) => //= s'.
Qed.
Lemma ofold_cat {S A} (f : S -> A -> outcome S) l1 l2 : forall s,
  ofold f s (l1 ++ l2) = let! s' := ofold f s l1 in ofold f s' l2.
Proof. by elim: l1 => [//|a l IH] s /=; case: (f s a) => //= s'. Qed.
Lemma ofold_ext {S A} (f g : S -> A -> outcome S) l : (forall s a, f s a = g s a) -> forall s, ofold f s l = ofold g s l.
Proof. by move=> E; elim: l => [//|a l IH] s /=; rewrite E; case: (g s a) => //= s'. Qed.

Lemma cat_inj_size {T} (a a' b b' : seq T) : seq.size a = seq.size a' -> a ++ b = a' ++ b' -> a = a' /\ b = b'.
Proof. by elim: a a' => [|x a IH] [|y a'] //= [/IH H] [-> /H [-> ->]]. Qed.
(** ** offsets *)
Section Off.
Variable ds : seq nat.
Lemma off0 : off ds 0 = 0%N. Proof. by rewrite /off take0. Qed.
Lemma offS k : off ds k.+1 = (off ds k + dim_k ds k)%N.
Proof.
rewrite /off /dim_k; elim: ds k => [|a l IH] [|k] //=; first by rewrite take0 /= addn0 add0n.
by rewrite IH addnA.
Qed.
Lemma off_end : off ds (seq.size ds) = sumn ds. Proof. by rewrite /off take_size. Qed.
Lemma off_mono k l : (k <= l)%N -> (off ds k <= off ds l)%N.
Proof. by move=> /subnK <-; elim: (l - k)%N => [//|n IH]; rewrite addSn offS; apply: leq_trans IH _; rewrite leq_addr. Qed.
Lemma off_fit k : (k < seq.size ds)%N -> (off ds k + dim_k ds k <= sumn ds)%N.
Proof. by move=> H; rewrite -offS -off_end; exact: off_mono. Qed.
Lemma off_sep k l : (k < l)%N -> (off ds k + dim_k ds k <= off ds l)%N.
Proof. by move=> H; rewrite -offS; exact: off_mono. Qed.
(** a position inside part k is inside part l only if k = l *)
Lemma off_in k l a : (a < dim_k ds k)%N -> ((off ds l <= off ds k + a)%N && (off ds k + a < off ds l + dim_k ds l)%N) = (k == l).
Proof.
move=> Ha; case: (ltngtP k l) => [L|L|E]; last by rewrite -E leq_addr ltn_add2l Ha.
  apply/negbTE; rewrite negb_and -ltnNge; apply/orP; left.
  by apply: leq_trans (off_sep L); rewrite ltn_add2l.
apply/negbTE; rewrite negb_and -leqNgt; apply/orP; right.
by apply: leq_trans (off_sep L) _; rewrite leq_addr.
Qed.
End Off.

(** ** grids *)
Section Grid.
Variable F : realFieldType.
Notation dmat := (dmat F).
Variable ds : seq nat.
Notation N := (sumn ds).
Definition sq (A : dmat) := drows A = N /\ dcols A = N.
Lemma blk_ok (A : dmat) k l : sq A -> (k < seq.size ds)%N -> (l < seq.size ds)%N ->
  blk ds A k l = Ok (DM (\matrix_(a < dim_k ds k, b < dim_k ds l) entry A (off ds k + a) (off ds l + b))).
Proof. by case=> R C Hk Hl; rewrite /blk dblock_ok // ?R ?C; exact: off_fit. Qed.
Lemma blk_eq (A B : dmat) k l : sq A -> (k < seq.size ds)%N -> (l < seq.size ds)%N -> drows B = dim_k ds k -> dcols B = dim_k ds l ->
  (forall a b, (a < dim_k ds k)%N -> (b < dim_k ds l)%N -> entry A (off ds k + a) (off ds l + b) = entry B a b) -> blk ds A k l = Ok B.
Proof. by case=> R C Hk Hl RB CB H; apply: block_eq => //; rewrite ?R ?C; exact: off_fit. Qed.
Lemma blk_entry (A B : dmat) k l : sq A -> (k < seq.size ds)%N -> (l < seq.size ds)%N -> blk ds A k l = Ok B ->
  drows B = dim_k ds k /\ dcols B = dim_k ds l /\
  forall a b, (a < dim_k ds k)%N -> (b < dim_k ds l)%N -> entry A (off ds k + a) (off ds l + b) = entry B a b.
Proof.
move=> SA Hk Hl E; move: E; rewrite blk_ok // => E; rewrite -(Ok_inj E); split=> //; split=> // a b Ha Hb.
by rewrite (@entry_mk _ _ _ (fun a b => entry A (off ds k + a) (off ds l + b))).
Qed.
Lemma set_grid (A B : dmat) k l : sq A -> (k < seq.size ds)%N -> (l < seq.size ds)%N -> drows B = dim_k ds k -> dcols B = dim_k ds l ->
  exists C, dset_block A (off ds k) (off ds l) (dim_k ds k) (dim_k ds l) B = Ok C /\ sq C /\
    forall k' l', (k' < seq.size ds)%N -> (l' < seq.size ds)%N -> blk ds C k' l' = if (k' == k) && (l' == l) then Ok B else blk ds A k' l'.
Proof.
move=> SA Hk Hl RB CB; case: (SA) => R Cc.
have [||||C [-> [RC [CC EC]]]] := @set_block_ok F A B (off ds k) (off ds l) (dim_k ds k) (dim_k ds l) => //.
- by rewrite R; exact: off_fit.
- by rewrite Cc; exact: off_fit.
have SC : sq C by split; rewrite ?RC ?CC.
exists C; split=> //; split=> // k' l' Hk' Hl'.
have X a b : (a < dim_k ds k')%N -> (b < dim_k ds l')%N ->
  entry C (off ds k' + a) (off ds l' + b) = if (k' == k) && (l' == l) then entry B (off ds k' + a - off ds k) (off ds l' + b - off ds l) else entry A (off ds k' + a) (off ds l' + b).
  move=> Ha Hb; rewrite EC ?R ?Cc; last 2 first.
  - by apply: leq_trans (off_fit Hk'); rewrite ltn_add2l.
  - by apply: leq_trans (off_fit Hl'); rewrite ltn_add2l.
  rewrite -(off_in k Ha) -(off_in l Hb) -!andbA; by [].
case: ifP X => [/andP [/eqP ? /eqP ?]|E] X.
  by subst k' l'; apply: blk_eq => // a b Ha Hb; rewrite X // !addKn.
by rewrite !blk_ok //; congr (Ok (DM _)); apply/matrixP => a b; rewrite !mxE X.
Qed.
Lemma blk_zero k l : (k < seq.size ds)%N -> (l < seq.size ds)%N -> blk ds (dzero F N N) k l = Ok (dzero F (dim_k ds k) (dim_k ds l)).
Proof.
have Z m n c e : entry (DM (0 : 'M[F]_(m, n))) c e = 0.
  by rewrite /entry /=; case: insub => // ?; case: insub => // ?; rewrite mxE.
by move=> Hk Hl; apply: blk_eq => // a b Ha Hb; rewrite /dzero !Z.
Qed.
(** an entry of a stacked matrix lies in exactly one block *)
Lemma locate a : (a < N)%N -> exists k x, (k < seq.size ds)%N /\ (x < dim_k ds k)%N /\ a = (off ds k + x)%N.
Proof.
move=> H; have : (a < off ds (seq.size ds))%N by rewrite off_end.
have : (seq.size ds <= seq.size ds)%N by [].
move: {1 3}(seq.size ds) => n; elim: n => [|n IH]; first by rewrite off0.
move=> Hn; case: (ltnP a (off ds n)) => L; first by move=> _; apply: IH => //; exact: ltnW.
by rewrite offS => L2; exists n, (a - off ds n)%N; split=> //; rewrite ltn_subLR // subnKC.
Qed.
(** stacked matrices with the same blocks are the same *)
Lemma blk_ext (A B : dmat) : sq A -> sq B -> (forall k l, (k < seq.size ds)%N -> (l < seq.size ds)%N -> blk ds A k l = blk ds B k l) -> A = B.
Proof.
move=> SA SB H; case: (SA) => RA CA; case: (SB) => RB CB; apply: dmat_eq; rewrite ?RB ?CB // => a b; rewrite RA CA => Ha Hb.
have [k [x [Hk [Hx ->]]]] := locate Ha; have [l [y [Hl [Hy ->]]]] := locate Hb.
have [_ [_ E]] := blk_entry SA Hk Hl (etrans (H _ _ Hk Hl) (blk_ok SB Hk Hl)); rewrite E //.
by rewrite (@entry_mk _ _ _ (fun a b => entry B (off ds k + a) (off ds l + b))).
Qed.
(** symmetrising acts blockwise *)
Lemma blk_symm (A : 'M[F]_N) k l (B : dmat) : (k < seq.size ds)%N -> (l < seq.size ds)%N -> blk ds (DM A) k l = Ok B -> blk ds (DM A) l k = Ok (dtr B) ->
  blk ds (DM (symm A)) k l = Ok B.
Proof.
move=> Hk Hl E1 E2; have S0 : sq (DM A) by []; have S1 : sq (DM (symm A)) by [].
have [R1 [C1 X1]] := blk_entry S0 Hk Hl E1; have [R2 [C2 X2]] := blk_entry S0 Hl Hk E2.
apply: blk_eq => // a b Ha Hb.
have La : (off ds k + a < N)%N by apply: leq_trans (off_fit Hk); rewrite ltn_add2l.
have Lb : (off ds l + b < N)%N by apply: leq_trans (off_fit Hl); rewrite ltn_add2l.
rewrite (entry_in _ La Lb) !mxE -!(entry_in A) X1 // X2 //.
have -> : entry (dtr B) b a = entry B a b.
  case: B R1 C1 {E1 E2 X1 X2 R2 C2} => m n B /= R1 C1.
  have Ha' : (a < m)%N by rewrite R1. have Hb' : (b < n)%N by rewrite C1.
  by rewrite /dtr /= (entry_in _ Ha' Hb') (entry_in _ Hb' Ha') mxE.
by rewrite -mulr2n -mulr_natl mulrA mulVf ?mul1r // pnatr_eq0.
Qed.
End Grid.

(** ** stacking *)
Section Stack.
Variable F : realFieldType.
Notation dmat := (dmat F).
Notation belief := (belief F).
Notation dict := (dict belief dmat).
Definition unfixed (bs : list (nat * belief)) := List.filter (fun e => ~~ b_fixed (snd e)) bs.
Definition dims (us : list (nat * belief)) : seq nat := List.map (fun e => bel_dim (snd e)) us.
Lemma dims_size us : seq.size (dims us) = seq.size us. Proof. by rewrite /dims; elim: us => //= a l ->. Qed.
Lemma dims_nth us e pre post : us = pre ++ e :: post -> dim_k (dims us) (seq.size pre) = bel_dim (snd e).
Proof. by move=> ->; rewrite /dim_k /dims; elim: pre => [//|a l IH] /=. Qed.
Lemma get_dimE (bs : list (nat * belief)) : get_dim bs = sumn (dims (unfixed bs)).
Proof.
rewrite /get_dim; have G : forall l s, List.fold_left (fun s e => if ~~ b_fixed (snd e) then (s + bel_dim (snd e))%nat else s) l s = (s + sumn (dims (unfixed l)))%N.
  elim=> [|e l IH] s; first by rewrite addn0.
  by rewrite /= IH; case: (~~ b_fixed e.2) => //=; rewrite -addnA.
by rewrite G.
Qed.
Variable us : list (nat * belief).
Variable t : Z.
Variable d : dict.
Notation ds := (dims us).
Notation n := (seq.size us).
Definition idk (k : nat) : nat := nth 0%N (List.map fst us) k.
Definition inner (ei : nat * belief) (row : nat) (s' : dmat * nat) (ej : nat * belief) : outcome (dmat * nat) :=
  let di := bel_dim (snd ei) in let dj := bel_dim (snd ej) in let col := snd s' in
  let! Sg := (if (fst ei =? fst ej)%nat then dset_block (fst s') row col di dj (b_Sigma (snd ei))
             else if (fst ei <? fst ej)%nat then
               let! Sij := get_Sigma_IJ (fst ei) (fst ej) t d in
               if dsize Sij != 0%N then
                 let! Sg := dset_block (fst s') row col di dj Sij in dset_block Sg col row dj di (dtr Sij)
               else Ok (fst s')
             else Ok (fst s')) in
  Ok (Sg, (col + dj)%nat).
Definition outer (s : dmat * nat) (ei : nat * belief) : outcome (dmat * nat) :=
  let! (Sg, _) := ofold (inner ei (snd s)) (fst s, 0%nat) us in Ok (Sg, (snd s + bel_dim (snd ei))%nat).
(** the cross-covariance blocks: what the handler returns, zero when there is none *)
Definition xblk (k l : nat) : dmat :=
  match get_Sigma_IJ (idk k) (idk l) t d with
  | Ok X => if dsize X != 0%N then X else dzero F (dim_k ds k) (dim_k ds l)
  | _ => dzero F (dim_k ds k) (dim_k ds l)
  end.
Definition dblk (k : nat) : dmat := nth (dempty F) (List.map (fun e => b_Sigma (snd e)) us) k.
Definition tblk (k l : nat) : dmat := if k == l then dblk k else if (k < l)%N then xblk k l else dtr (xblk l k).
Lemma dblk_rows k : (k < n)%N -> drows (dblk k) = dim_k ds k.
Proof. by rewrite /dblk /dim_k /dims; elim: us k => [|a l IH] [|k] //= H; exact: IH. Qed.
Hypothesis asc : forall k l, (k < l)%N -> (l < n)%N -> (idk k < idk l)%nat.
Hypothesis sqr : forall k, (k < n)%N -> dcols (dblk k) = dim_k ds k.
Hypothesis cross : forall k l, (k < l)%N -> (l < n)%N ->
  exists X, get_Sigma_IJ (idk k) (idk l) t d = Ok X /\ (dsize X = 0%N \/ drows X = dim_k ds k /\ dcols X = dim_k ds l).

Lemma nth_pre pre e post : us = pre ++ e :: post -> idk (seq.size pre) = fst e /\ dblk (seq.size pre) = b_Sigma (snd e) /\ (seq.size pre < n)%N.
Proof.
move=> E; rewrite /idk /dblk E; split; last split.
- by elim: pre {E} => [//|a l IH] /=.
- by elim: pre {E} => [//|a l IH] /=.
- by rewrite size_cat /= addnS ltnS leq_addr.
Qed.
Lemma tblk_dims k l : (k < n)%N -> (l < n)%N -> drows (tblk k l) = dim_k ds k /\ dcols (tblk k l) = dim_k ds l.
Proof.
move=> Hk Hl; rewrite /tblk; case: eqP => [<-|Ne]; first by rewrite dblk_rows // sqr.
have X a b : (a < b)%N -> (b < n)%N -> drows (xblk a b) = dim_k ds a /\ dcols (xblk a b) = dim_k ds b.
  move=> L Hb; have [Y [E H]] := cross L Hb; rewrite /xblk E; case: ifP => //= /eqP Nz; case: H => // H; by rewrite H.
case: ltngtP => // L; first exact: X.
by have [R C] := X _ _ L Hk; rewrite /dtr /= R C.
Qed.
Definition Inv (A : dmat) (r c : nat) : Prop := forall k l, (k < n)%N -> (l < n)%N ->
  blk ds A k l = Ok (if (minn k l < r)%N || ((minn k l == r) && (maxn k l < c)%N) then tblk k l else dzero F (dim_k ds k) (dim_k ds l)).

Lemma inner_step pre e post r er pr pr' (A : dmat) : us = pre ++ e :: post -> us = pr ++ er :: pr' -> seq.size pr = r ->
  sq ds A -> Inv A r (seq.size pre) ->
  exists C, inner er (off ds r) (A, off ds (seq.size pre)) e = Ok (C, off ds (seq.size pre).+1) /\ sq ds C /\ Inv C r (seq.size pre).+1.
Proof.
move=> Ee Er Sr SA HA; have [Ie [De Le]] := nth_pre Ee; have [Ir [Dr Lr]] := nth_pre Er; rewrite Sr in Ir Dr Lr.
set c := seq.size pre in Ie De Le HA *; have dc := dims_nth Ee; have dr := dims_nth Er; rewrite -/c in dc; rewrite Sr in dr.
rewrite /inner /= -Ie -Ir -dc -dr offS -Dr.
have Lr' : (r < seq.size ds)%N by rewrite dims_size.
have Lc' : (c < seq.size ds)%N by rewrite dims_size.
case: (ltngtP c r) => [L|L|E].
- (* below the diagonal: nothing *)
  have /ltP := asc L Lr; case: Nat.eqb_spec => [E|_] H; first by rewrite E in H; case: (Nat.lt_irrefl _ H).
  have -> : (idk r <? idk c)%nat = false by apply/Nat.ltb_ge; lia.
  exists A; split=> //; split=> // k l Hk Hl; rewrite HA //; congr (Ok (if _ || _ then _ else _)).
  case: eqP => //= M; have Mx : (r <= maxn k l)%N by rewrite -M; exact: leq_trans (geq_minl k l) (leq_maxl k l).
  by rewrite [RHS]ltnNge (leq_trans L Mx) [LHS]ltnNge (leq_trans (ltnW L) Mx).
- (* right of the diagonal: the block and its transpose *)
  have /ltP := asc L Le; case: Nat.eqb_spec => [E|_] H; first by rewrite E in H; case: (Nat.lt_irrefl _ H).
  have -> : (idk r <? idk c)%nat = true by apply/Nat.ltb_lt.
  have [X [EX DX]] := cross L Le; rewrite EX /=.
  have Tx : tblk r c = xblk r c by rewrite /tblk; case: eqP => [E|_]; [rewrite E ltnn in L|rewrite L].
  have Tx' : tblk c r = dtr (xblk r c) by rewrite /tblk eq_sym; case: eqP => [E|_]; [rewrite E ltnn in L|rewrite ltnNge (ltnW L)].
  have Q k l : (minn k l == r) && (maxn k l < c.+1)%N = (minn k l == r) && (maxn k l < c)%N || ((k == r) && (l == c) || (k == c) && (l == r)).
    have Nrc : (r == c) = false by apply/negbTE; rewrite neq_ltn L.
    case: (leqP k l) => Lkl; rewrite ltnS leq_eqVlt.
      case: (k =P r) => [->|_] /=; last by case: (k =P c) => [Ek|//] /=; case: (l =P r) => [El|//]; move: Lkl; rewrite Ek El leqNgt L.
      by rewrite Nrc /= orbF orbC.
    case: (l =P r) => [->|_] /=; last by rewrite andbF orbF; case: (k =P r) => [Ek|//] /=; case: (l =P c) => [El|//]; move: Lkl; rewrite Ek El ltnNge (ltnW L).
    by rewrite andbT Nrc andbF /= orbC.
  case: ifP => Hs.
    have Xe : xblk r c = X by rewrite /xblk EX Hs.
    case: DX => [Z|[DX1 DX2]]; first by rewrite Z in Hs.
    have [C1 [E1 [S1 B1]]] := set_grid SA Lr' Lc' DX1 DX2; rewrite E1 /=.
    have [|| C2 [E2 [S2 B2]]] := @set_grid F ds C1 (dtr X) c r S1 Lc' Lr' => //.
    rewrite E2 /=; exists C2; split=> //; split=> // k l Hk Hl.
    rewrite B2 ?dims_size // B1 ?dims_size // HA // Q orbA.
    case: (boolP ((k == c) && (l == r))) => [/andP [/eqP -> /eqP ->]|_]; first by rewrite !orbT Tx' Xe.
    case: (boolP ((k == r) && (l == c))) => [/andP [/eqP -> /eqP ->]|_]; first by rewrite !orbT Tx Xe.
    by rewrite !orbF.
  have Xe : xblk r c = dzero F (dim_k ds r) (dim_k ds c) by rewrite /xblk EX Hs.
  exists A; split=> //; split=> // k l Hk Hl; rewrite HA // Q orbA.
  case: (boolP (_ || _)) => //= _.
  case: (boolP ((k == c) && (l == r))) => [/andP [/eqP -> /eqP ->]|_]; first by rewrite orbT Tx' Xe /dtr /= trmx0.
  by case: (boolP ((k == r) && (l == c))) => [/andP [/eqP -> /eqP ->]|_] //; rewrite Tx Xe.
- (* the diagonal block *)
  subst r; rewrite E in Ir Dr dr *; rewrite Nat.eqb_refl.
  have [C1 [E1 [S1 B1]]] := set_grid SA Lr' Lr' (dblk_rows Lr) (sqr Lr); rewrite E1 /=.
  exists C1; split=> //; split=> // k l Hk Hl; rewrite B1 ?dims_size // HA // E.
  case: (boolP ((k == seq.size pr) && (l == seq.size pr))) => [/andP [/eqP -> /eqP ->]|Nd].
    by rewrite minnn maxnn eqxx ltnS leqnn orbT /tblk eqxx.
  congr (Ok (if _ || _ then _ else _)).
  case: eqP => //= M; rewrite ltnS [RHS]leq_eqVlt; case: eqP => //= M2.
  case/negP: Nd; case: (leqP k l) M M2 => _ -> ->; by rewrite eqxx.
Qed.
Lemma inner_run r er pr pr' : us = pr ++ er :: pr' -> seq.size pr = r -> forall post pre (A : dmat), us = pre ++ post -> sq ds A -> Inv A r (seq.size pre) ->
  exists C, ofold (inner er (off ds r)) (A, off ds (seq.size pre)) post = Ok (C, off ds n) /\ sq ds C /\ Inv C r n.
Proof.
move=> Er Sr; elim=> [|e post IH] pre A Ee SA HA.
  by rewrite cats0 in Ee; exists A; rewrite -Ee in HA *.
have [C [E [SC HC]]] := inner_step Ee Er Sr SA HA; rewrite /= E /=.
have := IH (rcons pre e) C; rewrite cat_rcons size_rcons; exact.
Qed.
Lemma outer_run : forall post pre (A : dmat), us = pre ++ post -> sq ds A -> Inv A (seq.size pre) 0 ->
  exists C, ofold outer (A, off ds (seq.size pre)) post = Ok (C, off ds n) /\ sq ds C /\ Inv C n 0.
Proof.
elim=> [|e post IH] pre A Ee SA HA.
  by rewrite cats0 in Ee; exists A; rewrite -Ee in HA *.
have H0 : Inv A (seq.size pre) (seq.size ([::] : list (nat * belief))) by [].
have [C [E [SC HC]]] := inner_run Ee erefl (erefl : us = [::] ++ us) SA H0; rewrite /= off0 in E.
rewrite /= {1}/outer /= E /= -(dims_nth Ee) -offS.
have := IH (rcons pre e) C; rewrite cat_rcons size_rcons; apply=> // k l Hk Hl; rewrite HC //.
congr (Ok (if _ then _ else _)); rewrite ltn0 andbF orbF gtn_max Hk Hl !andbT.
by rewrite [RHS]ltnS [RHS]leq_eqVlt orbC.
Qed.
Lemma stack_run : exists A : 'M[F]_(sumn ds), ofold outer (dzero F (sumn ds) (sumn ds), 0%N) us = Ok (DM A, sumn ds) /\
  forall k l, (k < n)%N -> (l < n)%N -> blk ds (DM A) k l = Ok (tblk k l).
Proof.
have H0 : Inv (dzero F (sumn ds) (sumn ds)) (seq.size ([::] : list (nat * belief))) 0.
  by move=> k l Hk Hl; rewrite !ltn0 andbF blk_zero ?dims_size.
have [C [E [[RC CC] HC]]] := outer_run (erefl : us = [::] ++ us) (conj erefl erefl : sq ds (dzero F (sumn ds) (sumn ds))) H0.
case: C RC CC E HC => m m' C /= RC CC; subst m m'; rewrite off0 => E HC.
exists C; split; first by rewrite E -dims_size off_end.
by move=> k l Hk Hl; rewrite HC // gtn_min Hk.
Qed.
End Stack.

(** ** the whole of stack_Sigma *)
Section StackSigma.
Variable F : realFieldType.
Notation dmat := (dmat F).
Notation belief := (belief F).
Notation dict := (dict belief dmat).
Lemma stack_SigmaE (bs : list (nat * belief)) t (d : dict) : stack_Sigma bs t d =
  let us := unfixed bs in let N := sumn (dims us) in
  let! (Sg, _) := ofold (outer us t d) (dzero F N N, 0%N) us in symmetrize_covariance Sg.
Proof.
rewrite /stack_Sigma /= -get_dimE -(ofold_filter _ (outer _ _ _)); congr (obind _ _).
apply: ofold_ext => s e; case: ifP => // _; rewrite /outer /unfixed -(ofold_filter _ (inner _ _ _ _)).
by congr (obind _ _); apply: ofold_ext => s' e'; rewrite /inner; case: ifP.
Qed.
Lemma dtrK (A : dmat) : dtr (dtr A) = A.
Proof. by case: A => m n A; rewrite /dtr /= trmxK. Qed.
Lemma stack_spec (bs : list (nat * belief)) t (d : dict) : let us := unfixed bs in let n := seq.size us in let ds := dims us in
  (forall k l, (k < l)%N -> (l < n)%N -> (idk us k < idk us l)%N) ->
  (forall k, (k < n)%N -> dtr (dblk us k) = dblk us k) ->
  (forall k l, (k < l)%N -> (l < n)%N ->
     exists X, get_Sigma_IJ (idk us k) (idk us l) t d = Ok X /\ (dsize X = 0%N \/ drows X = dim_k ds k /\ dcols X = dim_k ds l)) ->
  exists A : 'M[F]_(sumn ds), stack_Sigma bs t d = Ok (DM A) /\ symmetric A /\
    forall k l, (k < n)%N -> (l < n)%N -> blk ds (DM A) k l = Ok (tblk us t d k l).
Proof.
move=> us n ds asc sym cross.
have sqr k : (k < n)%N -> dcols (dblk us k) = dim_k ds k.
  by move=> Hk; rewrite -(dblk_rows Hk) -{2}(sym _ Hk).
have [A [E B]] := stack_run asc sqr cross.
exists (symm A); rewrite stack_SigmaE /= E /= symmetrize_ok; split=> //; split; first exact: symm_sym.
move=> k l Hk Hl; apply: blk_symm; rewrite ?dims_size //; first exact: B.
rewrite B //; congr Ok; rewrite /tblk; case: (ltngtP k l) => [L|L|E0]; rewrite ?dtrK //.
by rewrite E0 sym // -E0.
Qed.
End StackSigma.

(** ** writing back *)
Section Split.
Variable F : realFieldType.
Notation dmat := (dmat F).
Notation belief := (belief F).
Notation dict := (dict belief dmat).
Variable us : list (nat * belief).
Variable t : Z.
Variable Sg : dmat.
Notation ds := (dims us).
Notation n := (seq.size us).
Hypothesis SS : sq ds Sg.
Hypothesis asc : forall k l, (k < l)%N -> (l < n)%N -> (idk us k < idk us l)%N.
Lemma idk_inj k l : (k < n)%N -> (l < n)%N -> idk us k = idk us l -> k = l.
Proof.
by move=> Hk Hl E; case: (ltngtP k l) => // L; [have := asc L Hl|have := asc L Hk]; rewrite E ltnn.
Qed.
(** the same instances, with the same beliefs *)
Definition sameb (d d' : dict) : Prop := List.map fst d' = List.map fst d /\ (forall id k, bel_of d' id k = bel_of d id k) /\
  (forall id, d_find id d = None <-> d_find id d' = None) /\
  (forall id ii, d_find id d = Some ii -> exists ii', d_find id d' = Some ii' /\ i_enabled ii' = i_enabled ii).
Lemma sameb_refl d : sameb d d.
Proof. by split=> //; split=> //; split=> // id ii G; exists ii. Qed.
Lemma sameb_trans d1 d2 d3 : sameb d1 d2 -> sameb d2 d3 -> sameb d1 d3.
Proof.
move=> [K1 [B1 [N1 E1]]] [K2 [B2 [N2 E2]]]; split; first by rewrite K2.
split; first by move=> id k; rewrite B2.
split; first by move=> id; rewrite N1.
by move=> id ii /E1 [i2 [/E2 [i3 [G3 e3]] e2]]; exists i3; rewrite e3.
Qed.
Lemma sameb_some d d' id : sameb d d' -> d_find id d <> None -> d_find id d' <> None.
Proof. by move=> [_ [_ [N _]]] H G; apply: H; apply/N. Qed.
Definition eyeI m : dmat := deye F m m.
(** [wrote d d' r c]: the pairs (r, c), (r, c+1), ... hold the blocks of Sg; nothing else changed *)
Lemma split_row_spec r er pr pr' : us = pr ++ er :: pr' -> seq.size pr = r -> forall post pre (d : dict), us = pre ++ post -> (r < seq.size pre)%N ->
  (forall k, (k < n)%N -> d_find (idk us k) d <> None) ->
  exists d', split_row Sg (idk us r) (dim_k ds r) (off ds r) (off ds (seq.size pre)) post t d = Ok d' /\ sameb d d' /\
    (forall l, (seq.size pre <= l)%N -> (l < n)%N -> exists B, blk ds Sg r l = Ok B /\
       fac_of d' (idk us r) (idk us l) t = Some B /\ fac_of d' (idk us l) (idk us r) t = Some (eyeI (dcols B))) /\
    (forall id j k, ~ (k = t /\ exists l, (seq.size pre <= l)%N /\ (l < n)%N /\ (id = idk us r /\ j = idk us l \/ id = idk us l /\ j = idk us r)) ->
       fac_of d' id j k = fac_of d id j k).
Proof.
move=> Er Sr; elim=> [|[J b] post IH] pre d Ee Hr Reg.
  rewrite cats0 in Ee; exists d; split=> //; split; first exact: sameb_refl.
  by split=> // l; rewrite -Ee => H1 H2; move: (leq_trans H2 H1); rewrite ltnn.
have [Ie [_ Le]] := nth_pre Ee; have [_ [_ Lr]] := nth_pre Er; rewrite Sr in Lr; have dc := dims_nth Ee.
rewrite /= -dc; set c := seq.size pre in Ie Le Hr dc *.
have Lr' : (r < seq.size ds)%N by rewrite dims_size.
have Lc' : (c < seq.size ds)%N by rewrite dims_size.
have EB := blk_ok SS Lr' Lc'; set B := DM _ in EB; rewrite -/(blk ds Sg r c) EB /=.
have Lrc : (idk us r < idk us c)%N by exact: asc.
have Nrc : idk us r <> idk us c by move=> E; rewrite E ltnn in Lrc.
case Gr : (d_find (idk us r) d) => [ir|]; last by case: (Reg r Lr).
case Gc : (d_find (idk us c) d) => [ic|]; last by case: (Reg c Le).
have EJ : J = idk us c by rewrite Ie.
case: (set_Sigma_spec B t Nrc Gr Gc) => d1 [E1 [K1 [B1 [N1 [En1 [F1 [F2 F3]]]]]]].
rewrite EJ E1 /=.
have Lt : (idk us r <? idk us c)%nat = true by apply/Nat.ltb_lt; apply/ltP.
have /ltP Lrc' := Lrc.
rewrite Lt (Nat.min_l (idk us r) (idk us c)) in F1 F2 F3; last lia.
rewrite (Nat.max_r (idk us r) (idk us c)) in F1 F2 F3; last lia.
have S1 : sameb d d1 by split=> //.
have := IH (rcons pre (J, b)) d1; rewrite size_rcons cat_rcons -/c offS.
case=> //; first exact: (ltn_trans Hr).
  by move=> k Hk; apply: (sameb_some S1); exact: Reg.
move=> d' [E' [S' [P' F']]]; exists d'; split=> //; split; first exact: sameb_trans S'.
split.
  move=> l Hl Ln; case: (ltngtP c l) Hl => // [L _|El _]; first exact: P'.
  subst l.
  have X l : (c < l)%N -> (l < n)%N -> idk us c <> idk us l by move=> H1 H2 E; rewrite -(idk_inj Le H2 E) ltnn in H1.
  by exists B; split=> //; rewrite !F' ?F1 ?F2 //; move=> [_ [l [H1 [H2 H3]]]]; have := X _ H1 H2;
    case: H3 => [[H3 H4]|[H3 H4]]; congruence.
move=> id j k H; rewrite F' ?F3 //.
- by move=> [? [? ?]]; apply: H; split=> //; exists c; split=> //; split=> //; left.
- by move=> [? [? ?]]; apply: H; split=> //; exists c; split=> //; split=> //; right.
- by move=> [? [l [H1 [H2 H3]]]]; apply: H; split=> //; exists l; split; [exact: ltnW|].
Qed.
Lemma split_rows_spec : forall post pre (d : dict), us = pre ++ post -> post <> nil ->
  (forall k, (k < n)%N -> d_find (idk us k) d <> None) ->
  exists d', split_rows Sg (off ds (seq.size pre)) post t d = Ok d' /\ sameb d d' /\
    (forall k l, (seq.size pre <= k)%N -> (k < l)%N -> (l < n)%N -> exists B, blk ds Sg k l = Ok B /\
       fac_of d' (idk us k) (idk us l) t = Some B /\ fac_of d' (idk us l) (idk us k) t = Some (eyeI (dcols B))) /\
    (forall id j k, ~ (k = t /\ exists p q, (seq.size pre <= p)%N /\ (p < n)%N /\ (seq.size pre <= q)%N /\ (q < n)%N /\ p <> q /\ id = idk us p /\ j = idk us q) ->
       fac_of d' id j k = fac_of d id j k).
Proof.
elim=> [//|[J b] post IH] pre d Ee _ Reg.
have [Ie [_ Le]] := nth_pre Ee; have dc := dims_nth Ee.
case: post IH Ee => [|e2 post] IH Ee.
  exists d; split=> //; split; first exact: sameb_refl.
  split=> // k l Hk L Hl; exfalso; have En : n = (seq.size pre).+1 by rewrite Ee size_cat /= addn1.
  by move: (leq_ltn_trans Hk L); rewrite ltnNge -ltnS -En Hl.
have Ee2 : us = rcons pre (J, b) ++ e2 :: post by rewrite cat_rcons.
have Sz : seq.size (rcons pre (J, b)) = (seq.size pre).+1 by rewrite size_rcons.
have [|//|d1 [E1 [S1 [P1 F1]]]] := split_row_spec Ee (erefl _) (d := d) Ee2; first by rewrite Sz.
have Reg1 k : (k < n)%N -> d_find (idk us k) d1 <> None by move=> Hk; apply: (sameb_some S1); exact: Reg.
have [//|d' [E' [S' [P' F']]]] := IH (rcons pre (J, b)) d1 Ee2 _ Reg1.
exists d'; split.
  have dc' : dim_k ds (seq.size pre) = bel_dim b := dc.
  have Ie' : idk us (seq.size pre) = J := Ie.
  rewrite Sz offS dc' Ie' in E1; rewrite Sz offS dc' in E'.
  by rewrite -[split_rows _ _ _ _ _]/(let! d := split_row Sg J (bel_dim b) (off ds (seq.size pre)) (off ds (seq.size pre) + bel_dim b) (e2 :: post) t d in split_rows Sg (off ds (seq.size pre) + bel_dim b) (e2 :: post) t d) E1.
split; first exact: sameb_trans S'.
rewrite Sz in P1 F1 P' F'.
split.
  move=> k l Hk L Hl; case: (ltngtP (seq.size pre) k) Hk => // [Lk _|Ek _]; first exact: P'.
  subst k; have [B [EB [FB1 FB2]]] := P1 l L Hl; exists B; split=> //.
  by rewrite !F' ?FB1 ?FB2 //; move=> [_ [p [q [H1 [H2 [H3 [H4 [_ [H5 H6]]]]]]]]];
    [rewrite -(idk_inj Le H4 H6) ltnn in H3|rewrite -(idk_inj Le H2 H5) ltnn in H1].
move=> id j k H; rewrite F'; last first.
  by move=> [Ek [p [q [H1 [H2 [H3 [H4 [H7 [H5 H6]]]]]]]]]; apply: H; split=> //; exists p, q; do !split=> //; exact: ltnW.
apply: F1 => -[Ek [l [H1 [H2 H3]]]]; apply: H; split=> //.
have Nl : seq.size pre <> l by move=> E; rewrite E ltnn in H1.
have Ll : (seq.size pre <= l)%N by exact: ltnW.
by case: H3 => [[-> ->]|[-> ->]]; [exists (seq.size pre), l|exists l, (seq.size pre)]; do !split=> //; move=> E; apply: Nl.
Qed.
End Split.

Section Frame.
Variable F : realFieldType.
Notation dmat := (dmat F).
Notation belief := (belief F).
Notation dict := (dict belief dmat).
Lemma nth_idk (l : list (nat * belief)) k : (k < seq.size l)%N -> exists b, List.nth_error l k = Some (idk l k, b).
Proof. by rewrite /idk; elim: l k => [|[x b] l IH] [|k] //= H; [exists b|exact: IH]. Qed.
Lemma set_Sigma_find I J (X : dmat) t (d d' : dict) id : set_Sigma_IJ I J X t d = Ok d' -> id <> I -> id <> J -> d_find id d' = d_find id d.
Proof.
rewrite /set_Sigma_IJ; case: Nat.ltb.
  case E1: mod_inst => [d1|e|e] //= E2 N1 N2; by rewrite (mod_inst_find E2) // (mod_inst_find E1).
case E1: mod_inst => [d1|e|e] //= E2 N1 N2; by rewrite (mod_inst_find E2) // (mod_inst_find E1).
Qed.
Lemma split_row_find Sg I di row (us : list (nat * belief)) t id : ~ List.In id (List.map fst us) -> id <> I -> forall col (d d' : dict),
  split_row Sg I di row col us t d = Ok d' -> d_find id d' = d_find id d.
Proof.
move=> + NI; elim: us => [|[J b] us IH] /= H c d d'; first by case=> ->.
case: dblock => //= X; case E: set_Sigma_IJ => [d1|e|e] //= E2.
have NJ : id <> J by move=> E'; apply: H; left.
have Nu : ~ List.In id (List.map fst us) by move=> E'; apply: H; right.
by rewrite (IH Nu _ _ _ E2) (set_Sigma_find E).
Qed.
Lemma split_rows_find Sg (us : list (nat * belief)) t id : ~ List.In id (List.map fst us) -> forall row (d d' : dict),
  split_rows Sg row us t d = Ok d' -> d_find id d' = d_find id d.
Proof.
elim: us => [//|[J b] us IH] /= H row d d'.
case: us IH H => [_ _ [->] //|e us] IH H.
case E: split_row => [d1|x|x] //= E2.
have NJ : id <> J by move=> E'; apply: H; left.
have Nu : ~ List.In id (List.map fst (e :: us)) by move=> E'; apply: H; right.
by rewrite (IH Nu _ _ _ E2) (split_row_find Nu NJ E).
Qed.
End Frame.

(** ** the three write phases *)
Section Write.
Variable F : realFieldType.
Variable junk : forall n, 'M[F]_n -> 'M[F]_n.
Notation dmat := (dmat F).
Notation belief := (belief F).
Notation dict := (dict belief dmat).
Notation inst := (inst belief dmat).
Variable us : list (nat * belief).
Variable t : Z.
Notation ds := (dims us).
Notation n := (seq.size us).
Hypothesis asc : forall k l, (k < l)%N -> (l < n)%N -> (idk us k < idk us l)%N.
Lemma upd_same id (i : inst) (d : dict) : d_find id d = Some i -> d_upd id i d = d.
Proof. by elim: d => [//|[k x] d IH] /=; case: Nat.eqb_spec => [_ [->]|_ /IH ->]. Qed.
(** an in-place loop over the participants, each step modifying one participant's instance *)
Definition each {X} (prep : nat -> nat * belief -> outcome X) (step : X -> inst -> outcome inst) (s : dict * nat) (e : nat * belief) : outcome (dict * nat) :=
  let! x := prep (snd s) e in let! d := mod_inst (fst e) (step x) (fst s) in Ok (d, (snd s + bel_dim (snd e))%nat).
Lemma each_spec {X} (prep : nat -> nat * belief -> outcome X) step : forall post pre (d : dict), us = pre ++ post ->
  (forall pre1 e post1, us = pre1 ++ e :: post1 -> (seq.size pre <= seq.size pre1)%N ->
     exists x i i', prep (off ds (seq.size pre1)) e = Ok x /\ d_find (fst e) d = Some i /\ step x i = Ok i') ->
  exists d', ofold (each prep step) (d, off ds (seq.size pre)) post = Ok (d', off ds n) /\ List.map fst d' = List.map fst d /\
    (forall id, (forall k, (seq.size pre <= k)%N -> (k < n)%N -> id <> idk us k) -> d_find id d' = d_find id d) /\
    (forall pre1 e post1, us = pre1 ++ e :: post1 -> (seq.size pre <= seq.size pre1)%N ->
      exists x i i', prep (off ds (seq.size pre1)) e = Ok x /\ d_find (fst e) d = Some i /\ step x i = Ok i' /\ d_find (fst e) d' = Some i').
Proof.
elim=> [|e post IH] pre d Ee H.
  rewrite cats0 in Ee; exists d; split; first by rewrite -Ee.
  split=> //; split=> // pre1 e post1 E1; rewrite -Ee E1 size_cat /= addnS => L; exfalso.
  by move: (leq_ltn_trans (leq_addr (seq.size post1) _) L); rewrite ltnn.
have [Ie [_ Le]] := nth_pre Ee; have dc := dims_nth Ee.
have [x [i [i' [Px [G S]]]]] := H _ _ _ Ee (leqnn _).
have E1 : each prep step (d, off ds (seq.size pre)) e = Ok (d_upd (fst e) i' d, off ds (seq.size pre).+1).
  by rewrite /each /= Px /= /mod_inst /at_inst G /= S /= offS dc.
have FD id : d_find id (d_upd (fst e) i' d) = if (id =? fst e)%nat then Some i' else d_find id d by rewrite find_upd G.
have Ne k : (seq.size pre < k)%N -> (k < n)%N -> idk us k <> fst e.
  by move=> H1 H2 E; move: (asc H1 H2); rewrite E Ie ltnn.
have Sz : seq.size (rcons pre e) = (seq.size pre).+1 by rewrite size_rcons.
have [||d' [E' [K' [F' P']]]] := IH (rcons pre e) (d_upd (fst e) i' d).
- by rewrite cat_rcons.
- move=> pre1 e1 post1 Ee1; rewrite Sz => L1; have [Ie1 [_ Le1]] := nth_pre Ee1.
  have [x1 [i1 [i1' [Px1 [G1 S1]]]]] := H _ _ _ Ee1 (ltnW L1).
  by exists x1, i1, i1'; split=> //; split=> //; rewrite FD; case: Nat.eqb_spec => // E; case: (Ne _ L1 Le1); rewrite Ie1.
rewrite Sz in E' F' P'; exists d'; rewrite /= E1 /=; split=> //; split; first by rewrite K' upd_keys.
split.
  move=> id N; rewrite F'; first by rewrite FD; case: Nat.eqb_spec => // E; case: (N _ (leqnn _) Le); rewrite Ie.
  by move=> k L1 L2; apply: N => //; exact: ltnW.
move=> pre1 e1 post1 Ee1; have [Ie1 [_ Le1]] := nth_pre Ee1.
case: ltngtP => // [L1 _|Es _].
  have [x1 [i1 [i1' [Px1 [G1 [S1 G1']]]]]] := P' _ _ _ Ee1 L1; exists x1, i1, i1'; split=> //; split=> //.
  by move: G1; rewrite FD; case: Nat.eqb_spec => // E; case: (Ne _ L1 Le1); rewrite Ie1.
have [Epre Ee'] : pre1 = pre /\ e1 = e.
  by have [-> [->]] := cat_inj_size (esym Es) (etrans (esym Ee1) Ee).
subst pre1 e1; exists x, i, i'; split=> //; split=> //; split=> //; rewrite F'; first by rewrite FD Nat.eqb_refl.
by move=> k L1 L2 E; case: (Ne _ L1 L2).
Qed.

Lemma nth_cut k e : List.nth_error us k = Some e <-> exists pre post, us = pre ++ e :: post /\ seq.size pre = k.
Proof.
split=> [|[pre [post [-> <-]]]]; last by elim: pre.
elim: us k => [|a l IH] [|k] //=; first by case=> ->; exists nil, l.
by move=> /IH [pre [post [-> <-]]]; exists (a :: pre), post.
Qed.
Variables (Sg dx : dmat).
Hypothesis SS : sq ds Sg.
Hypothesis Rdx : drows dx = sumn ds.
Hypothesis Cdx : dcols dx = 1%N.
(** everything the write phases need of the participants *)
Definition part_ok (d : dict) : Prop := forall k id (b : belief), List.nth_error us k = Some (id, b) ->
  dcols (b_Sigma b) = dim_k ds k /\ drows (b_mean b) = dim_k ds k /\ dcols (b_mean b) = 1%N /\
  exists i : inst, d_find id d = Some i /\ List.NoDup (List.map fst (i_ccf i)) /\ forall j m, ccf_at j t i = Some m -> drows m = dim_k ds k.
Lemma dim_rows k id (b : belief) : List.nth_error us k = Some (id, b) -> drows (b_Sigma b) = dim_k ds k /\ bel_dim b = dim_k ds k /\ idk us k = id /\ dblk us k = b_Sigma b /\ (k < n)%N.
Proof. by move=> /nth_cut [pre [post [E <-]]]; rewrite (dims_nth E); have [-> [-> ->]] := nth_pre E. Qed.
Definition step_corr (x : dmat * dmat) (i : inst) : outcome inst := let! c := ccf_correct junk t (fst x) (snd x) (i_ccf i) in Ok (with_ccf c i).
Definition prep_corr (row : nat) (e : nat * belief) : outcome (dmat * dmat) :=
  let! Sii := dblock Sg row row (bel_dim (snd e)) (bel_dim (snd e)) in Ok (b_Sigma (snd e), Sii).
Lemma apply_correctionsE bs d : unfixed bs = us -> apply_corrections junk Sg bs t d = let! (d, _) := ofold (each prep_corr step_corr) (d, 0%N) us in Ok d.
Proof.
move=> <-; rewrite /apply_corrections /unfixed -(ofold_filter _ (each _ _)); congr (obind _ _); apply: ofold_ext => s e.
by case: ifP => // _; rewrite /each /prep_corr; case: dblock.
Qed.
Definition prep_bel (row : nat) (e : nat * belief) : outcome belief :=
  let! Sii := dblock Sg row row (bel_dim (snd e)) (bel_dim (snd e)) in let! v := dblock dx row 0 (bel_dim (snd e)) 1 in bel_correct v Sii (snd e).
Lemma correct_beliefsE bs d : unfixed bs = us -> correct_beliefs Sg dx bs t d =
  let! (d, _) := ofold (each prep_bel (fun b' i => Ok (with_bel (hb_insert t b' (i_bel i)) i))) (d, 0%N) us in Ok d.
Proof.
move=> <-; rewrite /correct_beliefs /unfixed -(ofold_filter _ (each _ _)); congr (obind _ _); apply: ofold_ext => s e.
by case: ifP => // _; rewrite /each /prep_bel; case: dblock => //= A; case: dblock => //= v; case: bel_correct.
Qed.
(** the factor by which the k-th participant's other factors are multiplied *)
Definition Lam (k : nat) (b : belief) (L : dmat) : Prop := exists B iv, blk ds Sg k k = Ok B /\ dinv junk (b_Sigma b) = Ok iv /\ dmul B iv = Ok L.
Lemma correct_ok d : part_ok d -> forall k id b, List.nth_error us k = Some (id, b) -> exists i L c', Lam k b L /\ d_find id d = Some i /\
  dcols L = dim_k ds k /\ drows L = dim_k ds k /\
  ccf_scale t t L (i_ccf i) = Ok c' /\ step_corr (b_Sigma b, odflt (dempty F) (if blk ds Sg k k is Ok B then Some B else None)) i = Ok (with_ccf c' i).
Proof.
move=> P k id b E; have [Cs [Rm [Cm [i [G [ND Hf]]]]]] := P _ _ _ E; have [Rs [Db [Ik [Dk Lk]]]] := dim_rows E.
have Lk' : (k < seq.size ds)%N by rewrite dims_size.
have EB := blk_ok SS Lk' Lk'; set B := DM _ in EB.
case ES: (b_Sigma b) Rs Cs => [m m' S] /= Rs Cs; subst m m'.
have [c' [Ec _]] : exists c', ccf_scale t t (DM (dmx B *m inv_or_junk junk S)) (i_ccf i) = Ok c' /\ List.map fst c' = List.map fst (i_ccf i).
  by apply: scale_ok => // j m; rewrite fac_ccf_at => /Hf.
exists i, (DM (dmx B *m inv_or_junk junk S)), c'; split.
  by exists B, (DM (inv_or_junk junk S)); rewrite ES dinv_ok /B dmul_ok.
do 3!split=> //; split=> //; rewrite EB /step_corr /ccf_correct /= dinv_ok /= /B dmul_ok /=; rewrite -/B in Ec *.
by rewrite Ec.
Qed.
Lemma write_joint_spec bs d : unfixed bs = us -> us <> nil -> part_ok d -> exists d', write_joint junk Sg dx bs t d = Ok d' /\
  List.map fst d' = List.map fst d /\
  (forall id, (forall k b, List.nth_error us k <> Some (id, b)) -> d_find id d' = d_find id d) /\
  (forall id i, d_find id d = Some i -> exists i', d_find id d' = Some i' /\ i_enabled i' = i_enabled i) /\
  (forall k id b, List.nth_error us k = Some (id, b) -> 
     (exists B v b', blk ds Sg k k = Ok B /\ dblock dx (off ds k) 0 (dim_k ds k) 1 = Ok v /\ bel_correct v B b = Ok b' /\ bel_of d' id t = Some b') /\
     (forall s, s <> t -> bel_of d' id s = bel_of d id s)) /\
  (forall k l idk idl bk bl, List.nth_error us k = Some (idk, bk) -> List.nth_error us l = Some (idl, bl) -> (k < l)%N ->
     exists B, blk ds Sg k l = Ok B /\ fac_of d' idk idl t = Some B /\ fac_of d' idl idk t = Some (eyeI F (dcols B))) /\
  (forall k id b j, List.nth_error us k = Some (id, b) -> (forall l bl, List.nth_error us l = Some (j, bl) -> j = id) ->
     exists L, Lam k b L /\ match fac_of d id j t with
       | Some m => exists p, dmul L m = Ok p /\ fac_of d' id j t = Some p
       | None => fac_of d' id j t = None end) /\
  (forall id j s, s <> t -> fac_of d' id j s = fac_of d id j s).
Proof.
move=> Eu Nu P.
have Ix k id b : List.nth_error us k = Some (id, b) -> idk us k = id /\ (k < n)%N by move=> /dim_rows [_ [_ [? [_ ?]]]].
have Xi k : (k < n)%N -> exists b, List.nth_error us k = Some (idk us k, b).
  exact: nth_idk.
(* phase 1 *)
have [|d1 [E1 [K1 [N1 P1]]]] := @each_spec _ prep_corr step_corr us nil d erefl.
  move=> pre [id b] post Ee _; have En : List.nth_error us (seq.size pre) = Some (id, b) by apply/nth_cut; exists pre, post.
  have [i [L [c' [_ [G [_ [_ [_ S]]]]]]]] := correct_ok P En; have [_ [Db [Ik [_ Lk]]]] := dim_rows En.
  have Lk' : (seq.size pre < seq.size ds)%N by rewrite dims_size.
  move: S; rewrite (blk_ok SS Lk' Lk') => S; eexists; exists i, (with_ccf c' i); split; last by split; [exact: G|exact: S].
  by rewrite /prep_corr /= Db -/(blk ds Sg _ _) (blk_ok SS Lk' Lk').
have {}N1 id : (forall k b, List.nth_error us k <> Some (id, b)) -> d_find id d1 = d_find id d.
  move=> H; apply: N1 => k _ Lk E; have [b Eb] := Xi _ Lk; by apply: (H k b); rewrite Eb E.
have {}P1 k id b : List.nth_error us k = Some (id, b) -> exists i L c', Lam k b L /\ d_find id d = Some i /\
   ccf_scale t t L (i_ccf i) = Ok c' /\ d_find id d1 = Some (with_ccf c' i).
  move=> En; have [i [L [c' [HL [G [CL [RL [S1 S2]]]]]]]] := correct_ok P En; have [_ [Db [Ik [_ Lk]]]] := dim_rows En.
  have /nth_cut [pre [post [Ee Sz]]] := En.
  have [x [i2 [i' [Px [G2 [S3 G3]]]]]] := P1 _ _ _ Ee (leq0n _); rewrite /= in Px G2 G3.
  have Lk' : (k < seq.size ds)%N by rewrite dims_size.
  move: Px; rewrite /prep_corr /= Sz Db -/(blk ds Sg _ _) (blk_ok SS Lk' Lk') /= => -[Ex]; subst x.
  move: S2; rewrite (blk_ok SS Lk' Lk') /odflt /oapp => S2.
  move: G2; rewrite G => -[Ei]; subst i2; move: S3; rewrite S2 => -[Ei']; subst i'.
  by exists i, L, c'.
have F1 id : exists f, d_find id d1 = (if d_find id d is Some i then Some (with_ccf (f i) i) else None).
  case G: (d_find id d) => [i|].
    case: (List.in_dec Nat.eq_dec id (List.map fst us)) => [/List.in_map_iff [[x b] [/= -> Hin]]|Nin].
      have [k En] := List.In_nth_error _ _ Hin.
      by have [i' [L [c' [_ [G' [_ ->]]]]]] := P1 _ _ _ En; exists (fun _ => c'); move: G'; rewrite G => -[<-].
    exists (fun i => i_ccf i); rewrite N1 ?G; first by case: i {G}.
    by move=> k b H; apply: Nin; apply/List.in_map_iff; exists (id, b); split=> //; exact: (List.nth_error_In _ _ H).
  exists (fun i => i_ccf i); rewrite N1 // => k b En; have [i [_ [_ [_ [G' _]]]]] := P1 _ _ _ En; by rewrite G in G'.
(* phase 2 *)
have Reg k : (k < n)%N -> d_find (idk us k) d1 <> None.
  by move=> Lk; have [b En] := Xi _ Lk; have [i [L [c' [_ [_ [_ ->]]]]]] := P1 _ _ _ En.
have [d2 [E2 [[K2 [B2 [Nn2 En2]]] [P2 F2]]]] := split_rows_spec t SS asc (erefl : us = [::] ++ us) Nu Reg.
(* phase 3 *)
have B1 id s : bel_of d1 id s = bel_of d id s by rewrite /bel_of; have [f ->] := F1 id; case: d_find.
have Tot k id b : List.nth_error us k = Some (id, b) -> exists B v b', blk ds Sg k k = Ok B /\ dblock dx (off ds k) 0 (dim_k ds k) 1 = Ok v /\ bel_correct v B b = Ok b' /\ prep_bel (off ds k) (id, b) = Ok b'.
  move=> En; have [_ [Rm [Cm _]]] := P _ _ _ En; have [_ [Db [Ik [_ Lk]]]] := dim_rows En.
  have Lk' : (k < seq.size ds)%N by rewrite dims_size.
  have EB := blk_ok SS Lk' Lk'; set B := DM _ in EB.
  have EV : dblock dx (off ds k) 0 (dim_k ds k) 1 = Ok (DM (\matrix_(a < dim_k ds k, b < 1) entry dx (off ds k + a) (0 + b))).
    by rewrite dblock_ok // ?Rdx ?Cdx //; exact: off_fit.
  set V := DM _ in EV.
  have [b' Eb] : exists b', bel_correct V B b = Ok b'.
    rewrite /bel_correct /bel_correct_mean; case: (b_mean b) Rm Cm => p q m /= Rm Cm; subst p q.
    by rewrite /V dadd_ok /=; eexists.
  exists B, V, b'; split=> //; split=> //; split=> //.
  by rewrite /prep_bel /= Db -/(blk ds Sg _ _) EB /= EV.
have [|d3 [E3 [K3 [N3 P3]]]] := @each_spec _ prep_bel (fun b' i => Ok (with_bel (hb_insert t b' (i_bel i)) i)) us nil d2 erefl.
  move=> pre [id b] post Ee _; have En : List.nth_error us (seq.size pre) = Some (id, b) by apply/nth_cut; exists pre, post.
  have [B [v [b' [_ [_ [_ Pb]]]]]] := Tot _ _ _ En; have [Ik Lk] := Ix _ _ _ En.
  have := Reg _ Lk; rewrite Ik; case G: (d_find id d1) => [i1|//] _; have [i2 [G2 _]] := En2 _ _ G.
  by exists b', i2; eexists.
exists d3; split.
  rewrite /= off0 in E1; rewrite /write_joint apply_correctionsE // E1 /=.
  rewrite /split_right_upper -/(unfixed bs) Eu; rewrite /= off0 in E2; rewrite E2 /= correct_beliefsE //.
  by rewrite /= off0 in E3; rewrite E3.
have {}N3 id : (forall k b, List.nth_error us k <> Some (id, b)) -> d_find id d3 = d_find id d2.
  move=> H; apply: N3 => k _ Lk E; have [b Eb] := Xi _ Lk; by apply: (H k b); rewrite Eb E.
have F3 id j s : fac_of d3 id j s = fac_of d2 id j s.
  case: (List.in_dec Nat.eq_dec id (List.map fst us)) => [/List.in_map_iff [[x b] [/= -> Hin]]|Nin].
    have [k /nth_cut [pre [post [Ee Sz]]]] := List.In_nth_error _ _ Hin.
    by have [x2 [i [i' [_ [G [[Ei'] G3]]]]]] := P3 _ _ _ Ee (leq0n _); rewrite /fac_of G3 G -Ei'.
  by rewrite /fac_of N3 // => k b H; apply: Nin; apply/List.in_map_iff; exists (id, b); split=> //; exact: (List.nth_error_In _ _ H).
split; first by rewrite K3 K2.
split.
  move=> id H; rewrite N3 // -N1 //; apply: (split_rows_find _ E2) => /List.in_map_iff [[x b] [/= Ex Hin]].
  by have [k En] := List.In_nth_error _ _ Hin; apply: (H k b); rewrite En Ex.
have En3 id i2 : d_find id d2 = Some i2 -> exists i3, d_find id d3 = Some i3 /\ i_enabled i3 = i_enabled i2.
  move=> G; case: (List.in_dec Nat.eq_dec id (List.map fst us)) => [/List.in_map_iff [[x b] [/= Ex Hin]]|Nin].
    subst x; have [k /nth_cut [pre [post [Ee Sz]]]] := List.In_nth_error _ _ Hin.
    have [x2 [i [i' [_ [G2 [[Ei'] G3]]]]]] := P3 _ _ _ Ee (leq0n _); rewrite /= in G2 G3; exists i'; rewrite G3 -Ei'; split=> //.
    by move: G2; rewrite G => -[->].
  exists i2; rewrite N3 // => k b H; apply: Nin; apply/List.in_map_iff; exists (id, b); split=> //; exact: (List.nth_error_In _ _ H).
split.
  move=> id i G; have [f G1] := F1 id; rewrite G in G1.
  by have [i2 [/En3 [i3 [G3 e3]] e2]] := En2 _ _ G1; exists i3; rewrite e3 e2.
split.
  move=> k id b En; have [B [v [b' [X1 [X2 [X3 X4]]]]]] := Tot _ _ _ En.
  have /nth_cut [pre [post [Ee Sz]]] := En.
  have [x2 [i [i' [Px [G2 [[Ei'] G3]]]]]] := P3 _ _ _ Ee (leq0n _); rewrite /= in G2 G3.
  move: Px; rewrite Sz X4 => -[Eb]; subst x2.
  split; first by exists B, v, b'; do !split=> //; rewrite /bel_of G3 -Ei' /bel_at /= get_ins Z.eqb_refl.
  move=> s Ns; rewrite /bel_of G3 -Ei' /bel_at /= get_ins; case: Z.eqb_spec => // _.
  by have := B2 id s; rewrite B1 /bel_of G2 => <-.
split.
  move=> k l ik il bk bl Ek El Lkl; have [Ik Lk] := Ix _ _ _ Ek; have [Il Ll] := Ix _ _ _ El.
  have [B [EB [X1 X2]]] := P2 k l (leq0n _) Lkl Ll; rewrite Ik Il in X1 X2.
  by exists B; rewrite !F3.
have F2' id j : (forall l bl, List.nth_error us l = Some (j, bl) -> j = id) -> forall s, fac_of d2 id j s = fac_of d1 id j s.
  move=> Nj s; apply: F2 => -[_ [p [q [_ [Hp [_ [Hq [Npq [Ei Ej]]]]]]]]].
  have [b Eb] := Xi _ Hq; apply: Npq; apply: (idk_inj asc) => //; rewrite -Ei -Ej; apply/esym; apply: (Nj q b); by rewrite Eb Ej.
split.
  move=> k id b j En Nj; have [i [L [c' [HL [G [Sc G1]]]]]] := P1 _ _ _ En.
  exists L; split=> //; rewrite F3 (F2' _ _ Nj) /fac_of G G1 -!fac_ccf_at /=.
  have [_ [X1 X2]] := fac_scale Sc j t.
  by case E: (fac j t (i_ccf i)) => [m|]; [exact: X2|rewrite X1].
move=> id j s Ns; rewrite F3 F2; last by case.
rewrite /fac_of; case: (List.in_dec Nat.eq_dec id (List.map fst us)) => [/List.in_map_iff [[x b] [/= Ex Hin]]|Nin].
  subst x; have [k En] := List.In_nth_error _ _ Hin; have [i [L [c' [HL [G [Sc G1]]]]]] := P1 _ _ _ En.
  by rewrite G G1 -!fac_ccf_at /=; have [-> //] := fac_scale Sc j s.
rewrite N1 // => k b H; apply: Nin; apply/List.in_map_iff; exists (id, b); split=> //; exact: (List.nth_error_In _ _ H).
Qed.
End Write.
