(** C87 (sample statistics), C88 (conversions), C38 for four participants. *)
From Coq Require Import ZArith List Lia.
From mathcomp Require Import all_ssreflect all_algebra.
From Verif Require Import Outcome DMat Spec_Mat KFProofs EigenModel EigenProofs IsoModel ConvModel ConvProofs Spec_Repair Spec_Joint JointProofs.
Set Implicit Arguments. Unset Strict Implicit. Unset Printing Implicit Defensive.
Import Order.Theory GRing.Theory Num.Theory.
Local Open Scope ring_scope.

Section C87.
Variable F : realFieldType.
Variable garbage : forall m n, 'M[F]_(m, n).
Variable nan : forall n, 'M[F]_n.
Notation dmat := (dmat F).

Lemma sum_list n (buf : seq 'cV[F]_n) (f : 'cV[F]_n -> F) : \sum_(x <- buf) f x = \sum_(k < seq.size buf) f (nth 0 buf k).
Proof. by rewrite (big_nth 0) big_mkord. Qed.
Lemma lengthE A (l : list A) : List.length l = seq.size l. Proof. by []. Qed.
Lemma nth_errorE A (l : list A) (d : A) k : (k < seq.size l)%N -> List.nth_error l k = Some (nth d l k).
Proof. by elim: l k => [|x l IH] [|k] //= H; exact: IH. Qed.
Lemma center n m (M : 'M[F]_(n, m)) : (0 < n)%N -> (0 < m)%N -> exists mu : 'cV[F]_n,
  row_mean (DM M) = Ok (DM mu) /\ (forall i, mu i 0 = (\sum_j M i j) / m%:R) /\
  minus_cols (DM M) (DM mu) = Ok (DM (\matrix_(i, j) (M i j - mu i 0))).
Proof.
move=> n0 m0; exists (\col_i ((\sum_j M i j) / m%:R)); rewrite /row_mean /= !eqn0Ngt n0 m0; split=> //.
split=> [i|]; first by rewrite mxE.
rewrite /minus_cols /= eqxx; congr (Ok (DM _)); apply/matrixP => i j; rewrite !mxE.
by rewrite (entryE (\col_i ((\sum_j M i j) / m%:R)) i (ord0 : 'I_1)) mxE.
Qed.
Lemma samples n (X : seq 'cV[F]_n) (M : 'M[F]_(n, seq.size X)) (mu : 'cV[F]_n) : (1 < seq.size X)%N ->
  (forall i (k : 'I_(seq.size X)), M i k = nth 0 X k i 0) -> (forall i, mu i 0 = (\sum_j M i j) / (seq.size X)%:R) ->
  forall C : 'M[F]_(n, seq.size X), C = \matrix_(i, j) (M i j - mu i 0) ->
  (forall i, mu i 0 = mean_of X i) /\ forall i j, ((seq.size X - 1)%N%:R^-1 *: (C *m C^T)) i j = covariance_of X i j.
Proof.
move=> s1 HM Hmu C EC.
have Em i : mu i 0 = mean_of X i by rewrite Hmu /mean_of sum_list; congr (_ / _); apply: eq_bigr => k _; rewrite HM.
split=> // i j; rewrite /covariance_of mxE mulrC natrB ?(ltnW s1) // mxE sum_list; congr (_ / _).
by apply: eq_bigr => k _; rewrite EC !mxE !Em !HM.
Qed.
Lemma gram_cov n m (C : 'M[F]_(n, m)) (c : F) : 0 <= c -> covariance (c *: (C *m C^T)).
Proof.
move=> c0; have -> : C *m C^T = C *m 1%:M *m C^T by rewrite mulmx1.
split; first by rewrite /symmetric linearZ /= sym_congr // /symmetric trmx1.
by apply: psdZ => //; apply: psd_congr; exact: psd1.
Qed.

(** two or more samples: the unbiased sample covariance, a valid covariance *)
Theorem C87_sample : forall n (X : seq 'cV[F]_n), (0 < n)%N -> (1 < seq.size X)%N ->
  exists S : 'M[F]_n, sample_covariance garbage nan X = Ok (DM S) /\ covariance S /\ forall i j, S i j = covariance_of X i j.
Proof.
move=> n X n0 s1; rewrite /sample_covariance -lengthE in s1 *; rewrite (ltnW s1).
have [||M [EM [RM [CM HM]]]] := @fill_ok F n X (dzero F n (List.length X)) => //; rewrite EM; cbn [obind].
case: M EM RM CM HM => r c M EM /= RM CM HM; subst r c.
have [|mu [-> [Hmu Ec]]] := center M n0 _; first exact: ltnW.
cbn [obind]; rewrite Ec; cbn [obind]; rewrite /dtr /= dmul_ok; cbn [obind].
rewrite /over_samples; have /negbTE -> : List.length X != 1%N by rewrite neq_ltn s1 orbT.
rewrite /dscale /=; set C := \matrix_(i, j) _; eexists; split=> //; split; first by apply: gram_cov; rewrite invr_ge0 ler0n.
have HM' i (k : 'I_(List.length X)) : M i k = nth 0 X k i 0.
  by rewrite -entryE (HM k (nth 0 X k) i) ?(entryE _ i (ord0 : 'I_1)) //; apply: nth_errorE.
by have [_ H] := samples s1 HM' Hmu (erefl : C = _).
Qed.
(** hence independent of the order of the samples and of a common offset *)
Theorem C87_order : forall n (X Y : seq 'cV[F]_n), (0 < n)%N -> (1 < seq.size X)%N -> perm_eq X Y ->
  sample_covariance garbage nan X = sample_covariance garbage nan Y.
Proof.
move=> n X Y n0 s1 P; have sY := perm_size P.
have [S [-> [_ HS]]] := C87_sample n0 s1; have [|T [-> [_ HT]]] := C87_sample n0 (_ : (1 < seq.size Y)%N); first by rewrite -sY.
congr (Ok (DM _)); apply/matrixP => i j; rewrite HS HT /covariance_of /mean_of sY.
by rewrite !(perm_big _ P).
Qed.
Theorem C87_offset : forall n (X : seq 'cV[F]_n) (v : 'cV[F]_n), (0 < n)%N -> (1 < seq.size X)%N ->
  sample_covariance garbage nan [seq x + v | x <- X] = sample_covariance garbage nan X.
Proof.
move=> n X v n0 s1; have [S [-> [_ HS]]] := C87_sample n0 s1.
have [|T [-> [_ HT]]] := C87_sample n0 (_ : (1 < seq.size [seq (x + v)%R | x <- X])%N); first by rewrite size_map.
congr (Ok (DM _)); apply/matrixP => i j; rewrite HS HT /covariance_of size_map big_map.
have Em k : mean_of [seq x + v | x <- X] k = mean_of X k + v k 0.
  rewrite /mean_of size_map big_map; under eq_bigr => x _ do rewrite mxE.
  rewrite big_split /= (big_const_seq _ _ _ xpredT) count_predT iter_addr_0 mulrDl; congr (_ + _).
  by rewrite -[v k 0 *+ _]mulr_natr mulfK // pnatr_eq0 -lt0n ltnW.
rewrite !Em; congr (_ / _); apply: eq_bigr => x _; by rewrite !mxE !opprD ![_ + v _ 0 + _]addrACA !subrr !addr0.
Qed.
(** no sample: uninitialised memory; one sample: 0/0 *)
Theorem C87_too_few : forall n (x : 'cV[F]_n), (0 < n)%N ->
  sample_covariance garbage nan ([::] : seq 'cV[F]_n) = Ok (DM (garbage n n)) /\ sample_covariance garbage nan [:: x] = Ok (DM (nan n)).
Proof.
move=> n x n0; split=> //; rewrite /sample_covariance /=.
have [||M [-> [RM [CM HM]]]] := @fill_ok F n [:: x] (dzero F n 1) => //; cbn [obind].
case: M RM CM HM => r c M /= RM CM HM; subst r c.
have [//|mu [-> [Hmu Ec]]] := center M n0 _.
by cbn [obind]; rewrite Ec; cbn [obind]; rewrite /dtr /= dmul_ok.
Qed.
(** the matrix version: covariance and mean of the columns *)
Theorem C87_cov_mean : forall n m (M : 'M[F]_(n, m)), (0 < n)%N -> (1 < m)%N ->
  exists (S : 'M[F]_n) (mu : 'cV[F]_n), calc_cov_mean nan (DM M) = Ok (DM S, DM mu) /\ covariance S /\
    (forall i j, S i j = covariance_of [seq col k M | k <- enum 'I_m] i j) /\ (forall i, mu i 0 = mean_of [seq col k M | k <- enum 'I_m] i).
Proof.
move=> n m M n0 m1; have [|mu [E1 [Hmu E2]]] := center M n0 _; first exact: ltnW.
rewrite /calc_cov_mean E1; cbn [obind]; rewrite E2; cbn [obind]; rewrite /dtr /= dmul_ok; cbn [obind].
rewrite /over_samples /=; have /negbTE -> : m != 1%N by rewrite neq_ltn m1 orbT.
rewrite /dscale /=; set C := \matrix_(i, j) _; do 2 eexists; split=> //; split; first by apply: gram_cov; rewrite invr_ge0 ler0n.
have sz : seq.size [seq col k M | k <- enum 'I_m] = m by rewrite size_map size_enum_ord.
have Em i : mu i 0 = mean_of [seq col k M | k <- enum 'I_m] i.
  by rewrite Hmu /mean_of sz big_map big_enum; congr (_ / _); apply: eq_bigr => k _; rewrite mxE.
split=> // i j; rewrite /covariance_of sz mxE mulrC natrB ?(ltnW m1) // mxE big_map big_enum; congr (_ / _).
by apply: eq_bigr => k _; rewrite !mxE !Em.
Qed.
End C87.

Section C88.
Variable F : realFieldType.
Variable garbage : forall m n, 'M[F]_(m, n).
Notation dmat := (dmat F).
(** arrays and std::vector: the entries in order, and back *)
Theorem C88_vector : forall n (v : 'cV[F]_n) (w : 'rV[F]_n) (l : list F),
  to_vector_col (DM v) = Ok [seq v k 0 | k <- enum 'I_n] /\ to_vector_row (DM w) = Ok [seq w 0 k | k <- enum 'I_n] /\
  from_vector garbage l = Ok (@DM F (seq.size l) 1 (\col_i nth 0 l i)).
Proof.
move=> n v w l; have nth_enum A (f : 'I_n -> A) k (Hk : (k < n)%N) : List.nth_error [seq f i | i <- enum 'I_n] k = Some (f (Ordinal Hk)).
  have Hk' : (k < seq.size [seq f i | i <- enum 'I_n])%N by rewrite size_map size_enum_ord.
  rewrite (nth_errorE (f (Ordinal Hk)) Hk').
  rewrite (nth_map (Ordinal Hk)) ?size_enum_ord //; congr (Some (f _)).
  by apply: val_inj; rewrite /= nth_enum_ord.
have same A (f : 'I_n -> A) (l' : list A) : List.length l' = n -> (forall k (Hk : (k < n)%N), List.nth_error l' k = Some (f (Ordinal Hk))) -> l' = [seq f i | i <- enum 'I_n].
  move=> Ll H; apply: nth_ext => k; case: (ltnP k n) => Hk; first by rewrite H nth_enum.
  by rewrite !(proj2 (List.nth_error_None _ _)) //; apply/ssrnat.leP; rewrite ?Ll // lengthE size_map size_enum_ord.
split; [|split].
- have [|l' [E [Ll H]]] := @read_list F (fun i => entry (DM v) i 0) n (fun i => dget (DM v) i 0).
    by move=> i Hi; rewrite /dget /= Hi.
  rewrite /to_vector_col /= E; congr Ok; apply: same => // k Hk; rewrite (H k Hk).
  by rewrite (entryE v (Ordinal Hk) (ord0 : 'I_1)).
- have [|l' [E [Ll H]]] := @read_list F (fun i => entry (DM w) 0 i) n (fun i => dget (DM w) 0 i).
    by move=> i Hi; rewrite /dget /= Hi.
  rewrite /to_vector_row /= E; congr Ok; apply: same => // k Hk; rewrite (H k Hk).
  by rewrite (entryE w (ord0 : 'I_1) (Ordinal Hk)).
- rewrite /from_vector lengthE; set s := seq.size l.
  pose Inv k (C : dmat) := drows C = s /\ dcols C = 1%N /\ forall i, (i < k)%N -> entry C i 0 = nth 0 l i.
  have [||C [E [RC [CC H]]]] := @loop_seq _ (fun v i => obind (vat l i) (fun x => dput v i 0 x)) Inv s 0 (dfresh garbage s 1).
  + by split.
  + move=> i C; rewrite add0n => /andP [_ Li] [RC [CC H]]; rewrite /vat (nth_errorE 0 Li); cbn [obind].
    have [||C' [-> [R' [D' H']]]] := @dput_ok F C i 0 (nth 0 l i); rewrite ?RC ?CC //.
    exists C'; split=> //; split; [by rewrite R'|split; [by rewrite D'|]] => j; rewrite ltnS leq_eqVlt => /orP [/eqP ->|Lj].
      by rewrite H' ?RC ?CC ?eqxx.
    by rewrite H' ?RC ?CC ?(ltn_trans Lj) // (ltn_eqF Lj) H.
  + rewrite E; congr Ok; apply: dmat_eq => //= i j; rewrite RC CC => Li; case: j => // _.
    by rewrite H // (entry_in _ Li (isT : 0 < 1)%N) mxE.
Qed.
Definition width (m : list (list F)) : nat := if m is r :: _ then seq.size r else 1%N.
Lemma fill_row (m : list (list F)) r (C : dmat) w : drows C = seq.size m -> dcols C = w -> (r < seq.size m)%N -> (w <= seq.size (nth nil m r))%N ->
  exists C', ofold (fun M c => obind (vat m r) (fun row => obind (vat row c) (fun x => dput M r c x))) C (List.seq 0 w) = Ok C' /\
    drows C' = seq.size m /\ dcols C' = w /\
    forall a b, (a < seq.size m)%N -> (b < w)%N -> entry C' a b = if a == r then nth 0 (nth nil m r) b else entry C a b.
Proof.
move=> RC CC Lr Lw; pose Inv k (D : dmat) := drows D = seq.size m /\ dcols D = w /\
  forall a b, (a < seq.size m)%N -> (b < w)%N -> entry D a b = if (a == r) && (b < k)%N then nth 0 (nth nil m r) b else entry C a b.
have [||C' [E [R' [D' H']]]] := @loop_seq _ (fun M c => obind (vat m r) (fun row => obind (vat row c) (fun x => dput M r c x))) Inv w 0 C.
- by split=> //; split=> // a b _ _; rewrite ltn0 andbF.
- move=> c D; rewrite add0n => /andP [_ Lc] [RD [CD HD]].
  rewrite {1}/vat (nth_errorE nil Lr); cbn [obind]; rewrite /vat (nth_errorE 0 (leq_trans Lc Lw)); cbn [obind].
  have [||D' [-> [R' [D2 H']]]] := @dput_ok F D r c (nth 0 (nth nil m r) c); rewrite ?RD ?CD //.
  exists D'; split=> //; split; [by rewrite R'|split; [by rewrite D2|]] => a b La Lb; rewrite H' ?RD ?CD // HD // ltnS.
  by rewrite (leq_eqVlt b c); case: (a =P r) => //= _; case: (b =P c) => //= ->.
exists C'; split=> //; split=> //; split=> // a b La Lb; rewrite H' // add0n Lb andbT //.
Qed.
(** nested vectors: the first row fixes the number of columns *)
Theorem C88_matrix : forall m : list (list F), (forall row, List.In row m -> (width m <= seq.size row)%N) ->
  toEigenMatrix garbage m = Ok (@DM F (seq.size m) (width m) (\matrix_(i, j) nth 0 (nth nil m i) j)).
Proof.
move=> m W; rewrite /toEigenMatrix lengthE -/(width m).
have Wk k : (k < seq.size m)%N -> (width m <= seq.size (nth nil m k))%N.
  by move=> Lk; apply: W; apply: (List.nth_error_In _ k); exact: nth_errorE.
pose Inv k (D : dmat) := drows D = seq.size m /\ dcols D = width m /\
  forall a b, (a < k)%N -> (b < width m)%N -> entry D a b = nth 0 (nth nil m a) b.
set body := fun _ _ => _; have [||C [E [RC [CC H]]]] := @loop_seq _ body Inv (seq.size m) 0 (dfresh garbage (seq.size m) (width m)).
- by split.
- move=> r D; rewrite add0n => /andP [_ Lr] [RD [CD HD]].
  have [D' [E [R' [C' H']]]] := fill_row RD CD Lr (Wk _ Lr); exists D'; split; first exact: E.
  split=> //; split=> // a b; rewrite ltnS leq_eqVlt => /orP [/eqP ->|La] Lb; first by rewrite H' // eqxx.
  by rewrite H' ?(ltn_trans La) // (ltn_eqF La) HD.
rewrite E; congr Ok; apply: dmat_eq => //= i j; rewrite RC CC => Li Lj.
by rewrite H // (entry_in _ Li Lj) mxE.
Qed.
Theorem C88_matrix_short_row : forall (m : list (list F)) row, List.In row m -> (seq.size row < width m)%N ->
  toEigenMatrix garbage m = Abort OutOfRangeException.
Proof.
move=> m row Hin Sh; rewrite /toEigenMatrix lengthE -/(width m).
have [k0 Ek0] := List.In_nth_error _ _ Hin.
have ex : exists k, (k < seq.size m)%N && (seq.size (nth nil m k) < width m)%N.
  have Lk : (k0 < seq.size m)%N by apply/ssrnat.ltP/List.nth_error_Some; rewrite Ek0.
  by exists k0; rewrite Lk; move: Ek0; rewrite (nth_errorE nil Lk) => -[->].
set k := ex_minn ex; have [/andP [Lk Sk] Mk] : (k < seq.size m)%N && (seq.size (nth nil m k) < width m)%N /\ forall i, (i < k)%N -> (width m <= seq.size (nth nil m i))%N.
  rewrite /k; case: ex_minnP => i Hi Mi; split=> // j Lj; rewrite leqNgt; apply/negP => Sj.
  have := Mi j; rewrite Sj andbT (ltn_trans Lj) => [/(_ isT)|]; first by rewrite leqNgt Lj.
  by case/andP: Hi.
pose Inv (i : nat) (D : dmat) := drows D = seq.size m /\ dcols D = width m.
set body := fun _ _ => _; apply: (@loop_fails _ body Inv OutOfRangeException (seq.size m) 0 _ k) => //.
- move=> r D /andP [_ Lr] [RD CD]; have [D' [E [R' [C' _]]]] := fill_row RD CD (ltn_trans Lr Lk) (Mk _ Lr).
  by exists D'; split; [exact: E|split].
- move=> D [RD CD]; rewrite /body; set b2 := fun _ _ => _.
  pose Inv2 (i : nat) (D : dmat) := drows D = seq.size m /\ dcols D = width m.
  apply: (@loop_fails _ b2 Inv2 OutOfRangeException (width m) 0 _ (seq.size (nth nil m k))) => //.
    move=> c D' /andP [_ Lc] [R' C']; rewrite /b2 {1}/vat (nth_errorE nil Lk); cbn [obind]; rewrite /vat (nth_errorE 0 Lc); cbn [obind].
    have [||D2 [-> [R2 [C2 _]]]] := @dput_ok F D' k c (nth 0 (nth nil m k) c); rewrite ?R' ?C' ?(ltn_trans Lc) //.
    by exists D2; split=> //; split; rewrite ?R2 ?C2.
  by move=> D' _; rewrite /b2 {1}/vat (nth_errorE nil Lk); cbn [obind]; rewrite vat_bad.
Qed.
(** from a matrix: the rows in order *)
Theorem C88_from_matrix : forall p q (M : 'M[F]_(p, q)), fromEigenMatrix (DM M) = Ok [seq [seq M i j | j <- enum 'I_q] | i <- enum 'I_p].
Proof.
move=> p q M; rewrite /fromEigenMatrix.
pose row i := [seq entry (DM M) i j | j <- iota 0 q].
have rowE i : List.length (row i) = q by rewrite lengthE size_map size_iota.
pose Inv k (m : list (list F)) := List.length m = p /\ forall i, (i < p)%N -> List.nth_error m i = Some (if (i < k)%N then row i else List.repeat 0 q).
set body := fun _ _ => _; have [||m [E [Lm H]]] := @loop_seq _ body Inv p 0 (List.repeat (List.repeat 0 q) p).
- by split=> [|i Li]; [exact: List.repeat_length|rewrite nth_repeat Li ltn0].
- move=> r m; rewrite add0n => /andP [_ Lr] [Lm H].
  have L0 : List.length (List.nth 0 m nil) = q.
    have p0 : (0 < p)%N by exact: leq_ltn_trans (leq0n r) Lr.
    by rewrite nth_default (H _ p0); case: (0 < r)%N; rewrite ?rowE ?List.repeat_length.
  rewrite /body L0; pose Inv2 k (m' : list (list F)) := List.length m' = p /\ (forall i, (i < p)%N -> i != r -> List.nth_error m' i = List.nth_error m i) /\
     exists l, List.nth_error m' r = Some l /\ List.length l = q /\ forall j, (j < k)%N -> List.nth_error l j = Some (entry (DM M) r j).
  pose b2 (m' : list (list F)) j := obind (dget (DM M) r j) (fun x => Ok (lput m' r (lput (List.nth r m' nil) j x))).
  have [||m' [E2 [L' [O' [l [El [Ll Hl]]]]]]] := @loop_seq _ b2 Inv2 q 0 m.
  + split=> //; split=> //; exists (List.repeat 0 q); rewrite H // ltnn; split=> //; split=> //; exact: List.repeat_length.
  + move=> c m'; rewrite add0n => /andP [_ Lc] [L' [O' [l [El [Ll Hl]]]]].
    rewrite /b2 /dget /= Lr Lc /=; eexists; split=> //; split; first by rewrite lput_length.
    split=> [i Li Ni|]; first by rewrite nth_lput (negbTE Ni) O'.
    exists (lput l c (entry (DM M) r c)); rewrite nth_lput eqxx L' Lr nth_default El; split=> //; split; first by rewrite lput_length.
    move=> j; rewrite ltnS leq_eqVlt nth_lput Ll Lc andbT => /orP [/eqP ->|Lj]; first by rewrite eqxx.
    by rewrite (ltn_eqF Lj) Hl.
  + exists m'; split; first exact: E2.
    split=> // i Li; rewrite ltnS leq_eqVlt; case: (altP (i =P r)) => [->|Ni] /=; last by rewrite O' // H.
    rewrite El; congr Some; apply: nth_ext => j; case: (ltnP j q) => Lj.
      have Lj2 : (j < seq.size (row r))%N by rewrite size_map size_iota.
      by rewrite Hl // (nth_errorE 0 Lj2) /row (nth_map 0%N) ?size_iota // nth_iota.
    by rewrite !(proj2 (List.nth_error_None _ _)) //; apply/ssrnat.leP; rewrite ?Ll ?rowE.
rewrite E; congr Ok; apply: nth_ext => i; case: (ltnP i p) => Li; last first.
  by rewrite !(proj2 (List.nth_error_None _ _)) //; apply/ssrnat.leP; rewrite ?Lm // lengthE size_map size_enum_ord.
have Li2 : (i < seq.size [seq [seq M i j | j <- enum (ordinal_finType q)] | i <- enum (ordinal_finType p)])%N by rewrite size_map size_enum_ord.
rewrite H // Li (nth_errorE nil Li2); congr Some.
rewrite (nth_map (Ordinal Li)) ?size_enum_ord // /row -val_enum_ord -map_comp.
by apply: eq_map => j /=; rewrite -entryE nth_enum_ord.
Qed.
(** there and back; a matrix without rows comes back with one column *)
Theorem C88_round_trip : forall p q (M : 'M[F]_(p, q)), (0 < p)%N ->
  obind (fromEigenMatrix (DM M)) (toEigenMatrix garbage) = Ok (DM M).
Proof.
move=> p q M p0; rewrite C88_from_matrix; cbn [obind]; set m := [seq _ | i <- _].
have sm : seq.size m = p by rewrite size_map size_enum_ord.
have sr i : (i < p)%N -> seq.size (nth nil m i) = q.
  by move=> Li; rewrite (nth_map (Ordinal Li)) ?size_enum_ord // size_map size_enum_ord.
have w : width m = q by rewrite -(sr 0%N p0); case: (m) sm p0 => //= <-.
rewrite C88_matrix => [|row Hin]; last first.
  have [k Ek] := List.In_nth_error _ _ Hin; have Lk : (k < seq.size m)%N by apply/ssrnat.ltP/List.nth_error_Some; rewrite Ek.
  by move: Ek; rewrite (nth_errorE nil Lk) => -[<-]; rewrite w sr // -sm.
congr Ok; apply: dmat_eq => //= i j; rewrite ?sm ?w => Li Lj; rewrite (entry_in _ Li Lj) mxE /=.
rewrite (nth_map (Ordinal Li)) ?size_enum_ord // (nth_map (Ordinal Lj)) ?size_enum_ord // (entry_in _ Li Lj).
by congr (M _ _); apply: val_inj; rewrite /= nth_enum_ord.
Qed.
(** a list of vectors as columns: always *)
Theorem C88_columns : forall n (l : seq 'cV[F]_n), toEigenColMatrix garbage l = Ok (@DM F n (seq.size l) (\matrix_(i, k) nth 0 l k i 0)).
Proof.
move=> n l; rewrite /toEigenColMatrix.
have [||C [-> [RC [CC H]]]] := @fill_ok F n l (dfresh garbage n (List.length l)) => //; congr Ok.
apply: dmat_eq => //= i k; rewrite RC CC => Li Lk; rewrite (entry_in _ Li Lk) mxE.
by rewrite (H k (nth 0 l k) i) // ?(entryE _ (Ordinal Li) (ord0 : 'I_1)) //; exact: nth_errorE.
Qed.
(** as rows: only when there are as many vectors as components *)
Theorem C88_rows : forall n (l : seq 'cV[F]_n),
  (seq.size l = n -> toEigenRowMatrix garbage l = Ok (@DM F (seq.size l) n (\matrix_(k, i) nth 0 l k i 0))) /\
  ((seq.size l < n)%N -> toEigenRowMatrix garbage l = Abort OutOfRangeException) /\
  ((n < seq.size l)%N -> exists C, toEigenRowMatrix garbage l = Ok C /\ drows C = seq.size l /\ dcols C = n /\
     (forall k i, (k < n)%N -> (i < n)%N -> entry C k i = entry (DM (nth 0 l k)) i 0) /\
     forall k i, (n <= k < seq.size l)%N -> (i < n)%N -> entry C k i = entry (DM (garbage (seq.size l) n)) k i).
Proof.
move=> n l; set L := seq.size l; pose f (M : dmat) c := obind (vat l c) (fun v => dset_block M c 0 1 n (dtr (DM v))).
pose Inv k (C : dmat) := drows C = L /\ dcols C = n /\ (forall c i, (c < k)%N -> (i < n)%N -> entry C c i = entry (DM (nth 0 l c)) i 0) /\
  forall c i, (k <= c < L)%N -> (i < n)%N -> entry C c i = entry (DM (garbage L n)) c i.
have Step c C : (c < L)%N -> Inv c C -> exists C', f C c = Ok C' /\ Inv c.+1 C'.
  move=> Lc [RC [CC [H G]]]; rewrite /f /vat (nth_errorE 0 Lc); cbn [obind].
  have [||||C' [-> [R' [D' H']]]] := @set_block_ok F C (dtr (DM (nth 0 l c))) c 0 1 n => //; rewrite ?RC ?CC ?addn1 //.
  exists C'; split=> //; split; [by rewrite R'|split; [by rewrite D'|split]] => a i.
    rewrite ltnS leq_eqVlt => /orP [/eqP ->|La] Li.
      rewrite H' ?RC ?CC // leqnn addn1 leqnn Li subnn subn0 /=.
      by rewrite (entry_in _ (isT : 0 < 1)%N Li) mxE (entry_in _ Li (isT : 0 < 1)%N).
    rewrite H' ?RC ?CC ?(ltn_trans La Lc) //; have -> : (c <= a)%N = false by rewrite leqNgt La.
    exact: H.
  case/andP => La1 La2 Li; rewrite H' ?RC ?CC //; have -> : (a < c + 1)%N = false by rewrite addn1 ltnNge La1.
  rewrite andbF /=.
  by apply: G => //; rewrite La2 (ltnW La1).
have I0 : Inv 0%N (dfresh garbage L n) by split=> //; split=> //; split.
have Run : (n <= L)%N -> exists C, toEigenRowMatrix garbage l = Ok C /\ Inv n C.
  move=> Le; apply: (@loop_seq _ f Inv n 0 _ I0) => i s; rewrite add0n => /andP [_ Li]; exact: Step (leq_trans Li Le).
split; [|split].
- move=> E; have [|C [-> [RC [CC [H _]]]]] := Run; first by rewrite E.
  congr Ok; apply: dmat_eq => //= k i; rewrite RC CC => Lk Li; rewrite (entry_in _ Lk Li) mxE H // -?E //.
  by rewrite (entry_in _ Li (isT : 0 < 1)%N); congr (fun_of_matrix _ _ _); apply: val_inj.
- move=> Lt; apply: (@loop_fails _ f Inv OutOfRangeException n 0 _ L I0) => //; last by move=> s _; rewrite /f vat_bad.
- by move=> /ltnW /Run [C [-> [RC [CC [H G]]]]]; exists C.
Qed.
(** quaternions: (w, x, y, z) order, there and back; any other shape gives an uninitialised quaternion *)
Theorem C88_quaternion : forall (v : 'cV[F]_4) (q : quat F),
  (exists w, fromEigenQuat garbage q = Ok w /\ toEigenQuat garbage w = q) /\ fromEigenQuat garbage (toEigenQuat garbage (DM v)) = Ok (DM v) /\
  (q_w (toEigenQuat garbage (DM v)) = v (inord 0) 0 /\ q_x (toEigenQuat garbage (DM v)) = v (inord 1) 0 /\
   q_y (toEigenQuat garbage (DM v)) = v (inord 2) 0 /\ q_z (toEigenQuat garbage (DM v)) = v (inord 3) 0) /\
  forall p r (A : 'M[F]_(p, r)), (p, r) <> (4, 1)%N -> toEigenQuat garbage (DM A) = quat_fresh garbage.
Proof.
move=> v q.
have Put (q0 : quat F) : exists w : dmat, fromEigenQuat garbage q0 = Ok w /\ drows w = 4%N /\ dcols w = 1%N /\
    entry w 0 0 = q_w q0 /\ entry w 1 0 = q_x q0 /\ entry w 2 0 = q_y q0 /\ entry w 3 0 = q_z q0.
  rewrite /fromEigenQuat.
  have [||C1 [-> [R1 [D1 H1]]]] := @dput_ok F (dfresh garbage 4 1) 0 0 (q_w q0) => //; cbn [obind].
  have [||C2 [-> [R2 [D2 H2]]]] := @dput_ok F C1 1 0 (q_x q0); rewrite ?R1 ?D1 //; cbn [obind].
  have [||C3 [-> [R3 [D3 H3]]]] := @dput_ok F C2 2 0 (q_y q0); rewrite ?R2 ?R1 ?D2 ?D1 //; cbn [obind].
  have [||C4 [-> [R4 [D4 H4]]]] := @dput_ok F C3 3 0 (q_z q0); rewrite ?R3 ?R2 ?R1 ?D3 ?D2 ?D1 //.
  exists C4; rewrite R4 R3 R2 R1 D4 D3 D2 D1; split=> //; split=> //; split=> //.
  by rewrite !H4 ?R3 ?R2 ?R1 ?D3 ?D2 ?D1 //= !H3 ?R2 ?R1 ?D2 ?D1 //= !H2 ?R1 ?D1 //= !H1.
have ent k : (k < 4)%N -> entry (DM v) k 0 = v (inord k) 0.
  by move=> Lk; rewrite (entry_in _ Lk (isT : 0 < 1)%N); congr (v _ _); apply: val_inj; rewrite /= ?inordK.
split; [|split; [|split]].
- have [w [E [Rw [Cw [e0 [e1 [e2 e3]]]]]]] := Put q; exists w; split=> //.
  by rewrite /toEigenQuat Rw Cw /= e0 e1 e2 e3; case: (q).
- have [w [-> [Rw [Cw [e0 [e1 [e2 e3]]]]]]] := Put (toEigenQuat garbage (DM v)); congr Ok.
  apply: dmat_eq => // i j; rewrite Rw Cw => Li; case: j => // _.
  by case: i Li => [|[|[|[|i]]]] // _; rewrite ?e0 ?e1 ?e2 ?e3.
- by rewrite /toEigenQuat /= !ent.
- move=> p r A N; rewrite /toEigenQuat /=; case: ifP => // /andP [/eqP Ep /eqP Er]; by case: N; rewrite Ep Er.
Qed.
End C88.

(** ** C38, four participants: the ten blocks of a matrix of matching size *)
Theorem C38_split4 : forall (F : realFieldType) di dj dk dl (S : 'M[F]_(di + dj + dk + dl)),
  let b := blk [:: di; dj; dk; dl] (DM S) in
  exists ii jj kk ll ij ik jk il jl kl, split4 (DM S) di dj dk dl = Ok (ii, jj, kk, ll, (ij, ik, jk), (il, jl, kl)) /\
    (b 0 0 = Ok ii /\ b 1 1 = Ok jj /\ b 2 2 = Ok kk /\ b 3 3 = Ok ll)%N /\ (b 0 1 = Ok ij /\ b 0 2 = Ok ik /\ b 1 2 = Ok jk)%N /\
    (b 0 3 = Ok il /\ b 1 3 = Ok jl /\ b 2 3 = Ok kl)%N.
Proof.
move=> F di dj dk dl S b.
have o : (off [:: di; dj; dk; dl] 0 = 0 /\ off [:: di; dj; dk; dl] 1 = di /\ off [:: di; dj; dk; dl] 2 = di + dj /\ off [:: di; dj; dk; dl] 3 = di + dj + dk)%N.
  by rewrite /off /= !addn0 addnA.
have B k l : (k < 4)%N -> (l < 4)%N -> exists X, b k l = Ok X.
  move=> Lk Ll; rewrite /b /blk dblock_ok /=; first by eexists.
  - by case: k Lk => [|[|[|[|k]]]] // _; rewrite /dim_k /=; have [o0 [o1 [o2 o3]]] := o; rewrite ?o0 ?o1 ?o2 ?o3 ?add0n -?addnA ?leq_addr ?leq_add2l ?leq_addr.
  - by case: l Ll => [|[|[|[|l]]]] // _; rewrite /dim_k /=; have [o0 [o1 [o2 o3]]] := o; rewrite ?o0 ?o1 ?o2 ?o3 ?add0n -?addnA ?leq_addr ?leq_add2l ?leq_addr.
have := (B 0 0 isT isT, B 1 1 isT isT, B 2 2 isT isT, B 3 3 isT isT, B 0 1 isT isT, B 0 2 isT isT, B 1 2 isT isT, B 0 3 isT isT, B 1 3 isT isT, B 2 3 isT isT)%N.
case=> [[[[[[[[[[ii Eii] [jj Ejj]] [kk Ekk]] [ll Ell]] [ij Eij]] [ik Eik]] [jk Ejk]] [il Eil]] [jl Ejl]] [kl Ekl]].
exists ii, jj, kk, ll, ij, ik, jk, il, jl, kl; split; last by [].
move: Eii Ejj Ekk Ell Eij Eik Ejk Eil Ejl Ekl; rewrite /b /blk /dim_k /=; have [-> [-> [-> ->]]] := o => Eii Ejj Ekk Ell Eij Eik Ejk Eil Ejl Ekl.
have L : (dl <= di + dj + dk + dl)%N by rewrite leq_addl.
rewrite /split4 /= L addnK Eii; cbn [obind]; rewrite Ejj; cbn [obind]; rewrite Ekk; cbn [obind]; rewrite Ell; cbn [obind].
rewrite Eij; cbn [obind]; rewrite Eik; cbn [obind]; rewrite Eil; cbn [obind]; rewrite Ejk; cbn [obind]; rewrite Ejl; cbn [obind]; by rewrite Ekl.
Qed.
(** unlike the two- and three-way splits, a matrix of another size is not rejected: the blocks come from different places *)
Theorem C38_split4_unchecked : forall (F : realFieldType) (x : 'M[F]_5), let e i j := @DM F 1 1 (x (inord i) (inord j))%:M in exists ii jj kk ij ik jk kl,
  split4 (DM x) 1 1 1 1 = Ok (ii, jj, kk, (e 4 4)%N, (ij, ik, jk), ((e 0 4)%N, (e 1 3)%N, kl)).
Proof.
move=> F x e; have B i j : (i < 5)%N -> (j < 5)%N -> dblock (DM x) i j 1 1 = Ok (e i j).
  move=> Li Lj; rewrite dblock_ok /= ?addn1 //; congr (Ok (DM _)); apply/matrixP => a b; rewrite !ord1 !mxE eqxx !addn0.
  by rewrite (entry_in _ Li Lj); congr (x _ _); apply: val_inj; rewrite /= inordK.
rewrite /split4 /drows /dcols; change ((1 <= 5)%N && (1 <= 5)%N) with true; change (1 <= 5)%N with true; cbv iota; rewrite !B // ; cbn [obind].
do 7 eexists; reflexivity.
Qed.
Section Example87.
Let Q := rat_realFieldType.
Let v (a b : Q) : 'cV[Q]_2 := \col_i (if i == 0 then a else b).
(** samples (0,0), (2,2): variance 2 and covariance 2 *)
Example C87_example : exists S : 'M[Q]_2, sample_covariance (fun m n => 0) (fun n => 0) [:: v 0 0; v 2%:R 2%:R] = Ok (DM S) /\ covariance S /\ S ord0 ord_max = 2%:R.
Proof.
have [//|//|S [E [C H]]] := @C87_sample Q (fun m n => 0) (fun n => 0) 2 [:: v 0 0; v 2%:R 2%:R].
exists S; split=> //; split=> //; rewrite H /covariance_of /mean_of /= !big_cons !big_nil !mxE /=.
by apply/eqP; rewrite -subr_eq0.
Qed.
Example C88_example : toEigenMatrix (fun m n => 0) ([:: [:: 1; 2%:R]; [:: 3%:R]] : list (list Q)) = Abort OutOfRangeException /\
  exists C, toEigenRowMatrix (fun m n => const_mx 7%:R) [:: v 1 2%:R; v 3%:R 4%:R; v 5%:R 6%:R] = Ok C /\ entry C 1 1 = (4%:R : Q) /\ entry C 2 0 = (7%:R : Q).
Proof.
split; first by apply: (C88_matrix_short_row _ (row := [:: 3%:R])) => //; right; left.
have [_ [_ /(_ isT) [C [E [_ [_ [H G]]]]]]] := @C88_rows Q (fun m n => const_mx 7%:R) 2 [:: v 1 2%:R; v 3%:R 4%:R; v 5%:R 6%:R].
exists C; split=> //; rewrite H // G //=; split.
  by rewrite (entry_in _ (isT : 1 < 2)%N (isT : 0 < 1)%N) mxE.
by rewrite (entry_in _ (isT : 2 < 3)%N (isT : 0 < 2)%N) mxE.
Qed.
End Example87.
Print Assumptions C87_sample.
Print Assumptions C87_order.
Print Assumptions C87_offset.
Print Assumptions C87_too_few.
Print Assumptions C87_cov_mean.
Print Assumptions C88_vector.
Print Assumptions C88_matrix.
Print Assumptions C88_matrix_short_row.
Print Assumptions C88_from_matrix.
Print Assumptions C88_round_trip.
Print Assumptions C88_columns.
Print Assumptions C88_rows.
Print Assumptions C88_quaternion.
Print Assumptions C38_split4.
Print Assumptions C38_split4_unchecked.
