(** C107, continued: cross-covariance factors, the correction buffer of the lazy filter, and measurement noise. *)
From Coq Require Import ZArith List Bool Arith Lia.
From mathcomp Require Import all_ssreflect all_algebra.
From Verif Require Import Outcome DoubleModel BufModel Spec_Buf BufProofs HorizonModel MeasModel HandlerModel HandlerProofs Props_Filter DMat KFModel BeliefModel EigenModel IsoModel IsoProofs CorrModel Props_Eigen AccessMatModel.
Set Implicit Arguments. Unset Strict Implicit. Unset Printing Implicit Defensive.
Import Order.Theory GRing.Theory Num.Theory.
Local Open Scope outcome_scope.
Local Open Scope ring_scope.

Section Fac.
Variable F : realFieldType.
Notation dmat := (dmat F).
Notation ccfs := (list (nat * buf dmat)).
(** the matrix stored for j at the newest time strictly before t, or an empty matrix *)
Theorem C107_factor_before (j : nat) (t : Z) (c : ccfs) : (forall b, ccf_find j c = Some b -> strictly_chronological b) ->
  (exists b k, ccf_find j c = Some b /\ List.In (k, ccf_get_before j t c) b /\ Z.lt k t /\ forall e, List.In e b -> Z.lt (fst e) t -> Z.le (fst e) k) \/
  (ccf_get_before j t c = dempty F /\ forall b, ccf_find j c = Some b -> forall e, List.In e b -> Z.le t (fst e)).
Proof.
rewrite /ccf_get_before; case E: (ccf_find j c) => [b|] C; last by right; split.
have W : wsorted b by exact: ssorted_w (chrono_ssorted _ (C b erefl)).
case G: (get_before_t t b) => [[k m]|].
  have [I [L H]] := get_before_spec t b k m W G; left; exists b, k; by split; [|split; [|split]].
right; split=> // b' [<-]; exact/get_before_none.
Qed.
(** the version with a success flag answers true exactly when it finds a non-empty matrix *)
Theorem C107_factor_found (j : nat) (t : Z) (c : ccfs) :
  let (ok, X) := ccf_get_bool j t c in
  X = ccf_get j t c /\ (ok = true <-> exists b, ccf_find j c = Some b /\ get_at_t t b = Some X /\ dsize X <> 0%N).
Proof.
rewrite /ccf_get_bool; split=> //; rewrite /ccf_get; case E: (ccf_find j c) => [b|]; last by split=> // -[b []].
case G: (get_at_t t b) => [m|]; last by split=> // -[b' [[<-]]]; rewrite G => -[].
split=> [H|[b' [[<-] [_ H]]]]; last by rewrite lt0n; apply/eqP.
by exists b; split=> //; split=> //; move: H; rewrite lt0n => /eqP.
Qed.
End Fac.
Example C107_factor_example : ccf_get_before 3 (Z.of_nat 5) [:: (3%N, [:: (Z.of_nat 1, DM (1%:M : 'M[rat]_1)); ((Z.of_nat 5), DM (2%:R%:M : 'M[rat]_1))])] = DM (1%:M : 'M[rat]_1).
Proof. reflexivity. Qed.

Section Lazy.
Variable F : realFieldType.
Variable junk : forall n, 'M[F]_n -> 'M[F]_n.
Notation dmat := (dmat F).
Notation cinst := (cinst F).
Definition only {T} (p : Z -> bool) (b : buf T) : buf T := List.filter (fun e => p (fst e)) b.
(** every buffer of the lazy filter is in chronological order *)
Definition in_order (c : cinst) : Prop :=
  strictly_chronological (i_bel (c_inst c)) /\ strictly_chronological (c_hist c) /\ forall j b, List.In (j, b) (i_ccf (c_inst c)) -> strictly_chronological b.
(** remove_after_t and remove_from_t cut beliefs, factors and correction terms at the same time; nothing else changes *)
Theorem C107_lazy_remove (c : cinst) (t : Z) : in_order c ->
  corr_remove_after t c = CInst (Inst (i_enabled (c_inst c)) (only (fun k => Z.leb k t) (i_bel (c_inst c)))
     (List.map (fun e => (fst e, only (fun k => Z.leb k t) (snd e))) (i_ccf (c_inst c)))) (only (fun k => Z.leb k t) (c_hist c)) /\
  corr_remove_from t c = CInst (Inst (i_enabled (c_inst c)) (only (fun k => Z.ltb k t) (i_bel (c_inst c)))
     (List.map (fun e => (fst e, only (fun k => Z.ltb k t) (snd e))) (i_ccf (c_inst c)))) (only (fun k => Z.ltb k t) (c_hist c)).
Proof.
case=> Cb [Ch Cc].
have R T (b : buf T) : strictly_chronological b -> remove_after_t t b = only (fun k => Z.leb k t) b.
  by move=> C; apply: remove_after_filter; exact: ssorted_w (chrono_ssorted _ C).
have Q T (b : buf T) : strictly_chronological b -> remove_at_t t (remove_after_t t b) = only (fun k => Z.ltb k t) b.
  move=> C; rewrite (R _ _ C) /remove_at_t /only; clear; elim: b => [//|[k v] b IH] /=.
  case: (Z.leb_spec k t) => L /=; last by rewrite IH; case: (Z.ltb_spec k t) => // L2; lia.
  case: (Z.eqb_spec k t) => [->|N] /=; rewrite IH; case: Z.ltb_spec => // L2; lia.
have M1 : List.map (fun e => (fst e, remove_after_t t (snd e))) (i_ccf (c_inst c)) = List.map (fun e => (fst e, only (fun k => Z.leb k t) (snd e))) (i_ccf (c_inst c)).
  by apply: List.map_ext_in => -[j b] H; rewrite (R _ _ (Cc _ _ H)).
have M2 : List.map (fun e => (fst e, remove_at_t t (remove_after_t t (snd e)))) (i_ccf (c_inst c)) = List.map (fun e => (fst e, only (fun k => Z.ltb k t) (snd e))) (i_ccf (c_inst c)).
  by apply: List.map_ext_in => -[j b] H; rewrite (Q _ _ (Cc _ _ H)).
by rewrite /corr_remove_after /corr_remove_from /inst_remove_after /inst_remove_from M1 M2 !Q // !R.
Qed.
Theorem C107_lazy_reset (c : cinst) : corr_reset c = CInst (Inst (i_enabled (c_inst c)) [::] [::]) [::].
Proof. by []. Qed.
(** apply_correction_at_t with an a priori and an a posteriori covariance: every factor stored at t and the correction term at t are
    multiplied from the left by Sigma_apos Sigma_apri^-1; without a term at t that product becomes the term, and the answer is false *)
Theorem C107_lazy_correct n (A P : 'M[F]_n) (t : Z) (c c' : cinst) (ok : bool) : A \in unitmx ->
  apply_correction_cov junk t (DM A) (DM P) c = Ok (c', ok) ->
  let L := DM (P *m invmx A) in
  i_bel (c_inst c') = i_bel (c_inst c) /\ i_enabled (c_inst c') = i_enabled (c_inst c) /\
  (forall j k, k <> t -> fac j k (i_ccf (c_inst c')) = fac j k (i_ccf (c_inst c))) /\
  (forall j, match fac j t (i_ccf (c_inst c)) with
             | Some X => exists p, dmul L X = Ok p /\ fac j t (i_ccf (c_inst c')) = Some p
             | None => fac j t (i_ccf (c_inst c')) = None end) /\
  match get_at_t t (c_hist c) with
  | Some m => ok = true /\ exists p, dmul L m = Ok p /\ c_hist c' = hb_insert t p (c_hist c)
  | None => ok = false /\ c_hist c' = hb_insert t L (c_hist c)
  end.
Proof.
move=> uA; rewrite /apply_correction_cov dinv_ok /= dmul_ok /= /inv_or_junk uA /apply_correction.
case E: ccf_scale => [f|e|e] //=; have S := fac_scale E.
have K : (forall j k, k <> t -> fac j k f = fac j k (i_ccf (c_inst c))) /\
  (forall j, match fac j t (i_ccf (c_inst c)) with
             | Some X => exists p, dmul (DM (P *m invmx A)) X = Ok p /\ fac j t f = Some p
             | None => fac j t f = None end).
  split=> [j k N|j]; first by case: (S j k) => H _; exact: H.
  by case: (S j t) => _ [H1 H2]; case G: (fac j t (i_ccf (c_inst c))) => [X|]; [exact: H2|rewrite H1].
case: K => K1 K2; case G: (get_at_t t (c_hist c)) => [m|].
  case D: dmul => [p|e|e] //= [<- <-]; do 4!split=> //; by split=> //; exists p.
by move=> [<- <-].
Qed.
End Lazy.

Section Noise.
Variable F : realFieldType.
Notation dmat := (dmat F).
Lemma sum_sqE m n (R : 'M[F]_(m, n)) : sum_sq (DM R) = \sum_i \sum_j R i j ^+ 2.
Proof. by []. Qed.
(** an entry beyond 1e-11 makes the answer true; an empty or zero R never does *)
Theorem C107_noise m n (R : 'M[F]_(m, n)) :
  ((exists i j, (10%:R ^+ 11)^-1 < `|R i j|) -> has_meas_noise (DM R)) /\ ~~ has_meas_noise (DM (0 : 'M[F]_(m, n))).
Proof.
rewrite /has_meas_noise !sum_sqE; split=> [[i [j L]]|]; last first.
  have -> : \sum_i \sum_j (0 : 'M[F]_(m, n)) i j ^+ 2 = 0 by rewrite big1 // => i _; rewrite big1 // => j _; rewrite mxE expr0n.
  by rewrite [_ < 0]ltNge sqr_ge0 andbF.
have m0 : (0 < m)%N by apply: leq_ltn_trans (ltn_ord i).
have n0 : (0 < n)%N by apply: leq_ltn_trans (ltn_ord j).
rewrite -lt0n muln_gt0 m0 n0 /=; apply: (@lt_le_trans _ _ (R i j ^+ 2)).
  by rewrite -[R i j ^+ 2]real_normK ?num_real // ltr_pexpn2r ?nnegrE ?normr_ge0 // invr_ge0 exprn_ge0 // ler0n.
rewrite (bigD1 i) //= (bigD1 j) //= -addrA ler_addl addr_ge0 //; apply: sumr_ge0 => k _; rewrite ?sqr_ge0 //; apply: sumr_ge0 => l _; exact: sqr_ge0.
Qed.
(** whether the noise is given as a vector of variances or as the diagonal matrix get_R() makes of it does not matter *)
Theorem C107_noise_diagonal m (R : 'M[F]_(m, 1)) : has_meas_noise (get_R (DM R)) = has_meas_noise (DM R).
Proof.
rewrite C63_get_R_vector /has_meas_noise !sum_sqE; congr (_ && _); first by rewrite /dsize /= muln1; case: (m).
congr (_ < _); apply: eq_bigr => i _; rewrite big_ord1 (bigD1 i) //= big1 ?addr0 => [|j N]; rewrite !mxE ?eqxx ?mulr1n //.
by rewrite eq_sym (negbTE N) mulr0n expr0n.
Qed.
End Noise.
(** a lazy filter with entries at 1, 4 and 6 cut at 4 *)
Example C107_lazy_example : let at3 := fun (x y z : dmat [realFieldType of rat]) => [:: (Z.of_nat 1, x); (Z.of_nat 4, y); (Z.of_nat 6, z)] in
  let X := DM (1%:M : 'M[rat]_1) in let e := Bel X X (Z.of_nat 0) false false false in
  let c := CInst (Inst true [:: (Z.of_nat 1, e); (Z.of_nat 4, e); (Z.of_nat 6, e)] [:: (7%N, at3 X X X)]) (at3 X X X) in
  in_order c /\ [/\ List.map fst (c_hist (corr_remove_from (Z.of_nat 4) c)) = [:: Z.of_nat 1],
    List.map fst (i_bel (c_inst (corr_remove_from (Z.of_nat 4) c))) = [:: Z.of_nat 1] &
    List.map fst (c_hist (corr_remove_after (Z.of_nat 4) c)) = [:: Z.of_nat 1; Z.of_nat 4]].
Proof.
move=> at3 X e c; split; last by split; reflexivity.
have K T (x y z : T) : strictly_chronological [:: (Z.of_nat 1, x); (Z.of_nat 4, y); (Z.of_nat 6, z)].
  intros i j a b L Hi Hj; destruct i as [|[|[|i]]]; destruct j as [|[|[|j]]]; cbn in Hi, Hj; try (exfalso; lia); try (destruct i; discriminate); try (destruct j; discriminate); injection Hi as <-; injection Hj as <-; cbn; lia.
split; first exact: K. split; first exact: K. by move=> j b [[_ <-]|[]]; exact: K.
Qed.
Print Assumptions C107_factor_before.
Print Assumptions C107_factor_found.
Print Assumptions C107_lazy_remove.
Print Assumptions C107_lazy_correct.
Print Assumptions C107_noise.
Print Assumptions C107_noise_diagonal.
