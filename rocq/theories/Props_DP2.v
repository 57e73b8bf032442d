(** C70: over every history the DecoupledPropagationHandler shows the centralized filter's state. *)
From Coq Require Import ZArith List Bool Arith Lia.
From mathcomp Require Import all_ssreflect all_algebra.
From Verif Require Import Outcome DoubleModel BufModel BufProofs HorizonModel HorizonProofs MeasModel HandlerModel Spec_Handler DMat KFModel Spec_Mat KFProofs BeliefModel EigenModel EigenProofs IsoModel IsoProofs Spec_Joint JointProofs Props_Joint Props_Joint2 IsoTrace DPModel Spec_DP DPProofs Props_DP.
Set Implicit Arguments. Unset Strict Implicit. Unset Printing Implicit Defensive.
Import GRing.Theory Num.Theory.
Local Open Scope outcome_scope.
Local Open Scope ring_scope.

(** what an observation at [t] reads and writes *)
Section Open.
Variable F : realFieldType.
Notation dmat := (dmat F).
Notation belief := (belief F).
Notation dict := (dict belief dmat).
Notation inst := (inst belief dmat).
Variable predict : nat -> Z -> inst -> outcome (inst * bool).
Lemma opened ids ds t (mu : 'cV[F]_(sumn ds)) (P : 'M[F]_(sumn ds)) (d : dict) : registered ids ds t d -> shows ids t mu P d -> symmetric P ->
  exists bs, dp_get_dict_bel predict (List.map fst d) t d nil = Ok (d, bs) /\ stack_mean bs = Ok (DM mu) /\ stack_Sigma bs t d = Ok (DM P) /\
  (forall dH m, fits ids ds dH m -> exists Hs : 'M[F]_(m, sumn ds), dp_stack_H dH d = Ok (DM Hs) /\ spread ids dH Hs) /\
  forall (A : 'M[F]_(sumn ds)) (dx : 'cV[F]_(sumn ds)), exists d1 d', split_right_upper (DM A) bs t d = Ok d1 /\ correct_beliefs (DM A) (DM dx) bs t d1 = Ok d' /\
  List.map fst d' = List.map fst d /\
  (forall id, match d_find id d with
     | Some i => exists i' b', d_find id d' = Some i' /\ i_enabled i' = i_enabled i /\ (bounded t (i_ccf i) -> bounded t (i_ccf i')) /\
         i_bel i' = hb_insert t b' (i_bel i) /\ b_fixed b' = false /\
         forall k, List.nth_error ids k = Some id -> b_mean b' = DM (sel F ds k *m (mu + dx)) /\ b_Sigma b' = DM (sel F ds k *m A *m (sel F ds k)^T)
     | None => d_find id d' = None end) /\
  (forall k l i j, List.nth_error ids k = Some i -> List.nth_error ids l = Some j -> (k < l)%N ->
     fac_of d' i j t = Some (DM (sel F ds k *m A *m (sel F ds l)^T)) /\ fac_of d' j i t = Some (eyeI F (dim_k ds l))) /\
  (forall id j s, s <> t -> fac_of d' id j s = fac_of d id j s).
Proof.
move=> G S sP; have E := reg_dims G S; subst ds; exists (bels d t ids).
split; first exact: obs_bel.
split; first exact: (obs_mean G S).
split; first exact: (obs_cov G S sP).
split; first by move=> dH m; exact: (obs_H G S).
exact: (obs_write G S).
Qed.
(** the given blocks determine the measurement matrix *)
Lemma spread_unique ids ds (d : dict) t dH m (H1 H2 : 'M[F]_(m, sumn ds)) : registered ids ds t d -> fits ids ds dH m ->
  spread ids dH H1 -> spread ids dH H2 -> H1 = H2.
Proof.
move=> G Ft S1 S2; apply: trmx_inj; apply/matrixP => a b; have [k [x [Hk [Hx Ea]]]] := locate (ltn_ord a).
have [id En] : exists id, List.nth_error ids k = Some id.
  case X: (List.nth_error ids k) => [id|]; first by exists id.
  by move/List.nth_error_None: X => /leP; rewrite (g_len G : length ids = _) leqNgt Hk.
have E : dblock (DM H1) 0 (off ds k) m (dim_k ds k) = dblock (DM H2) 0 (off ds k) m (dim_k ds k).
  case: (List.in_dec Nat.eq_dec id (List.map fst dH)) => [|Nin].
    by case/List.in_map_iff => -[i X] [/= Ei HX]; subst i; rewrite (proj1 (S1 _ _ En) _ HX) (proj1 (S2 _ _ En) _ HX).
  by rewrite (proj2 (S1 _ _ En) Nin) (proj2 (S2 _ _ En) Nin).
move: E; rewrite !colsE // => E; have /matrixP /(_ b (Ordinal Hx)) := DM_inj (Ok_inj E).
by rewrite !sel_mulr //= -Ea !entryE !mxE.
Qed.
End Open.

Section C70.
Variable F : realFieldType.
Variable junk : forall n, 'M[F]_n -> 'M[F]_n.
Variable hor : double.
Notation dmat := (dmat F).
Notation belief := (belief F).
Notation dict := (dict belief dmat).
Notation inst := (inst belief dmat).
Notation ccfs := (list (nat * buf dmat)).
Variable is_psd : dmat -> bool.
Variable nearest : dmat -> dmat.
Variable predict : nat -> Z -> inst -> outcome (inst * bool).
Variable eps0 : F.
Hypothesis nearest_dims : forall n (A : 'M[F]_n), symmetric A -> exists B : 'M[F]_n, nearest (DM A) = DM B /\ symmetric B.
Variables (ids : list nat) (ds : seq nat).
Notation N := (sumn ds).
Notation sel := (sel F ds).

(** ** the history *)
(** initially every instance's newest belief is the one at t0 and no factor is newer *)
Definition initial (t0 : Z) (mu : 'cV[F]_N) (P : 'M[F]_N) (d : dict) : Prop :=
  registered ids ds t0 d /\ shows ids t0 mu P d /\ symmetric P /\
  forall id i, d_find id d = Some i -> ssorted (i_bel i) /\ get_latest_t (i_bel i) = Some t0 /\
    forall j b, assoc j (i_ccf i) = Some b -> ssorted b /\ forall e, List.In e b -> Z.le (fst e) t0.
Definition moved (now : nat -> Z) (id : nat) (t : Z) : nat -> Z := fun x => if (x =? id)%nat then t else now x.
Definition repaired (S : dmat) : dmat := if is_psd S then S else nearest S.
(** [run now mu P d]: calls on the instances and on the handler lead to registry [d]; instance [id] has reached time [now id]; the same
    steps lead the centralized filter to mean [mu] and covariance [P] *)
Inductive run (t0 : Z) (mu0 : 'cV[F]_N) (P0 : 'M[F]_N) (d0 : dict) : (nat -> Z) -> 'cV[F]_N -> 'M[F]_N -> dict -> Prop :=
| Run_start : run t0 mu0 P0 d0 (fun _ => t0) mu0 P0 d0
(* one instance is propagated: mean F mu and covariance F P F^T + Q with the instance's blocks *)
| Run_propagate now mu P d k id (Phi Q : 'M[F]_(dim_k ds k)) t i i' : run t0 mu0 P0 d0 now mu P d ->
    List.nth_error ids k = Some id -> Z.lt (now id) t -> symmetric Q -> d_find id d = Some i ->
    iso_propagate hor (DM Phi) (DM Q) (now id) t i = Ok (i', true) ->
    run t0 mu0 P0 d0 (moved now id t) (only Phi *m mu) (only Phi *m P *m (only Phi)^T + at_block Q) (d_upd id i' d)
(* an observation of some of the instances when all have reached t *)
| Run_observe now mu P d t dH m (Hs : 'M[F]_(m, N)) (R : 'M[F]_m) (z : 'cV[F]_m) cfg res S dx d' : run t0 mu0 P0 d0 now mu P d ->
    (forall id, List.In id ids -> now id = t) -> fits ids ds dH m -> spread ids dH Hs ->
    correction_step junk (DM Hs) (DM R) (DM (z - Hs *m mu)) (DM (P + eps0%:M)) cfg = Ok res -> DM S = repaired (Sigma_apos res) -> DM dx = delta_mean res ->
    dp_apply_z junk is_psd nearest predict eps0 dH (DM z) (DM R) t cfg d = Ok (d', true) ->
    run t0 mu0 P0 d0 now (mu + dx) S d'
| Run_observe_r now mu P d t dH m (Hs : 'M[F]_(m, N)) (R : 'M[F]_m) (r : 'cV[F]_m) cfg res S dx d' : run t0 mu0 P0 d0 now mu P d ->
    (forall id, List.In id ids -> now id = t) -> fits ids ds dH m -> spread ids dH Hs ->
    correction_step junk (DM Hs) (DM R) (DM r) (DM (P + eps0%:M)) cfg = Ok res -> DM S = repaired (Sigma_apos res) -> DM dx = delta_mean res ->
    dp_apply_r junk is_psd nearest predict eps0 dH (DM R) (DM r) t cfg d = Ok (d', true) ->
    run t0 mu0 P0 d0 now (mu + dx) S d'
(* a rejected observation *)
| Run_reject now mu P d t dH m (R : 'M[F]_m) (z : 'cV[F]_m) cfg d' : run t0 mu0 P0 d0 now mu P d ->
    (forall id, List.In id ids -> now id = t) -> fits ids ds dH m ->
    dp_apply_z junk is_psd nearest predict eps0 dH (DM z) (DM R) t cfg d = Ok (d', false) -> run t0 mu0 P0 d0 now mu P d'
| Run_reject_r now mu P d t dH m (R : 'M[F]_m) (r : 'cV[F]_m) cfg d' : run t0 mu0 P0 d0 now mu P d ->
    (forall id, List.In id ids -> now id = t) -> fits ids ds dH m ->
    dp_apply_r junk is_psd nearest predict eps0 dH (DM R) (DM r) t cfg d = Ok (d', false) -> run t0 mu0 P0 d0 now mu P d'.

(** ** the invariant *)
Definition unusable (o : option dmat) : Prop := if o is Some X then dsize X = 0%N else True.
Record tracked (now : nat -> Z) (mu : 'cV[F]_N) (P : 'M[F]_N) (d : dict) : Prop := Tracked {
  k_ids : forall id, List.In id (List.map fst d) <-> List.In id ids;
  k_once : List.NoDup (List.map fst d);
  k_asc : forall k l i j, List.nth_error ids k = Some i -> List.nth_error ids l = Some j -> (k < l)%N -> (i < j)%N;
  k_some : ids <> nil;
  k_len : seq.size ids = seq.size ds;
  k_pos : forall k, (k < seq.size ds)%N -> (0 < dim_k ds k)%N;
  k_sym : symmetric P;
  k_inst : forall k id, List.nth_error ids k = Some id -> exists i b, d_find id d = Some i /\ ssorted (i_bel i) /\
     get_latest (i_bel i) = Some (now id, b) /\ b_fixed b = false /\ b_mean b = DM (sel k *m mu) /\ b_Sigma b = DM (sel k *m P *m (sel k)^T) /\
     bounded (now id) (i_ccf i);
  k_cross : forall k l i j, List.nth_error ids k = Some i -> List.nth_error ids l = Some j -> (k < l)%N ->
     (exists q (X : 'M[F]_(dim_k ds k, q)) (Y : 'M[F]_(dim_k ds l, q)), (0 < q)%N /\ fac_of d i j (now i) = Some (DM X) /\ fac_of d j i (now j) = Some (DM Y) /\
        sel k *m P *m (sel l)^T = X *m Y^T) \/
     ((unusable (fac_of d i j (now i)) \/ unusable (fac_of d j i (now j))) /\ sel k *m P *m (sel l)^T = 0)
}.
Lemma nth_lt k id now mu P d : tracked now mu P d -> List.nth_error ids k = Some id -> (k < seq.size ds)%N.
Proof.
move=> T En; rewrite -(k_len T); apply/ltP; apply/List.nth_error_Some; by rewrite En.
Qed.
(** from the initial state *)
Lemma tracked_initial t0 mu P d : initial t0 mu P d -> tracked (fun _ => t0) mu P d.
Proof.
case=> G [S [sP H]]; have Lk k id : List.nth_error ids k = Some id -> (k < seq.size ds)%N.
  by move=> En; rewrite -(g_len G); apply/ltP; apply/List.nth_error_Some; rewrite En.
split; [exact: (g_ids G)|exact: (g_once G)|exact: (g_asc G)|exact: (g_some G)|exact: (g_len G)|exact: (g_pos G)|exact: sP| |].
- move=> k id En; have [i [b [tl [bl [Gi [Eb [Ea [Fx [El _]]]]]]]]] := reg_ids G (List.nth_error_In _ _ En).
  have [So [Lt Bd]] := H _ _ Gi; exists i, b; split=> //; split=> //; split.
    move: Lt; rewrite /get_latest_t El => -[Et]; subst tl; have := latest_get_at So El; by rewrite Ea => -[->].
  split=> //; have [b2 [Eb2 [Em Es]]] := proj1 S _ _ En; move: Eb2; rewrite Eb => -[E2]; subst b2.
  move: Em Es; rewrite meanE ?blkE ?(Lk _ _ En) // => Em Es; rewrite -(Ok_inj Em) -(Ok_inj Es); split=> //; split=> //.
  by move=> j bb; rewrite find_assoc => /Bd.
- move=> k l i j Ei Ej L; have [X [EX BX]] := proj2 S _ _ _ _ Ei Ej L.
  have Hk := Lk _ _ Ei; have Hl := Lk _ _ Ej; move: BX; rewrite blkE // => BX; have {}BX := Ok_inj BX.
  have [ii [_ [_ [_ [Gi _]]]]] := reg_ids G (List.nth_error_In _ _ Ei); have [jj [_ [_ [_ [Gj _]]]]] := reg_ids G (List.nth_error_In _ _ Ej).
  move: EX; rewrite (get_SigmaE _ Gi Gj); case F1: (fac_of d i j t0) => [x|]; last first.
    by rewrite /= => EX; right; split; [left|move: BX; rewrite -(Ok_inj EX) /zero_if_none /= => /DM_inj].
  case F2: (fac_of d j i t0) => [y|]; last first.
    by rewrite /= andbF => EX; right; split; [right|move: BX; rewrite -(Ok_inj EX) /zero_if_none /= => /DM_inj].
  cbv zeta; rewrite /odflt /oapp; case: ifP => [/andP [xs ys]|zs] EX; last first.
    right; split; last by move: BX; rewrite -(Ok_inj EX) /zero_if_none /= => /DM_inj.
    by move/negbT: zs; rewrite negb_and !negbK => /orP [/eqP ?|/eqP ?]; [left|right].
  have Lij : (i <? j)%nat = true by apply/Nat.ltb_lt; apply/ltP; exact: (g_asc G Ei Ej L).
  move: EX; rewrite Lij; case: x F1 xs => rx cx x F1 xs; case: y F2 ys => ry cy y F2 ys; rewrite /dtr /= => EX.
  have ec : cx = cy by move: EX; rewrite /dmul; case: eqP.
  subst cy; move: EX; rewrite dmul_ok => EX; have {}EX := Ok_inj EX.
  move: BX; rewrite /zero_if_none; case: eqP => zX BX.
    exfalso; move: zX xs ys; rewrite -EX /dsize /= => /eqP; rewrite !muln_eq0 => /orP [/eqP ->|/eqP ->]; by rewrite ?eqxx ?orbT.
  subst X; have er : dim_k ds k = rx by have := f_equal (@drows F) BX.
  have es : dim_k ds l = ry by have := f_equal (@dcols F) BX.
  left; subst rx ry; have {}BX := DM_inj BX; exists cx, x, y; split=> //.
  by move: xs; rewrite /dsize /= muln_eq0 negb_or -!lt0n => /andP [].
Qed.
(** ** one instance is propagated *)
Lemma find_scale ta tb (M : dmat) : forall c c' j, ccf_scale ta tb M c = Ok c' -> match ccf_find j c with
   | Some b => exists b', ccf_find j c' = Some b' /\ (b' = b \/ exists p, b' = hb_insert tb p b) | None => ccf_find j c' = None end.
Proof.
elim=> [|[y b0] c0 IH0] r0 j0 /=; first by case=> <-.
case E0: (match _ with Some _ => _ | None => _ end) => [b1|e|e] //=; case E3: ccf_scale => [r1|e|e] //= [<-] /=.
case: Nat.eqb; last exact: IH0.
exists b1; split=> //; move: E0; case: get_at_t => [m|]; last by case=> <-; left.
by case: dmul => [p|e|e] //= [<-]; right; exists p.
Qed.
Lemma bounded_scale ta tb (M : dmat) (c c' : ccfs) : ccf_scale ta tb M c = Ok c' -> bounded tb c -> bounded tb c'.
Proof.
move=> E B j bb G; have := find_scale j E; case Gc: (ccf_find j c) => [b0|]; last by rewrite G.
have [S H] := B _ _ Gc.
case=> b1 [G1 X]; move: G; rewrite G1 => -[Eb]; subst b1; case: X => [->|[p ->]] //.
split; first exact: hb_insert_ssorted.
by move=> e /hb_insert_In -/(_ S) [->|[/H //]]; apply: Z.le_refl.
Qed.
Lemma bounded_mono t t' (c : ccfs) : Z.le t t' -> bounded t c -> bounded t' c.
Proof. move=> L B j b /B [S H]; split=> // e /H Le; exact: Z.le_trans L. Qed.
Lemma bounded_trim t (c c' : ccfs) : ccf_trim hor c = Ok c' -> bounded t c -> bounded t c'.
Proof.
move=> /trim_find E B j b' G'; have := E j; case G: (ccf_find j c) => [b|]; last by rewrite G'.
case=> b1 [G1 X]; move: G'; rewrite G1 => -[Eb]; subst b1; have [Sf _] := check_restricted_suffix hor 4 b b' X.
have [S H] := B _ _ G; split; first exact: (suffix_ssorted Sf).
by case: Sf => p Ep e He; apply: H; rewrite Ep; apply/List.in_or_app; right.
Qed.
Lemma bounded_none t t' j (c : ccfs) : bounded t c -> Z.lt t t' -> fac j t' c = None.
Proof.
move=> B L; rewrite /fac; case G: (ccf_find j c) => [b|] //; case Ga: (get_at_t t' b) => [v|] //.
have [_ H] := B _ _ G; have := H _ (get_at_In _ _ _ Ga) => /=; lia.
Qed.
Lemma bounded_newest t j m (c : ccfs) : bounded t c -> fac j t c = Some m -> newest j t m c.
Proof.
move=> B; rewrite /fac; case G: (ccf_find j c) => [b|] // Ga; have [S H] := B _ _ G; exists b; split=> //; split=> //.
exact: latest_unique.
Qed.
Lemma factors_step ta tb (Phi : dmat) (i i' : inst) : iso_factors hor Phi ta tb i = Ok i' -> Z.lt ta tb ->
  (ssorted (i_bel i) -> ssorted (i_bel i')) /\ get_latest (i_bel i') = get_latest (i_bel i) /\ (bounded tb (i_ccf i) -> bounded tb (i_ccf i')) /\
  (forall j, bounded tb (i_ccf i) -> fac j ta (i_ccf i) = None -> fac j tb (i_ccf i) = None -> fac j ta (i_ccf i') = None /\ fac j tb (i_ccf i') = None).
Proof.
rewrite /iso_factors /iso_check_horizon => + L; case E: ccf_scale => [c|e|e] //=.
case E2: check_horizon_restricted => [l|e|e] //=; case E3: ccf_trim => [c2|e|e] //= [<-] /=.
have [Sf [El _]] := check_restricted_suffix hor 4 _ _ E2.
split; first exact: (suffix_ssorted Sf).
split=> //; split; first by move=> B; apply: (bounded_trim E3); apply: (bounded_scale E B).
have Bs := bounded_scale E.
move=> j B N1 N2; have FS k := fac_scale E j k.
have T k : fac j k c = None -> fac j k c2 = None.
  by move=> Nk; case Fk: (fac j k c2) => [v|] //; rewrite (fac_trim E3 _ Fk) in Nk => // b /(Bs B) [].
by split; apply: T; have [_ [H _]] := FS ta; have [_ [H' _]] := FS tb; rewrite ?H ?H'.
Qed.
Lemma prop_inst n (Phi Q : 'M[F]_n) ta tb (i i' : inst) b (m : 'cV[F]_n) (S : 'M[F]_n) :
  ssorted (i_bel i) -> get_latest (i_bel i) = Some (ta, b) -> b_fixed b = false -> b_mean b = DM m -> b_Sigma b = DM S ->
  bounded ta (i_ccf i) -> Z.lt ta tb -> iso_propagate hor (DM Phi) (DM Q) ta tb i = Ok (i', true) ->
  ssorted (i_bel i') /\ (exists b', get_latest (i_bel i') = Some (tb, b') /\ b_fixed b' = false /\ b_mean b' = DM (Phi *m m) /\
    b_Sigma b' = DM (Phi *m S *m Phi^T + Q)) /\ bounded tb (i_ccf i') /\
  (forall j X, ccf_at j ta i = Some X -> exists p, dmul (DM Phi) X = Ok p /\ ccf_at j tb i' = Some p) /\
  (forall j, ccf_at j ta i = None -> ccf_at j tb i' = None).
Proof.
move=> So La Fx Em Es Bd L E0; have E := E0; move: E; rewrite /iso_propagate (latest_get_at So La) /check_dim_mean Em /= !eqxx /=.
rewrite dmul_ok /= /iso_propagate_bel /kf_propagate_bel /check_dim_phi_q /check_dim_phi Es /= !eqxx /= cov_prop_ok /=.
rewrite /bel_set /check_dim_mean /= !eqxx /=.
set b' := bel_set_t _ _; set i1 := with_bel _ _.
case E1: iso_factors => [i2|e|e] //=; case E2: iso_factors => [i3|e|e] //= [Ei]; subst i3.
have [S1 [L1 [B1 N1]]] := factors_step E1 L; have [S2 [L2 [B2 N2]]] := factors_step E2 L.
have Lb : get_latest (i_bel i1) = Some (tb, b') by apply: (insert_newest _ So La); lia.
have Bi : bounded tb (i_ccf i1) by apply: (bounded_mono _ Bd); lia.
split; first by apply: S2; apply: S1; exact: hb_insert_ssorted.
split; first by exists b'; rewrite L2 L1 Lb.
split; first by apply: B2; apply: B1.
split.
  move=> j X; rewrite -!fac_ccf_at => Fx1.
  have [p [Ep Np]] : exists p, dmul (DM Phi) X = Ok p /\ newest j tb p (i_ccf i').
    have [p [Ep _]] : exists p, dmul (DM Phi) X = Ok p /\ True.
      move: E1; rewrite /iso_factors; case Ec: ccf_scale => [c|e|e] //= _.
      by have [_ [_ H]] := fac_scale Ec j ta; have [p [Ep _]] := H _ Fx1; exists p.
    by exists p; split=> //; apply: (call_prop junk E0 (bounded_newest Bd Fx1) L Ep).
  by exists p; split=> //; exact: newest_fac.
move=> j; rewrite -!fac_ccf_at => Nf.
have [Na Nb] := N1 j Bi Nf (bounded_none _ Bd L).
by have [_ ->] := N2 j (B1 Bi) Na Nb.
Qed.
Lemma tracked_propagate now mu P d k id (Phi Q : 'M[F]_(dim_k ds k)) t i i' : tracked now mu P d -> List.nth_error ids k = Some id ->
  Z.lt (now id) t -> symmetric Q -> d_find id d = Some i -> iso_propagate hor (DM Phi) (DM Q) (now id) t i = Ok (i', true) ->
  tracked (moved now id t) (only Phi *m mu) (only Phi *m P *m (only Phi)^T + at_block Q) (d_upd id i' d).
Proof.
move=> T En L sQ Gi E; have Hk := nth_lt T En.
have [i0 [b [Gi0 [So [La [Fx [Em [Es Bd]]]]]]]] := k_inst T En; move: Gi0; rewrite Gi => -[E0]; subst i0.
have [So' [[b' [La' [Fx' [Em' Es']]]] [Bd' [Fs Fn]]]] := prop_inst So La Fx Em Es Bd L E.
have GD x : d_find x (d_upd id i' d) = if (x =? id)%nat then Some i' else d_find x d by rewrite find_upd Gi.
have Kd : List.map fst (d_upd id i' d) = List.map fst d by exact: upd_keys.
have Uq l x : List.nth_error ids l = Some x -> l <> k -> x <> id.
  move=> El Ne Ex; subst x; case: (ltngtP l k) => // X; [have := k_asc T El En X|have := k_asc T En El X]; by rewrite ltnn.
have nid : moved now id t id = t by rewrite /moved Nat.eqb_refl.
have nother x : x <> id -> moved now id t x = now x by rewrite /moved; case: Nat.eqb_spec.
set P' := _ + at_block Q.
have PB a c : (a < seq.size ds)%N -> (c < seq.size ds)%N -> sel a *m P' *m (sel c)^T = (sel a *m only Phi) *m P *m (sel c *m only Phi)^T + sel a *m at_block Q *m (sel c)^T.
  by move=> Ha Hc; rewrite /P' mulmxDr mulmxDl trmx_mul !mulmxA.
split; [by move=> x; rewrite Kd; exact: (k_ids T)|by rewrite Kd; exact: (k_once T)|exact: (k_asc T)|exact: (k_some T)|exact: (k_len T)|exact: (k_pos T)| | |].
- have sA : symmetric (at_block Q) by rewrite /symmetric /at_block !trmx_mul trmxK sQ mulmxA.
  have sB : symmetric (only Phi *m P *m (only Phi)^T) by rewrite /symmetric !trmx_mul trmxK (k_sym T) mulmxA.
  exact: symD.
- move=> l x El; have Hl := nth_lt T El; case: (Nat.eq_dec l k) => [Elk|Nlk].
    subst l; move: El; rewrite En => -[Ex]; subst x; exists i', b'; rewrite GD Nat.eqb_refl nid; do 4!split=> //.
    rewrite mulmxA only_self // -mulmxA; split=> //; split=> //.
    by rewrite Es' PB // only_self // at_self // trmx_mul !mulmxA.
  have Nx := Uq _ _ El Nlk; have [i2 [b2 [G2 [S2 [L2 [F2 [M2 [Sg2 B2]]]]]]]] := k_inst T El.
  exists i2, b2; rewrite GD nother //; case: Nat.eqb_spec => // _; do 4!split=> //.
  rewrite M2 Sg2 mulmxA only_row // PB // only_row // at_other ?addr0 //; by left.
- have fother x y s : x <> id -> fac_of (d_upd id i' d) x y s = fac_of d x y s by move=> Nx; rewrite /fac_of GD; case: Nat.eqb_spec.
  have fself y s : fac_of (d_upd id i' d) id y s = ccf_at y s i' by rewrite /fac_of GD Nat.eqb_refl.
  have f0 y s : fac_of d id y s = ccf_at y s i by rewrite /fac_of Gi.
  have un y : unusable (ccf_at y (now id) i) -> unusable (ccf_at y t i').
    case C: (ccf_at y (now id) i) => [X|] /=; last by rewrite (Fn _ C).
    have [p [Ep ->]] := Fs _ _ C; rewrite /=; case: X C Ep => rx cx X C Ep.
    have er : dim_k ds k = rx by move: Ep; rewrite /dmul; case: eqP.
    subst rx; move: Ep; rewrite dmul_ok => Ep; by rewrite -(Ok_inj Ep).
  move=> p q x y Ep Eq Lpq; have Hp := nth_lt T Ep; have Hq := nth_lt T Eq; rewrite PB //.
  case: (Nat.eq_dec p k) => [Epk|Npk].
    subst p; move: Ep; rewrite En => -[Ex]; subst x.
    have Nq : q <> k by move=> Z; subst q; rewrite ltnn in Lpq.
    have Ny := Uq _ _ Eq Nq; rewrite only_self // only_row // at_other ?addr0 //; last by right.
    rewrite nid nother // fself fother //; case: (k_cross T En Eq Lpq) => [[r [X [Y [r0 [F1 [F2 EP]]]]]]|[U EP]].
      left; exists r, (Phi *m X), Y; split=> //; rewrite f0 in F1; have [pp [Epp ->]] := Fs _ _ F1.
      move: Epp; rewrite dmul_ok => Epp; rewrite -(Ok_inj Epp); split=> //; split=> //; by rewrite -[_ *m P]mulmxA -[_ *m (sel q)^T]mulmxA EP mulmxA.
    right; split; last by rewrite -[_ *m P]mulmxA -[_ *m (sel q)^T]mulmxA EP mulmx0.
    by case: U => U; [left; apply: un; rewrite -f0|right].
  have Nx := Uq _ _ Ep Npk; case: (Nat.eq_dec q k) => [Eqk|Nqk].
    subst q; move: Eq; rewrite En => -[Ey]; subst y.
    rewrite only_self // only_row // at_other ?addr0 //; last by left.
    rewrite nid nother // fself fother // trmx_mul mulmxA; case: (k_cross T Ep En Lpq) => [[r [X [Y [r0 [F1 [F2 EP]]]]]]|[U EP]].
      left; exists r, X, (Phi *m Y); split=> //; rewrite f0 in F2; have [pp [Epp ->]] := Fs _ _ F2.
      move: Epp; rewrite dmul_ok => Epp; rewrite -(Ok_inj Epp); split=> //; split=> //; by rewrite EP trmx_mul mulmxA.
    right; split; last by rewrite EP mul0mx.
    by case: U => U; [left|right; apply: un; rewrite -f0].
  have Ny := Uq _ _ Eq Nqk; rewrite !only_row // at_other ?addr0 //; last by left.
  by rewrite !nother // !fother //; exact: (k_cross T).
Qed.

(** ** when all instances have reached t *)
Lemma tracked_shows now mu P d t : tracked now mu P d -> (forall id, List.In id ids -> now id = t) ->
  registered ids ds t d /\ shows ids t mu P d.
Proof.
move=> T Nw; have Nt k id : List.nth_error ids k = Some id -> now id = t by move=> En; apply: Nw; exact: (List.nth_error_In _ _ En).
split; [split; [exact: (k_ids T)|exact: (k_once T)|exact: (k_asc T)|exact: (k_some T)|exact: (k_len T)|exact: (k_pos T)|]|split].
- move=> id i Gi; have Hin : List.In id ids by apply/(k_ids T); exact: reg_key Gi.
  have [k En] := List.In_nth_error _ _ Hin; have [i0 [b [G0 [So [La [Fx _]]]]]] := k_inst T En.
  move: G0; rewrite Gi => -[E0]; subst i0; rewrite (Nt _ _ En) in La.
  by exists b, t, b; rewrite (latest_get_at So La).
- move=> k id En; have Hk := nth_lt T En; have [i [b [Gi [So [La [_ [Em [Es _]]]]]]]] := k_inst T En.
  rewrite (Nt _ _ En) in La; exists b; rewrite /bel_of Gi /bel_at (latest_get_at So La) meanE // blkE //.
  by rewrite Em Es.
- move=> k l i j Ei Ej Lkl; have Hk := nth_lt T Ei; have Hl := nth_lt T Ej.
  have [ii [_ [Gi _]]] := k_inst T Ei; have [jj [_ [Gj _]]] := k_inst T Ej.
  rewrite (get_SigmaE _ Gi Gj) blkE //; have := k_cross T Ei Ej Lkl; rewrite (Nt _ _ Ei) (Nt _ _ Ej).
  case=> [[q [X [Y [q0 [-> [-> EP]]]]]]|[U EP]].
    have Lij : (i <? j)%nat = true by apply/Nat.ltb_lt; apply/ltP; exact: (k_asc T Ei Ej Lkl).
    have xs : dsize (DM X) != 0%N by rewrite /dsize /= muln_eq0 negb_or -!lt0n (k_pos T Hk) q0.
    have ys : dsize (DM Y) != 0%N by rewrite /dsize /= muln_eq0 negb_or -!lt0n (k_pos T Hl) q0.
    cbv zeta; rewrite /odflt /oapp xs ys /= Lij /dtr /= dmul_ok; eexists; split; first reflexivity.
    have zs : dsize (DM (X *m Y^T)) != 0%N by rewrite /dsize /= muln_eq0 negb_or -!lt0n (k_pos T Hk) (k_pos T Hl).
    by rewrite /zero_if_none zs EP.
  exists (dempty F); split; last by rewrite /zero_if_none /= EP.
  by case: U; [case: (fac_of d i j t) => [x|] //= ->|case: (fac_of d j i t) => [x|] /= => [->|_]; rewrite ?andbF].
Qed.
(** ** an observation *)
Lemma tracked_written now mu P d t bs (A : 'M[F]_N) (dx : 'cV[F]_N) : tracked now mu P d -> (forall id, List.In id ids -> now id = t) -> symmetric A ->
  (exists d1 d', split_right_upper (DM A) bs t d = Ok d1 /\ correct_beliefs (DM A) (DM dx) bs t d1 = Ok d' /\
  List.map fst d' = List.map fst d /\
  (forall id, match d_find id d with
     | Some i => exists i' b', d_find id d' = Some i' /\ i_enabled i' = i_enabled i /\ (bounded t (i_ccf i) -> bounded t (i_ccf i')) /\
         i_bel i' = hb_insert t b' (i_bel i) /\ b_fixed b' = false /\
         forall k, List.nth_error ids k = Some id -> b_mean b' = DM (sel k *m (mu + dx)) /\ b_Sigma b' = DM (sel k *m A *m (sel k)^T)
     | None => d_find id d' = None end) /\
  (forall k l i j, List.nth_error ids k = Some i -> List.nth_error ids l = Some j -> (k < l)%N ->
     fac_of d' i j t = Some (DM (sel k *m A *m (sel l)^T)) /\ fac_of d' j i t = Some (eyeI F (dim_k ds l))) /\
  (forall id j s, s <> t -> fac_of d' id j s = fac_of d id j s)) ->
  exists d1 d', split_right_upper (DM A) bs t d = Ok d1 /\ correct_beliefs (DM A) (DM dx) bs t d1 = Ok d' /\ tracked now (mu + dx) A d'.
Proof.
move=> T Nw sA [d1 [d' [E1 [E2 [K [B [Fc _]]]]]]]; exists d1, d'; split=> //; split=> //.
have Nt k id : List.nth_error ids k = Some id -> now id = t by move=> En; apply: Nw; exact: (List.nth_error_In _ _ En).
split; [by move=> x; rewrite K; exact: (k_ids T)|by rewrite K; exact: (k_once T)|exact: (k_asc T)|exact: (k_some T)|exact: (k_len T)|exact: (k_pos T)|exact: sA| |].
- move=> k id En; have [i [b [Gi [So [La [Fx [_ [_ Bd]]]]]]]] := k_inst T En; have := B id; rewrite Gi => -[i' [b' [Gi' [_ [Bi [Eb [Fx' Hk]]]]]]].
  have [Em Es] := Hk _ En; rewrite (Nt _ _ En) in La Bd *; exists i', b'; split=> //; rewrite Eb; split; first exact: hb_insert_ssorted.
  split; first by apply: (insert_newest _ So La); lia.
  by do 3!split=> //; exact: Bi.
- move=> k l i j Ei Ej L; have [F1 F2] := Fc _ _ _ _ Ei Ej L; rewrite (Nt _ _ Ei) (Nt _ _ Ej) F1 F2; left.
  exists (dim_k ds l), (sel k *m A *m (sel l)^T), 1%:M; split; first exact: (k_pos T (nth_lt T Ej)).
  split=> //; split; last by rewrite trmx1 mulmx1.
  by rewrite /eyeI deye_square.
Qed.
Lemma tracked_update now mu P d t bs m (Hs : 'M[F]_(m, N)) (R : 'M[F]_m) (r : 'cV[F]_m) cfg seen : tracked now mu P d -> (forall id, List.In id ids -> now id = t) ->
  (forall A dx, symmetric A -> exists d1 d', split_right_upper (DM A) bs t d = Ok d1 /\ correct_beliefs (DM A) (DM dx) bs t d1 = Ok d' /\ tracked now (mu + dx) A d') ->
  seen = dp_update junk is_psd nearest eps0 (DM Hs) (DM R) (DM r) bs (DM P) t cfg d ->
  match correction_step junk (DM Hs) (DM R) (DM r) (DM (P + eps0%:M)) cfg with
  | Ok res => if rejected res then seen = Ok (d, false) else
      exists (S : 'M[F]_N) (dx : 'cV[F]_N) d', DM S = repaired (Sigma_apos res) /\ DM dx = delta_mean res /\ seen = Ok (d', true) /\ tracked now (mu + dx) S d'
  | Abort e => seen = Abort e
  | UB e => seen = UB e
  end.
Proof.
move=> T Nw W ->; rewrite /dp_update stabilize_ok (symm_id (k_sym T)) /= correction_step_ok.
case: step_gate => [rej|e|e] //=; case: rej => //=.
set Sf := step_final _ _ _ _ _; have [X [EX sX]] : exists X : 'M[F]_N, DM X = repaired (DM Sf) /\ symmetric X.
  have sS : symmetric Sf by exact: step_final_sym.
  by rewrite /repaired; case: is_psd; [exists Sf|have [B [EB sB]] := nearest_dims sS; exists B].
rewrite -/(repaired _) -EX; have [d1 [d' [E1 [E2 T2]]]] := W X (step_K junk Hs R (P + eps0%:M) cfg *m r) sX; rewrite E1 /= E2 /=.
by exists X, (step_K junk Hs R (P + eps0%:M) cfg *m r), d'.
Qed.
Section Run.
Variables (t0 : Z) (mu0 : 'cV[F]_N) (P0 : 'M[F]_N) (d0 : dict).
Hypothesis I0 : initial t0 mu0 P0 d0.
Lemma run_tracked now mu P d : run t0 mu0 P0 d0 now mu P d -> tracked now mu P d.
Proof.
elim=> {now mu P d} [|now mu P d k id Phi Q t i i' _ T|now mu P d t dH m Hs R z cfg res S dx d' _ T Nw Ft Sp Er Es Ex|now mu P d t dH m Hs R r cfg res S dx d' _ T Nw Ft Sp Er Es Ex|now mu P d t dH m R z cfg d' _ T Nw Ft|now mu P d t dH m R r cfg d' _ T Nw Ft].
- exact: tracked_initial.
- exact: tracked_propagate.
all: have [G Sh] := tracked_shows T Nw; have [bs [Eb [Em [Ec [EH W]]]]] := opened predict G Sh (k_sym T); have [H1 [E1 S1]] := EH _ _ Ft.
all: have W' A dx0 (sA : symmetric A) := tracked_written T Nw sA (W A dx0).
- rewrite (spread_unique G Ft S1 Sp) in E1; rewrite /dp_apply_z E1 /= Eb /= Em /= Ec /= dmul_ok /= dsub_ok /=; set r := z - _ => Es0.
  have := tracked_update T Nw W' (esym Es0); rewrite Er; case: (rejected res) => // -[S2 [dx2 [d2 [Es2 [Ex2 [[->] T2]]]]]].
  by move: T2; rewrite -Es in Es2; rewrite -Ex in Ex2; rewrite (DM_inj Es2) (DM_inj Ex2).
- rewrite (spread_unique G Ft S1 Sp) in E1; rewrite /dp_apply_r E1 /= Eb /= Ec /= => Es0.
  have := tracked_update T Nw W' (esym Es0); rewrite Er; case: (rejected res) => // -[S2 [dx2 [d2 [Es2 [Ex2 [[->] T2]]]]]].
  by move: T2; rewrite -Es in Es2; rewrite -Ex in Ex2; rewrite (DM_inj Es2) (DM_inj Ex2).
- rewrite /dp_apply_z E1 /= Eb /= Em /= Ec /= dmul_ok /= dsub_ok /=; set r := z - _ => Es0.
  have := tracked_update T Nw W' (esym Es0); case: correction_step => [res|e|e] //; case: rejected => [[->] //|].
  by case=> S2 [dx2 [d2 [_ [_ []]]]].
- rewrite /dp_apply_r E1 /= Eb /= Ec /= => Es0.
  have := tracked_update T Nw W' (esym Es0); case: correction_step => [res|e|e] //; case: rejected => [[->] //|].
  by case=> S2 [dx2 [d2 [_ [_ []]]]].
Qed.
(** at every moment the newest belief of every instance holds its blocks of the centralized mean and covariance *)
Theorem C70_beliefs : forall now mu P d, run t0 mu0 P0 d0 now mu P d -> forall k id, List.nth_error ids k = Some id ->
  exists i b, d_find id d = Some i /\ get_latest (i_bel i) = Some (now id, b) /\
    dblock (DM mu) (off ds k) 0 (dim_k ds k) 1 = Ok (b_mean b) /\ blk ds (DM P) k k = Ok (b_Sigma b).
Proof.
move=> now mu P d /run_tracked T k id En; have Hk := nth_lt T En; have [i [b [Gi [So [La [_ [Em [Es _]]]]]]]] := k_inst T En.
by exists i, b; rewrite meanE // blkE // Em Es.
Qed.
(** whenever all instances have reached the same time the registry shows the whole mean and covariance *)
Theorem C70_trace : forall now mu P d t, run t0 mu0 P0 d0 now mu P d -> (forall id, List.In id ids -> now id = t) ->
  shows ids t mu P d /\ symmetric P.
Proof. move=> now mu P d t /run_tracked T Nw; by have [_ S] := tracked_shows T Nw; split=> //; exact: (k_sym T). Qed.
(** and the next observation has exactly the centralized filter's outcome *)
Theorem C70_outcome : forall now mu P d t dH m (R : 'M[F]_m) (z : 'cV[F]_m) cfg, run t0 mu0 P0 d0 now mu P d -> (forall id, List.In id ids -> now id = t) ->
  fits ids ds dH m -> exists Hs : 'M[F]_(m, N), spread ids dH Hs /\
    as_full junk is_psd nearest eps0 ids t mu P Hs R (z - Hs *m mu) cfg d (dp_apply_z junk is_psd nearest predict eps0 dH (DM z) (DM R) t cfg d).
Proof.
move=> now mu P d t dH m R z cfg /run_tracked T Nw Ft; have [G S] := tracked_shows T Nw.
have X := (C69_measurement junk is_psd predict eps0 nearest_dims R z cfg G S (k_sym T) Ft); exact: X.
Qed.
End Run.
End C70.
Print Assumptions C70_beliefs.
Print Assumptions C70_trace.
Print Assumptions C70_outcome.
(** two correlated instances; both are propagated on their own, then a difference of the two is observed and used *)
Section Example70.
Let Q := rat_realFieldType.
Let jk : forall n, 'M[Q]_n -> 'M[Q]_n := fun n A => A.
Let c1 (x : Q) : 'M[Q]_1 := x%:M.
Let b (x s : Q) : belief Q := Bel (DM (c1 x)) (DM (c1 s)) Z0 false false true.
Let i5 : inst (belief Q) (dmat Q) := Inst true [:: (Z0, b 3%:R 4%:R)] [:: (2%N, [:: (Z0, DM (c1 1))])].
Let i2 : inst (belief Q) (dmat Q) := Inst true [:: (Z0, b 2%:R 3%:R)] [:: (5%N, [:: (Z0, DM (c1 2%:R))])].
Let d0 : dict (belief Q) (dmat Q) := [:: (5%N, i5); (2%N, i2)].
Let ids0 : list nat := [:: 2; 5]%N.
Let ds0 : seq nat := [:: 1; 1]%N.
Let mu0 : 'cV[Q]_(sumn ds0) := \matrix_(i, j) (if (i : nat) == 0%N then 2%:R else 3%:R).
Let P0 : 'M[Q]_(sumn ds0) := \matrix_(i, j) (if (i : nat) == 0%N then if (j : nat) == 0%N then 3%:R else 2%:R else if (j : nat) == 0%N then 2%:R else 4%:R).
Let H0 : list (nat * dmat Q) := [:: (2, DM (c1 1)); (5, DM (c1 (- 1)))]%N.
Let noPred : nat -> Z -> inst (belief Q) (dmat Q) -> outcome (inst (belief Q) (dmat Q) * bool) := fun _ _ i => Ok (i, false).
Let cfg0 := CorrCfg false true true (d_of_Z 1) (0 : Q).
Lemma nnil T k : List.nth_error (@nil T) k = None. Proof. by case: k. Qed.
Lemma ids0_nth k id : List.nth_error ids0 k = Some id -> (k = 0 /\ id = 2 \/ k = 1 /\ id = 5)%N.
Proof. by case: k => [|[|k]] /=; rewrite ?nnil // => -[<-]; [left|right]. Qed.
Lemma ds0_dim k : (k < 2)%N -> dim_k ds0 k = 1%N. Proof. by case: k => [|[|k]]. Qed.
Lemma one_block n m (A : 'M[Q]_(n, m)) i j (Hi : (i < n)%N) (Hj : (j < m)%N) : dblock (DM A) i j 1 1 = Ok (DM (c1 (A (Ordinal Hi) (Ordinal Hj)))).
Proof.
rewrite dblock_ok /= ?addn1 //; congr (Ok (DM _)); apply/matrixP => a e; rewrite !ord1 [LHS]mxE [RHS]mxE eqxx mulr1n /= !addn0; exact: entry_in.
Qed.
Example C69_example : registered ids0 ds0 Z0 d0 /\ shows ids0 Z0 mu0 P0 d0 /\ symmetric P0 /\ fits ids0 ds0 H0 1 /\ P0 ord0 ord_max != 0.
Proof.
have D0 : dblock (DM mu0) 0 0 1 1 = Ok (DM (c1 2%:R)) /\ dblock (DM mu0) 1 0 1 1 = Ok (DM (c1 3%:R)).
  split; [rewrite (@one_block _ _ mu0 0%N 0%N erefl erefl)|rewrite (@one_block _ _ mu0 1%N 0%N erefl erefl)]; by congr (Ok (DM (c1 _))); rewrite mxE.
have B0 : blk ds0 (DM P0) 0 0 = Ok (DM (c1 3%:R)) /\ blk ds0 (DM P0) 1 1 = Ok (DM (c1 4%:R)) /\ blk ds0 (DM P0) 0 1 = Ok (DM (c1 2%:R)).
  split; [rewrite /blk (@one_block _ _ P0 0%N 0%N erefl erefl)|split; [rewrite /blk (@one_block _ _ P0 1%N 1%N erefl erefl)|rewrite /blk (@one_block _ _ P0 0%N 1%N erefl erefl)]]; by congr (Ok (DM (c1 _))); rewrite mxE.
have G25 : get_Sigma_IJ 2 5 Z0 d0 = Ok (DM (c1 2%:R)) by rewrite /get_Sigma_IJ /= /dtr /= /c1 tr_scalar_mx dmul_ok mulmx1.
split.
  split=> //.
  - by move=> id; split=> /= -[->|[->|//]]; [right; left|left|right; left|left].
  - by repeat constructor => /=; [case|].
  - by move=> k l i j /ids0_nth [[-> ->]|[-> ->]] /ids0_nth [[-> ->]|[-> ->]].
  - by case=> [|[|k]].
  - move=> id i /=; case: ifP => _; first by case=> <-; exists (b 3%:R 4%:R), Z0, (b 3%:R 4%:R).
    by case: ifP => // _ [<-]; exists (b 2%:R 3%:R), Z0, (b 2%:R 3%:R).
split.
  split.
    move=> k id /ids0_nth [[-> ->]|[-> ->]]; [exists (b 2%:R 3%:R)|exists (b 3%:R 4%:R)]; split=> //; have [X Y] := D0; have [U [V _]] := B0; by split.
  move=> k l i j /ids0_nth [[-> ->]|[-> ->]] /ids0_nth [[-> ->]|[-> ->]] // _; exists (DM (c1 2%:R)); split=> //.
  by have [_ [_ ->]] := B0.
split; first by apply/matrixP => i j; rewrite !mxE; case: eqP; case: eqP.
split; last by rewrite !mxE.
split=> //.
- by repeat constructor => /=; [case|].
- by move=> id X [[_ <-]|[[_ <-]|//]].
- by move=> k id X /ids0_nth [[-> _]|[-> _]] [[_ <-]|[[_ <-]|//]].
Qed.
Example C70_example : exists now mu P d, run jk (d_of_Z 1) (fun _ => true) id noPred 0 ids0 Z0 mu0 P0 d0 now mu P d /\ initial ids0 Z0 mu0 P0 d0 /\
  (forall id, List.In id ids0 -> now id = Zpos 5) /\ shows ids0 (Zpos 5) mu P d.
Proof.
have [G [S [sP [Ft _]]]] := C69_example.
have I0 : initial ids0 Z0 mu0 P0 d0.
  split=> //; split=> //; split=> // id i /=; case: ifP => _; [|case: ifP => // _]; case=> <- /=; split; try (by repeat constructor); split=> // j bb; case: ifP => // _ [<-]; (split; first by repeat constructor); by move=> e [<-|//].
have prop x s j y a : exists i', iso_propagate (d_of_Z 1) (DM (c1 a)) (DM (1%:M : 'M_1)) Z0 (Zpos 5) (Inst true [:: (Z0, b x s)] [:: (j, [:: (Z0, DM (c1 y))])]) = Ok (i', true).
  rewrite /iso_propagate /= /check_dim_mean /= dmul_ok /= /iso_propagate_bel /kf_propagate_bel /check_dim_phi_q /check_dim_phi /=.
  rewrite cov_prop_ok /= /iso_factors /= /get_at_t /= dmul_ok /= /iso_check_horizon /= /check_horizon_restricted /=.
  by rewrite /get_at_t /= dmul_ok /=; eexists.
have [i2' E2] := prop 2%:R 3%:R 5%N 2%:R 2%:R; have [i5' E5] := prop 3%:R 4%:R 2%N 1 3%:R.
have sQ : symmetric (1%:M : 'M[Q]_1) by rewrite /symmetric trmx1.
have R1 := @Run_propagate _ jk (d_of_Z 1) (fun _ => true) id noPred 0 ids0 ds0 Z0 mu0 P0 d0 _ _ _ _ 0%N 2%N (c1 2%:R) 1%:M (Zpos 5) i2 i2'
  (@Run_start _ jk (d_of_Z 1) (fun _ => true) id noPred 0 ids0 ds0 Z0 mu0 P0 d0) erefl erefl sQ erefl E2.
have R2 := @Run_propagate _ jk (d_of_Z 1) (fun _ => true) id noPred 0 ids0 ds0 Z0 mu0 P0 d0 _ _ _ _ 1%N 5%N (c1 3%:R) 1%:M (Zpos 5) i5 i5' R1 erefl erefl sQ erefl E5.
have nd n (A : 'M[Q]_n) : symmetric A -> exists B : 'M[Q]_n, id (DM A) = DM B /\ symmetric B by exists A.
have Nw : forall id : nat, List.In id ids0 -> moved (moved (fun _ => Z0) 2 (Zpos 5)) 5 (Zpos 5) id = Zpos 5 by move=> x [<-|[<-|//]].
have [Hs [Sp]] := C70_outcome nd I0 (1%:M : 'M_1) (1%:M : 'M_1) cfg0 R2 Nw Ft.
rewrite /as_full; case Ec: correction_step => [res|e|e]; have := Ec; rewrite correction_step_ok //= => -[Er]; rewrite -{1}Er /=.
case=> S' [dx [d' [ES [Ex [E _]]]]].
have R3 := Run_observe R2 Nw Ft Sp Ec ES Ex E.
do 4!eexists; split; first exact: R3.
split=> //; split=> //; exact: (proj1 (C70_trace nd I0 R3 Nw)).
Qed.
End Example70.
Print Assumptions C69_example.
