(** C36: buffered corrections compose.  C37: lazy and eager cross-covariance bookkeeping agree. *)
From Coq Require Import ZArith List Bool Arith Lia.
From Flocq Require Import IEEE754.BinarySingleNaN.
From mathcomp Require Import all_ssreflect all_algebra.
From Verif Require Import Outcome TimestampModel DoubleModel Spec_Time TimestampProofs BufModel Spec_Buf BufProofs HorizonModel HorizonProofs MeasModel HandlerModel Spec_Handler DMat KFModel Spec_Mat KFProofs BeliefModel EigenModel EigenProofs IsoModel IsoProofs IsoTrace CorrModel Spec_Corr CorrProofs CorrTime CorrSim CorrTrace.
Set Implicit Arguments. Unset Strict Implicit. Unset Printing Implicit Defensive.
Import GRing.Theory Num.Theory.
Local Open Scope outcome_scope.
Local Open Scope ring_scope.
Local Arguments Z.mul : simpl never.
Local Arguments Z.add : simpl never.
Local Arguments Z.sub : simpl never.

Section C36.
Variable F : realFieldType.
Notation dmat := (dmat F).
Implicit Types (h : buf dmat).

(** compute_correction(ta, tb) is the product of the terms in (ta, tb], newest leftmost, exactly when there is a term after ta and one
    at or before tb; otherwise it is the empty matrix, and then no term lies in (ta, tb] *)
Theorem C36_correction : forall n ta tb h, ssorted h -> square n h ->
  ((exists e, List.In e h /\ Z.lt ta e.1) /\ (exists e, List.In e h /\ Z.le e.1 tb) ->
     compute_correction ta tb h = Ok (DM (product n ta tb h))) /\
  (~ ((exists e, List.In e h /\ Z.lt ta e.1) /\ (exists e, List.In e h /\ Z.le e.1 tb)) ->
     compute_correction ta tb h = Ok (dempty F) /\ terms ta tb h = nil).
Proof.
move=> n ta tb h S Q; rewrite (compute_correctionE ta tb S Q).
have A : available ta tb h = true <-> (exists e, List.In e h /\ Z.lt ta e.1) /\ (exists e, List.In e h /\ Z.le e.1 tb).
  rewrite /available; split.
    move=> /andP [/List.existsb_exists [e [I /Z.ltb_lt L]] /List.existsb_exists [e' [I' /Z.leb_le L']]].
    by split; [exists e|exists e'].
  case=> [[e [I L]] [e' [I' L']]]; apply/andP; split; apply/List.existsb_exists.
    by exists e; split=> //; apply/Z.ltb_lt.
  by exists e'; split=> //; apply/Z.leb_le.
split; first by move/A => ->.
move=> N; have -> : available ta tb h = false by apply/negbTE/negP => /A.
split=> //; apply: terms_none => e I.
case: (Z_lt_le_dec ta e.1) => L1; last by left.
case: (Z_lt_le_dec tb e.1) => L2; first by right.
by case: N; split; exists e.
Qed.
(** corrections compose: if the ones over (ta, tb] and (tb, tc] are available, so is the one over (ta, tc], and it is their product *)
Theorem C36_compose : forall n ta tb tc h (A B : 'M[F]_n), (0 < n)%N -> ssorted h -> square n h -> Z.le ta tb -> Z.le tb tc ->
  compute_correction ta tb h = Ok (DM A) -> compute_correction tb tc h = Ok (DM B) -> compute_correction ta tc h = Ok (DM (B *m A)).
Proof.
move=> n ta tb tc h A B n0 S Q L1 L2.
rewrite !(compute_correctionE _ _ S Q) /available.
have em X : Ok (dempty F) = Ok (DM (X : 'M[F]_n)) -> False.
  by move=> E; have := f_equal (fun x => if x is Ok M then drows M else 0%N) E => /= E0; move: n0; rewrite -E0.
case A1: (List.existsb (fun e => Z.ltb ta e.1) h) => /=; last by move=> /em.
case A2: (List.existsb (fun e => Z.leb e.1 tb) h) => /=; last by move=> /em.
case B1: (List.existsb (fun e => Z.ltb tb e.1) h) => /=; last by move=> _ /em.
case B2: (List.existsb (fun e => Z.leb e.1 tc) h) => /=; last by move=> _ /em.
by move=> E1 E2; rewrite -(DM_inj (Ok_inj E1)) -(DM_inj (Ok_inj E2)) (product_comp _ S L1 L2).
Qed.
End C36.

Section C37.
Variable F : realFieldType.
Variable junk : forall n, 'M[F]_n -> 'M[F]_n.
(** the horizon of beliefs and factors and the one of the correction history (seconds, as doubles) *)
Variables (hor chor : double).
Notation dmat := (dmat F).
Notation belief := (belief F).
Notation inst := (inst belief dmat).
Notation cinst := (cinst F).

(** ** calls on a lazy instance, with their answers *)
Inductive call := Local (c : lcall F) | Read (j : nat) (s : Z).
Definition cexec (c : call) (x : cinst) : outcome (cinst * bool) :=
  match c with
  | Local (CProp Phi Q ta tb) => corr_propagate hor chor Phi Q ta tb x
  | Local (CPropBel ba mean Phi Q ta tb) => corr_propagate_bel hor chor ba mean Phi Q ta tb x
  | Local (CStore bb Phi ta tb) => corr_propagate_store hor chor bb Phi ta tb x
  | Local (CPriv H R z t cfg) => corr_private junk H R z t cfg x
  | Read j s => let! (x', _) := corr_get_ccf j s x in Ok (x', true)
  end.
Fixpoint crun (x : cinst) (cs : list call) : outcome (cinst * list bool) :=
  match cs with
  | nil => Ok (x, nil)
  | c :: r => let! (x', b) := cexec c x in let! (x'', bs) := crun x' r in Ok (x'', b :: bs)
  end.
(** what the lazy filter answers where the eager one answers [b]: apply_propagation(Phi, Q, t_a, t_b) tries to add the same term
    twice and always answers false *)
Definition lazy_answer (cb : call * bool) : bool := match cb.1 with Local (CProp _ _ _ _) => false | _ => cb.2 end.

(** [forward n step span i0 t0 cs i t]: on the eager filter the calls cs, with their answers, lead from instance i0 at time t0 to i at
    time t; propagations start at the current time, go forward by at most step and have n x n transition matrices; private
    updates are at the current time, at which the stored belief carries that time stamp and an n x n covariance; reads ask for a
    factor the eager filter has *)
Inductive forward (n : nat) (step span : Z) (i0 : inst) (t0 : Z) : list (call * bool) -> inst -> Z -> Prop :=
| F_start : forward n step span i0 t0 nil i0 t0
| F_prop cs i t c (Phi : 'M[F]_n) t' i' b : forward n step span i0 t0 cs i t -> Z.lt t t' -> Z.le t' (Z.add t step) -> Z.lt (Z.add t' span) tmax ->
    ((exists Q, c = CProp (DM Phi) Q t t') \/ (exists ba mean Q, c = CPropBel ba mean (DM Phi) Q t t') \/ (exists bb, c = CStore bb (DM Phi) t t')) ->
    lexec junk hor c i = Ok (i', b) ->
    forward n step span i0 t0 (cs ++ [:: (Local c, b)]) i' (if b then t' else t)
| F_priv cs i t k (H : 'M[F]_(k, n)) (R : 'M[F]_k) z cfg bl (Sg : 'M[F]_n) i' b : forward n step span i0 t0 cs i t ->
    bel_at t i = Some bl -> b_t bl = t -> b_Sigma bl = DM Sg ->
    lexec junk hor (CPriv (DM H) (DM R) z t cfg) i = Ok (i', b) ->
    forward n step span i0 t0 (cs ++ [:: (Local (CPriv (DM H) (DM R) z t cfg), b)]) i' t
| F_read cs i t j s : forward n step span i0 t0 cs i t -> ccf_at j s i <> None ->
    forward n step span i0 t0 (cs ++ [:: (Read j s, true)]) i t.

(** a starting point: beliefs and factors in time order, every factor buffer has its newest element (n rows) at t0 *)
Record start (n : nat) (t0 : Z) (i0 : inst) : Prop := {
  st_bel : ssorted (i_bel i0) /\ in_time (i_bel i0);
  st_ccf : forall j b, List.In (j, b) (i_ccf i0) -> ssorted b /\ in_time b /\ (forall e, List.In e b -> drows e.2 = n) /\ get_latest_t b = Some t0 }.

Lemma crun_app cs1 cs2 : forall x, crun x (cs1 ++ cs2) =
  let! (x1, b1) := crun x cs1 in let! (x2, b2) := crun x1 cs2 in Ok (x2, b1 ++ b2).
Proof.
elim: cs1 => [|c cs IH] x /=; first by case: crun => [[x2 b2]|e|e].
case: cexec => [[x' b]|e|e] //=; rewrite IH; case: crun => [[x1 b1]|e|e] //=.
by case: crun => [[x2 b2]|e|e].
Qed.

Lemma crun_snoc cs c x x1 b1 x2 b2 : crun x cs = Ok (x1, b1) -> cexec c x1 = Ok (x2, b2) -> crun x (cs ++ [:: c]) = Ok (x2, b1 ++ [:: b2]).
Proof. by move=> E1 E2; rewrite crun_app E1; cbn [crun obind]; rewrite E2. Qed.

Section Main.
Variables (hb hh step : Z).
Hypotheses (Nb : h_near hor hb) (Rb : Z.le 0 hb /\ Z.lt hb tmax).
Hypotheses (Nc : h_near chor (Z.mul 2 hh)) (Rc : Z.lt (Z.mul 2 hh) tmax) (Hstep : Z.lt 0 step /\ Z.le (Z.mul 2 step) hh).
Variable n : nat.
Hypothesis n0 : (0 < n)%N.
Notation srel := (@srel F hh step n).

Lemma start_srel t0 (i0 : inst) h0 : regular n step (Z.mul 2 hh) t0 h0 -> start n t0 i0 -> srel t0 (CInst i0 h0) i0.
Proof.
move=> H [[SB RBl] SC]; split=> //=.
move: SC; elim: (i_ccf i0) => [|[k b] c IH] SC; first by constructor.
constructor; last first.
  by apply: IH => j b1 I; apply: (SC j b1); right.
have [S [R [D L]]] := SC k b (or_introl (erefl _)).
have [m NL] : exists m, get_latest b = Some (t0, m).
  by move: L; rewrite /get_latest_t; case: get_latest => [[x m]|] //= [->]; exists m.
have [IL ML] := get_latest_spec b t0 m (ssorted_w b S) NL.
have [mc NC] := ho_cur H; have [Ic _] := get_latest_spec h0 t0 mc (ssorted_w h0 (ho_sorted H)) NC.
have Dm := D _ IL; simpl in Dm; have R0 := R _ IL; simpl in R0.
case: m Dm NL IL => r q m Dm NL IL; simpl in Dm; subst r.
split=> //; exists q, t0, m; split; first lia; split=> //; split; first by exists mc.
rewrite product_refl ?mul1mx; last lia.
split=> // s m' Ls G; have Is := get_at_In _ _ _ G; have := ML _ Is; simpl => Ls'.
have Es : s = t0 by lia.
subst s; move: G; rewrite (latest_get_at S NL) => -[<-]; rewrite product_refl ?mul1mx; last lia.
by split=> //; exists mc.
Qed.
Lemma prop_shape c (Phi : 'M[F]_n) t t' (i i' : inst) b x :
  (exists Q, c = CProp (DM Phi) Q t t') \/ (exists ba mean Q, c = CPropBel ba mean (DM Phi) Q t t') \/ (exists bb, c = CStore bb (DM Phi) t t') ->
  lexec junk hor c i = Ok (i', b) -> srel t x i -> Z.lt t t' -> Z.le t' (Z.add t step) -> Z.lt (Z.add t' (Z.mul 2 hh)) tmax ->
  exists x', cexec (Local c) x = Ok (x', lazy_answer (Local c, b)) /\ srel (if b then t' else t) x' i'.
Proof.
move=> Hc E X L1 L2 L3; case: (X) => H EB SB RBl P; have C0 := regular_cur H.
have ins l bb : l = hb_insert t' bb (i_bel i) -> ssorted l /\ in_time l.
  move=> ->; split; first exact: hb_insert_ssorted.
  by move=> e /hb_insert_In -/(_ SB) [->|[I _]]; [simpl; lia|exact: RBl].
have pb ba mean Q l ok : kf_propagate_bel ba mean (DM Phi) Q t' (i_bel i) = Ok (l, ok) -> if ok then exists bb, l = hb_insert t' bb (i_bel i) else True.
  rewrite /kf_propagate_bel; case: ifP => _; last by case=> _ <-.
  case: covariance_propagation => [S|e|e] //=; case: ifP => _ [<- <-] //; by eexists.
case: Hc => [[Q Ec]|[[ba [mean [Q Ec]]]|[bb Ec]]]; subst c; rewrite /lazy_answer /=; move: E => /=.
- rewrite /iso_propagate /corr_propagate EB; case G: get_at_t => [ba|]; last by case=> <- <-; exists x.
  case: check_dim_mean; last by case=> <- <-; exists x.
  case: dmul => [mb|e|e] //=; rewrite /iso_propagate_bel /corr_propagate_bel EB.
  case EP: kf_propagate_bel => [[l ok]|e|e] //=; have := pb _ _ _ _ _ EP.
  case: ok {EP} => [[bl El]|_]; last by case=> <- <-; exists x.
  have [Sl Rl] := ins _ _ El.
  case E1: iso_factors => [i1|e|e] //=.
  have E2 := factors_twice junk Nb Rb H L1 (ltac:(lia) : Z.lt t' tmax) (P : pairs _ _ (i_ccf (with_bel l i))) Sl Rl E1.
  rewrite E2 /= => -[<- <-].
  have [x' [X1 [X2 X3]]] := sim_prop junk Nb Rb Nc Rc Hstep X L1 L2 L3 Sl Rl E1.
  by rewrite X1 /= X3; exists x'.
- rewrite /iso_propagate_bel /corr_propagate_bel EB.
  case EP: kf_propagate_bel => [[l ok]|e|e] //=; have := pb _ _ _ _ _ EP.
  case: ok {EP} => [[bl El]|_]; last by case=> <- <-; exists x.
  have [Sl Rl] := ins _ _ El.
  case E1: iso_factors => [i1|e|e] //= [<- <-].
  have [x' [X1 [X2 X3]]] := sim_prop junk Nb Rb Nc Rc Hstep X L1 L2 L3 Sl Rl E1.
  by rewrite X1; exists x'.
- rewrite /iso_propagate_store /corr_propagate_store EB /kf_propagate_store.
  case: check_dim_phi => /=; last by case=> <- <-; exists x.
  have [Sl Rl] := ins _ _ (erefl (hb_insert t' (bel_set_t t' bb) (i_bel i))).
  case E1: iso_factors => [i1|e|e] //= [<- <-].
  have [x' [X1 [X2 X3]]] := sim_prop junk Nb Rb Nc Rc Hstep X L1 L2 L3 Sl Rl E1.
  by rewrite X1; exists x'.
Qed.
Lemma forward_sim t0 (i0 : inst) h0 cs i t : regular n step (Z.mul 2 hh) t0 h0 -> start n t0 i0 ->
  forward n step (Z.mul 2 hh) i0 t0 cs i t ->
  exists x, crun (CInst i0 h0) [seq cb.1 | cb <- cs] = Ok (x, [seq lazy_answer cb | cb <- cs]) /\ srel t x i.
Proof.
move=> H0 S0; elim=> {cs i t} [|cs i t c Phi t' i' b _ [x [E X]] L1 L2 L3 Hc EX|cs i t k H R z cfg bl Sg i' b _ [x [E X]] G T ES EX|
  cs i t j s _ [x [E X]] G].
- by exists (CInst i0 h0); split=> //; exact: start_srel.
- have [x' [E' X']] := prop_shape Hc EX X L1 L2 L3.
  by exists x'; split=> //; rewrite !map_cat; exact: (crun_snoc E E').
- have [x' [E' X']] := sim_private Hstep X G T ES EX.
  by exists x'; split=> //; rewrite !map_cat; exact: (crun_snoc E (E' : cexec (Local (CPriv _ _ _ _ _)) _ = _)).
- case G': (ccf_at j s i) G => [m|] // _.
  have [x' [m' [E' [X' _]]]] := sim_read junk n0 X G'.
  have E2 : cexec (Read j s) x = Ok (x', true) by rewrite /cexec E'.
  by exists x'; split=> //; rewrite !map_cat; exact: (crun_snoc E E2).
Qed.
(** C37: let every propagation step be at most a quarter of the correction history's horizon.  Whatever calls the eager filter executes,
    the lazy filter executes them too (it does not throw), with the same answers except that apply_propagation(Phi, Q, t_a, t_b)
    answers false, and stores the same beliefs; and the factor it reconstructs for the current time, or for any time not
    before its newest stored factor, is the one the eager filter stores *)
Theorem C37_lazy_eager : forall t0 (i0 : inst) h0 cs i t,
  regular n step (Z.mul 2 hh) t0 h0 -> start n t0 i0 -> forward n step (Z.mul 2 hh) i0 t0 cs i t ->
  exists x, crun (CInst i0 h0) [seq cb.1 | cb <- cs] = Ok (x, [seq lazy_answer cb | cb <- cs]) /\
    i_bel (c_inst x) = i_bel i /\
    (forall j, ccf_at j t i = None -> assoc j (i_ccf (c_inst x)) = None) /\
    (forall j m, ccf_at j t i = Some m -> exists x', corr_get_ccf j t x = Ok (x', m)) /\
    (forall j s m bL tl, ccf_at j s i = Some m -> assoc j (i_ccf (c_inst x)) = Some bL -> get_latest_t bL = Some tl -> Z.le tl s ->
       exists x', corr_get_ccf j s x = Ok (x', m)).
Proof.
move=> t0 i0 h0 cs i t H0 S0 FW; have [x [E X]] := forward_sim H0 S0 FW.
have late j s m bL tl : ccf_at j s i = Some m -> assoc j (i_ccf (c_inst x)) = Some bL -> get_latest_t bL = Some tl -> Z.le tl s ->
    exists x', corr_get_ccf j s x = Ok (x', m).
  move=> G A LT Ls; have [x' [m' [E' [_ HM]]]] := sim_read junk n0 X G.
  by exists x'; rewrite E' (HM _ _ A LT Ls).
exists x; split=> //; split; first exact: sr_bel X.
have PF j := pairs_find j (sr_ccf X).
split.
  move=> j; rewrite -find_assoc /ccf_at -find_assoc; have := PF j; case: ccf_find => [bL|] //; case: ccf_find => [bE|] // B G.
  by case: B => _ _ _ SE _ [q [tl [m0 [_ [_ [_ [NE _]]]]]]]; move: G; rewrite (latest_get_at SE NE).
split=> // j m G; have := PF j; rewrite !find_assoc.
case AL: (assoc j (i_ccf (c_inst x))) => [bL|]; last first.
  by move: G; rewrite /ccf_at; case: assoc.
case: (assoc j (i_ccf i)) => [bE|] // B.
case: B => _ _ _ _ _ [q [tl [m0 [_ [NL [[v I0] _]]]]]].
apply: (late _ _ _ _ _ G AL); first by rewrite /get_latest_t NL.
exact: (ho_le (sr_hist X) I0).
Qed.
End Main.
End C37.
Print Assumptions C36_correction.
Print Assumptions C36_compose.
Print Assumptions C37_lazy_eager.
