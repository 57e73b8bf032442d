(** Estimators built on IIsolatedKalmanFilter meet the handler's contract. *)
From Coq Require Import ZArith List Bool Arith Lia Sorted.
From Flocq Require Import IEEE754.BinarySingleNaN.
From mathcomp Require Import all_ssreflect all_algebra.
From Verif Require Import Outcome DoubleModel BufModel BufProofs HorizonModel HorizonProofs MeasModel HandlerModel Spec_Handler ReplayProofs WindowProofs Chi2Model DMat KFModel Spec_Mat KFProofs BeliefModel EigenModel EigenProofs IsoModel IsoProofs Spec_Joint JointProofs Props_Joint Props_Joint2 EstModel Spec_Est.
Set Implicit Arguments. Unset Strict Implicit. Unset Printing Implicit Defensive.
Import GRing.Theory Num.Theory.
Local Open Scope outcome_scope.
Local Open Scope ring_scope.

(** ** registries *)
Section Reg.
Context {B M : Type}.
Notation inst := (inst B M). Notation dict := (dict B M).
Lemma find_In id (d : dict) i : d_find id d = Some i -> List.In (id, i) d.
Proof. by elim: d => [//|[k x] d IH] /=; case: Nat.eqb_spec => [-> [->]|_ /IH]; [left|right]. Qed.
Lemma In_find id (d : dict) i : List.NoDup (List.map fst d) -> List.In (id, i) d -> d_find id d = Some i.
Proof.
elim: d => [//|[k x] d IH] /= /List.NoDup_cons_iff [NI ND] [[-> ->]|H]; first by rewrite Nat.eqb_refl.
case: Nat.eqb_spec => [E|_]; last exact: IH.
by case: NI; rewrite E; apply: (List.in_map fst _ _ H).
Qed.
Lemma find_key id (d : dict) : List.In id (List.map fst d) -> exists i, d_find id d = Some i.
Proof. elim: d => [//|[k x] d IH] /= []; first by move=> ->; rewrite Nat.eqb_refl; exists x. by move=> /IH [i E]; case: Nat.eqb; [exists x|exists i]. Qed.
Lemma key_find id (d : dict) i : d_find id d = Some i -> List.In id (List.map fst d).
Proof. by move=> /find_In /(List.in_map fst). Qed.
Lemma find_other id (d d' : dict) i : List.map fst d = List.map fst d' -> d_find id d = Some i -> exists i', d_find id d' = Some i'.
Proof. by move=> E /key_find; rewrite E => /find_key. Qed.
Lemma find_none id (d d' : dict) : List.map fst d = List.map fst d' -> d_find id d = None <-> d_find id d' = None.
Proof.
by move=> E; split=> H; [case G: (d_find id d') => [i|//]|case G: (d_find id d) => [i|//]]; [have [i' G'] := find_other (esym E) G|have [i' G'] := find_other E G]; rewrite G' in H.
Qed.
Lemma all2_find (R : inst -> inst -> Prop) (d d' : dict) : List.NoDup (List.map fst d) -> List.map fst d = List.map fst d' ->
  (forall id i i', d_find id d = Some i -> d_find id d' = Some i' -> R i i') -> Forall2 (fun a b => fst a = fst b /\ R (snd a) (snd b)) d d'.
Proof.
elim: d d' => [|[k x] d IH] [|[k' x'] d'] //= /List.NoDup_cons_iff [NI ND] [Ek Er] H; subst k'; constructor=> /=.
  by split=> //; apply: (H k); rewrite Nat.eqb_refl.
apply: IH => // id i i' G G'; apply: (H id).
  by case: Nat.eqb_spec => // E; case: NI; rewrite E; exact: key_find G.
by case: Nat.eqb_spec => // E; case: NI; rewrite E Er; exact: key_find G'.
Qed.
Lemma find_all2 (R : inst -> inst -> Prop) (d d' : dict) : Forall2 (fun a b => fst a = fst b /\ R (snd a) (snd b)) d d' ->
  List.map fst d = List.map fst d' /\ forall id i i', d_find id d = Some i -> d_find id d' = Some i' -> R i i'.
Proof.
elim=> [//|[k x] [k' x'] l l' [/= Ek Hx] _ [IH1 IH2]]; subst k'; split; first by rewrite /= IH1.
by move=> id i i' /=; case: Nat.eqb_spec => [_ [<-] [<-]|_ /IH2] //; exact.
Qed.
End Reg.

Section Est.
Variable F : realFieldType.
Variable junk : forall n, 'M[F]_n -> 'M[F]_n.
Notation dmat := (dmat F).
Notation belief := (belief F).
Notation inst := (inst belief dmat).
Notation dict := (dict belief dmat).
Variable P : Type.
Notation meas := (meas P).
Variable hor : double.
Variable is_psd : dmat -> bool.
Variable nearest : dmat -> dmat.
Variable eps0 : F.
Variable u : models F P.

(** ** dimensions *)
Variable n : nat -> nat.
Variable reg : list nat.
Notation shaped := (@shaped F). Notation bel_typed := (@bel_typed F n). Notation inst_typed := (@inst_typed F n). Notation typed := (@typed F n reg).
Notation okm := (@okm F P u n reg).
(** the outlier test of the configuration never leaves its table *)
Definition gate_ok : Prop := use_outlier_rejection (u_cfg u) = false \/ forall df, exists v, chi2inv (confidence_interval (u_cfg u)) df = Ok v.

Lemma shaped_DM r c (A : dmat) : shaped r c A -> exists X : 'M[F]_(r, c), A = DM X.
Proof. by case: A => m m' X [/= <- <-]; exists X. Qed.
Lemma typed_part d d' : typed d -> part_of d' d -> typed d'.
Proof.
move=> [K T] /find_all2 [K' H]; split; first by rewrite K'.
move=> id i' G'; have [i G] := find_other K' G'; have [_ [Hb Hf]] := H _ _ _ G' G; have [T1 T2] := T _ _ G.
by split=> [k b /Hb /T1|j k f /Hf /T2].
Qed.
Hypothesis gate : gate_ok.
Lemma corr_ok p q (H : 'M[F]_(p, q)) (R : 'M[F]_p) (r : 'cV[F]_p) (S : 'M[F]_q) : exists res,
  correction_step junk (DM H) (DM R) (DM r) (DM S) (u_cfg u) = Ok res /\ shaped q q (Sigma_apos res) /\ shaped q 1 (delta_mean res) /\ shaped q q (res_U res).
Proof.
rewrite correction_step_ok; have [rej ->] : exists rej, step_gate junk H R r S (u_cfg u) = Ok rej.
  rewrite /step_gate; case: gate => [->|G]; first by exists false.
  case: use_outlier_rejection; last by exists false.
  rewrite check_NIS_ok; case: Bltb; last by exists false.
  by have [v E] := G p; rewrite /threshold E /=; eexists.
by eexists; split; first reflexivity.
Qed.

(** ** window *)
Variables (wa wb hz tmax sl : Z).
Hypothesis Ck : clock tmax sl.
Hypothesis near : h_near hor hz.
Hypothesis hz0 : Z.le Z0 hz.
Hypothesis hz1 : Z.lt hz span_max.
Hypothesis wa0 : Z.le Z0 wa.
Hypothesis wb1 : Z.lt wb tmax.
Hypothesis win_hz : Z.le (wb - wa) (hz - sl).

Notation wf := (@Spec_Handler.wf belief dmat wa wb). Notation wf_inst := (@Spec_Handler.wf_inst belief dmat wa wb).
Lemma wf_find (d : dict) id i : wf d -> d_find id d = Some i -> wf_inst i.
Proof. by move=> [_ W] /find_In /W. Qed.
Lemma wf_intro d : List.NoDup (List.map fst d) -> (forall id i, d_find id d = Some i -> wf_inst i) -> wf d.
Proof. by move=> N H; split=> // -[id i] /(In_find N) /H. Qed.
Lemma upd_wf id i (d : dict) : wf d -> wf_inst i -> wf (d_upd id i d).
Proof.
move=> W Wi; apply: wf_intro; first by rewrite upd_keys; case: W.
move=> k j; rewrite find_upd; case: Nat.eqb; last exact: wf_find.
by case: d_find => [x [<-]|].
Qed.
Lemma same_bel i i' : wf_inst i -> wf_inst i' -> same_inst i i' -> i_bel i = i_bel i'.
Proof. by move=> [Ob _] [Ob' _] [_ [Hb _]]; exact: okb_eq Ob Ob' Hb. Qed.
Lemma trim_id i : wf_inst i -> iso_check_horizon hor i = Ok i.
Proof.
case: i => en l c [Ob [Oc _]]; rewrite /iso_check_horizon /= (trim_noop tmax sl hor hz wa wb _ Ck near (conj hz0 hz1) wa0 wb1 win_hz Ob) /=.
have -> : ccf_trim hor c = Ok c; last by [].
elim: c {Ob} Oc => [//|[k b] c IH] /= Oc.
rewrite (trim_noop tmax sl hor hz wa wb _ Ck near (conj hz0 hz1) wa0 wb1 win_hz (Oc k b (or_introl erefl))) /= IH // => j b' Hi.
by apply: (Oc j); right.
Qed.

(** ** scaling the factors *)
Lemma scale_wf ta tb (M : dmat) c c' : Z.le wa tb -> Z.le tb wb -> ccf_scale ta tb M c = Ok c' ->
  (forall j b, List.In (j, b) c -> okb wa wb b) -> (forall j b, List.In (j, b) c' -> okb wa wb b).
Proof.
move=> H1 H2; elim: c c' => [|[k b] c IH] c' /=; first by case=> <-.
case G: (get_at_t ta b) => [m|] /=.
  case: dmul => //= p; case E: ccf_scale => [c1|e|e] //= [<-] H j b' [[_ <-]|Hi].
    by apply: okb_ins => //; apply: (H k); left.
  by apply: (IH _ E _ j) => // j0 b0 H0; apply: (H j0); right.
case E: ccf_scale => [c1|e|e] //= [<-] H j b' [[_ <-]|Hi]; first by apply: (H k); left.
by apply: (IH _ E _ j) => // j0 b0 H0; apply: (H j0); right.
Qed.
Lemma scale_keys ta tb (M : dmat) c c' : ccf_scale ta tb M c = Ok c' -> List.map fst c' = List.map fst c.
Proof.
elim: c c' => [|[k b] c IH] c' /=; first by case=> <-.
case: get_at_t => [m|] /=; [case: dmul => //= p|]; case E: ccf_scale => [c1|e|e] //= [<-] /=; by rewrite (IH _ E).
Qed.
Lemma scale_same ta tb (M : dmat) c c' c2 c2' : (forall j k, fac j k c = fac j k c2) -> ccf_scale ta tb M c = Ok c' -> ccf_scale ta tb M c2 = Ok c2' ->
  forall j k, fac j k c' = fac j k c2'.
Proof.
move=> H E E2 j k; have [A1 [A2 A3]] := fac_scale E j k; have [B1 [B2 B3]] := fac_scale E2 j k.
case: (Z.eq_dec k tb) => [Ek|Nk]; last by rewrite A1 // B1.
case G: (fac j ta c) => [m|]; last by rewrite A2 // B2 // -H.
by rewrite Ek; have [p [Ep ->]] := A3 _ G; rewrite H in G; have [p' [Ep' ->]] := B3 _ G; rewrite Ep in Ep'; rewrite (Ok_inj Ep').
Qed.
Lemma scale_typed id ta tb (M : dmat) c c' : shaped (n id) (n id) M -> ccf_scale ta tb M c = Ok c' ->
  (forall j k f, fac j k c = Some f -> shaped (n id) (n (maxn id j)) f) -> forall j k f, fac j k c' = Some f -> shaped (n id) (n (maxn id j)) f.
Proof.
move=> HM E H j k f; have [A1 [A2 A3]] := fac_scale E j k.
case: (Z.eq_dec k tb) => [Ek|Nk]; last by rewrite A1 //; exact: H.
case G: (fac j ta c) => [m|]; last by rewrite A2 //; exact: H.
have [p [Ep Fp]] := A3 _ G; rewrite Ek Fp => -[<-].
have [X EX] := shaped_DM HM; have [Y EY] := shaped_DM (H _ _ _ G); move: Ep; rewrite EX EY dmul_ok => Ep; by rewrite -(Ok_inj Ep).
Qed.

(** ** results of a call: what is written, and that it is a function of the content *)
Definition outcome_ok (t : Z) (d d' : dict) : Prop := wf d' /\ typed d' /\ writes_only_at t d d'.
Lemma upd_ok t id i i' (d : dict) : wf d -> typed d -> d_find id d = Some i -> wf_inst i' -> inst_typed id i' -> only_at t i i' ->
  outcome_ok t d (d_upd id i' d).
Proof.
move=> W [K T] G Wi Ti O; split; first exact: upd_wf.
split; first split; first by rewrite upd_keys.
  by move=> k j; rewrite find_upd; case: Nat.eqb_spec => [->|_]; [rewrite G => -[<-]|exact: T].
apply: all2_find; first by case: W.
  by rewrite upd_keys.
move=> k j j' Gj; rewrite find_upd; case: Nat.eqb_spec => [E|_]; last by rewrite Gj => -[<-].
by rewrite E in Gj; rewrite G in Gj *; case: Gj => <- [<-].
Qed.
Lemma upd_same2 id i i' (d d' : dict) : wf d -> same d d' -> same_inst i i' -> same (d_upd id i d) (d_upd id i' d').
Proof.
move=> [N _] /find_all2 [K H] S; apply: all2_find; rewrite ?upd_keys //.
move=> k j j'; rewrite !find_upd; case: Nat.eqb_spec => [_|_]; last exact: H.
by case: d_find => [x [<-]|//]; case: d_find => [y [<-]|//].
Qed.
Lemma refl_ok t (d : dict) : wf d -> typed d -> outcome_ok t d d.
Proof. by move=> W T; split=> //; split=> //; exact: only_refl. Qed.

(** ** propagation *)
Lemma propagate_ok id ba mb Phi Q ta tb i : wf_inst i -> inst_typed id i -> Z.le wa tb -> Z.le tb wb -> bel_typed id ta ba ->
  shaped (n id) 1 mb -> shaped (n id) (n id) Phi -> shaped (n id) (n id) Q ->
  exists c' b', ccf_scale ta tb Phi (i_ccf i) = Ok c' /\ iso_propagate_bel hor ba mb Phi Q ta tb i = Ok (Inst (i_enabled i) (hb_insert tb b' (i_bel i)) c', true) /\
    bel_typed id tb b' /\ forall i2, iso_propagate_bel hor ba mb Phi Q ta tb i2 =
      let! c := ccf_scale ta tb Phi (i_ccf i2) in let! x := iso_check_horizon hor (Inst (i_enabled i2) (hb_insert tb b' (i_bel i2)) c) in Ok (x, true).
Proof.
move=> Wi [Tb Tf] L1 L2 [Hm [HS [Hx Ht]]] Hmb HP HQ.
have [X EX] := shaped_DM HP; have [S ES] := shaped_DM HS; have [Qx EQ] := shaped_DM HQ; have [Y EY] := shaped_DM Hmb.
set b' := bel_set_t tb (bel_set_Sigma (DM (X *m S *m X^T + Qx)) (bel_set_mean (DM Y) ba)).
have K l : kf_propagate_bel ba mb Phi Q tb l = Ok (hb_insert tb b' l, true).
  rewrite /kf_propagate_bel EX ES EQ EY /check_dim_phi_q /check_dim_phi /= !eqxx /= cov_prop_ok /=.
  by rewrite /check_dim_mean /bel_set /check_dim_mean /= !eqxx.
have [||c' [E Ek]] := @scale_ok F ta tb Phi (i_ccf i).
- by case: Wi => [_ []].
- by move=> j m; rewrite fac_ccf_at => /Tf [-> _]; case: HP.
have W' : wf_inst (Inst (i_enabled i) (hb_insert tb b' (i_bel i)) c').
  case: Wi => [Ob [Oc Nc]]; split; first exact: okb_ins.
  by split; [exact: scale_wf E Oc|rewrite /= Ek].
have G i2 : iso_propagate_bel hor ba mb Phi Q ta tb i2 = let! c := ccf_scale ta tb Phi (i_ccf i2) in let! x := iso_check_horizon hor (Inst (i_enabled i2) (hb_insert tb b' (i_bel i2)) c) in Ok (x, true).
  by rewrite /iso_propagate_bel K /= /iso_factors /with_bel /with_ccf /=; case: ccf_scale.
exists c', b'; split=> //; split; first by rewrite G E /= trim_id.
by split; first by [].
Qed.

Lemma est_propagate_ok m d : wf d -> typed d -> Z.le wa (m_t m) -> Z.le (m_t m) wb -> okm m -> m_ty m = PROPAGATION ->
  exists d' s, est_propagate hor u m d = Ok (d', s) /\ outcome_ok (m_t m) d d' /\ s <> DISCARED /\
    forall d2, wf d2 -> typed d2 -> same d d2 -> exists d2', est_propagate hor u m d2 = Ok (d2', s) /\ same d' d2'.
Proof.
move=> W T L1 L2 [Hr +] Ty; rewrite Ty => Hm.
have [i G] : exists i, d_find (m_id m) d = Some i by apply: find_key; case: T => ->.
have Wi := wf_find W G; have Ti := (proj2 T) _ _ G.
have S2 d2 : wf d2 -> typed d2 -> same d d2 -> exists i2, [/\ d_find (m_id m) d2 = Some i2, same_inst i i2, i_bel i2 = i_bel i & wf_inst i2].
  move=> W2 T2 /[dup] S /find_all2 [K H]; have [i2 G2] := find_other K G; exists i2; have Wi2 := wf_find W2 G2.
  by split=> //; [exact: H G G2|rewrite (same_bel Wi Wi2 (H _ _ _ G G2))].
rewrite /est_propagate /at_inst G.
case Gb: (get_before_t (m_t m) (i_bel i)) => [[ta ba]|]; last first.
  exists d, REJECTED; split=> //; split; first exact: refl_ok.
  split=> // d2 W2 T2 S; have [i2 [G2 _ Eb _]] := S2 _ W2 T2 S; exists d2; by rewrite G2 Eb Gb.
have Tba : bel_typed (m_id m) ta ba.
  apply: (proj1 Ti); apply/(get_at_iff _ _ _ (proj1 (proj1 Wi))).
  by have [A _] := get_before_spec _ _ _ _ (ssorted_w _ (proj1 (proj1 Wi))) Gb; exact: A.
move: (Hm ta (b_mean ba) (proj1 Tba)); case Eu: (u_prop _ _ _ _ _ _) => [[mb Phi] Q] [Hmb [HP HQ]].
have [c' [b' [Ec [-> [Tb' Fi2]]]]] := propagate_ok Wi Ti L1 L2 Tba Hmb HP HQ.
exists (d_upd (m_id m) (Inst (i_enabled i) (hb_insert (m_t m) b' (i_bel i)) c') d), PROCESSED; split=> //=.
have Wn : wf_inst (Inst (i_enabled i) (hb_insert (m_t m) b' (i_bel i)) c').
  case: Wi => [Ob [Oc Nc]]; split; first exact: okb_ins.
  by split; [exact: scale_wf Ec Oc|rewrite /= (scale_keys Ec)].
split.
  apply: (upd_ok W T G Wn).
    split=> [k b|j k f]; first by rewrite /bel_at /= get_ins; case: Z.eqb_spec => [-> [<-]|_] //; exact: (proj1 Ti).
    rewrite -fac_ccf_at /=; apply: (scale_typed HP Ec) => j' k' f'; rewrite fac_ccf_at; exact: (proj2 Ti).
  split=> //; split=> [k Nk|j k Nk]; first by rewrite /bel_at /= get_ins; case: Z.eqb_spec.
  by rewrite -!fac_ccf_at /=; have [-> //] := fac_scale Ec j k.
split=> // d2 W2 T2 S; have [i2 [G2 Si Eb Wi2]] := S2 _ W2 T2 S.
have Ti2 := (proj2 T2) _ _ G2.
have [c2 [b2 [Ec2 [_ [_ F2]]]]] := propagate_ok Wi2 Ti2 L1 L2 Tba Hmb HP HQ.
have Wn2 : wf_inst (Inst (i_enabled i2) (hb_insert (m_t m) b' (i_bel i2)) c2).
  case: Wi2 => [Ob [Oc Nc]]; split; first exact: okb_ins.
  by split; [exact: scale_wf Ec2 Oc|rewrite /= (scale_keys Ec2)].
eexists; rewrite G2 Eb Gb Eu Fi2 Ec2 /= trim_id //=; split; first reflexivity.
apply: upd_same2 => //; case: Si => [-> [Hb Hf]]; split=> //; split=> [k|j k]; first by rewrite /bel_at /= Eb.
rewrite -!fac_ccf_at /=; apply: (scale_same _ Ec Ec2) => j' k'; rewrite !fac_ccf_at; exact: Hf.
Qed.

(** ** private measurements *)
Definition counterpart (i : inst) (id : nat) (d2 : dict) (i2 : inst) : Prop :=
  [/\ d_find id d2 = Some i2, same_inst i i2, i_bel i2 = i_bel i, wf_inst i2 & inst_typed id i2].
Lemma counterparts d id i d2 : wf d -> d_find id d = Some i -> wf d2 -> typed d2 -> same d d2 -> exists i2, counterpart i id d2 i2.
Proof.
move=> W G W2 T2 /find_all2 [K H]; have [i2 G2] := find_other K G; exists i2; have Wi := wf_find W G; have Wi2 := wf_find W2 G2.
by split=> //; [exact: H G G2|rewrite (same_bel Wi Wi2 (H _ _ _ G G2))|exact: (proj2 T2)].
Qed.
Lemma private_ok id t ba H R z p i : wf_inst i -> inst_typed id i -> get_at_t t (i_bel i) = Some ba ->
  shaped p (n id) H -> shaped p p R -> shaped p 1 z ->
  exists res, [/\ shaped (n id) (n id) (res_U res),
    (exists b', bel_correct (delta_mean res) (Sigma_apos res) ba = Ok b' /\ bel_typed id t b') &
    forall i2, i_bel i2 = i_bel i -> iso_private junk H R z t (u_cfg u) i2 =
    if ~~ rejected res then
      let! c := ccf_scale t t (res_U res) (i_ccf i2) in
      let! b' := bel_correct (delta_mean res) (Sigma_apos res) ba in
      Ok (Inst (i_enabled i2) (hb_insert t b' (i_bel i2)) c, true)
    else Ok (i2, false)].
Proof.
move=> Wi [Tb Tf] G HH HR Hz.
have [Hm [HS [Hx Ht]]] := Tb _ _ G.
have [X EX] := shaped_DM HH; have [Rx ER] := shaped_DM HR; have [zx Ez] := shaped_DM Hz; have [S ES] := shaped_DM HS; have [mx Em] := shaped_DM Hm.
have [res [Er [HP [Hd HU]]]] := corr_ok X Rx (zx - X *m mx) S.
exists res; split=> //.
  have [dx Ed] := shaped_DM Hd; exists (bel_set_Sigma (Sigma_apos res) (bel_set_mean (DM (mx + dx)) ba)).
  by rewrite /bel_correct /bel_correct_mean Em Ed dadd_ok.
move=> i2 Eb; rewrite /iso_private Eb G EX Em dmul_ok /= Ez dsub_ok /= /iso_private_bel ES ER Er /= Ht.
by rewrite /with_bel /with_ccf /= -Eb.
Qed.
Lemma est_private_ok m d : wf d -> typed d -> Z.le wa (m_t m) -> Z.le (m_t m) wb -> okm m -> m_ty m = PRIVATE ->
  exists d' s, est_private junk u m d = Ok (d', s) /\ outcome_ok (m_t m) d d' /\ s <> DISCARED /\
    forall d2, wf d2 -> typed d2 -> same d d2 -> exists d2', est_private junk u m d2 = Ok (d2', s) /\ same d' d2'.
Proof.
move=> W T L1 L2 [Hr +] Ty; rewrite Ty; case Eu: u_priv => [[H R] z] [p [HH [HR Hz]]].
have [i G] : exists i, d_find (m_id m) d = Some i by apply: find_key; case: T => ->.
have Wi := wf_find W G; have Ti := (proj2 T) _ _ G.
rewrite /est_private /at_inst G Eu.
case Gb: (get_at_t (m_t m) (i_bel i)) => [ba|]; last first.
  exists d, REJECTED; rewrite /iso_private Gb /= upd_same //; split=> //; split; first exact: refl_ok.
  split=> // d2 W2 T2 S; have [i2 [G2 _ Eb _ _]] := counterparts W G W2 T2 S; exists d2; by rewrite G2 Eb Gb /= upd_same.
have [res [HU [b' [Eb' Tb']] Hi]] := private_ok Wi Ti Gb HH HR Hz.
rewrite Hi // Eb'.
case Rj: (~~ rejected res); last first.
  exists d, REJECTED; rewrite /= upd_same //; split=> //; split; first exact: refl_ok.
  split=> // d2 W2 T2 S; have [i2 [G2 _ Eb _ _]] := counterparts W G W2 T2 S; exists d2; by rewrite G2 Hi //= Rj /= upd_same.
have Sc j : wf_inst j -> inst_typed (m_id m) j -> exists c, ccf_scale (m_t m) (m_t m) (res_U res) (i_ccf j) = Ok c.
  move=> Wj Tj; have [||c [E _]] := @scale_ok F (m_t m) (m_t m) (res_U res) (i_ccf j); last by exists c.
  - by case: Wj => [_ []].
  - by move=> j' f; rewrite fac_ccf_at => /(proj2 Tj) [-> _]; case: HU.
have [c Ec] := Sc _ Wi Ti; rewrite Ec /=.
eexists; exists PROCESSED; split; first reflexivity.
split.
  apply: (upd_ok W T G).
  - case: Wi => [Ob [Oc Nc]]; split; first exact: okb_ins.
    by split; [exact: scale_wf Ec Oc|rewrite /= (scale_keys Ec)].
  - split=> [k b|j k f]; first by rewrite /bel_at /= get_ins; case: Z.eqb_spec => [-> [<-]|_] //; exact: (proj1 Ti).
    rewrite -fac_ccf_at /=; apply: (scale_typed HU Ec) => j' k' f'; rewrite fac_ccf_at; exact: (proj2 Ti).
  - split=> //; split=> [k Nk|j k Nk]; first by rewrite /bel_at /= get_ins; case: Z.eqb_spec.
    by rewrite -!fac_ccf_at /=; have [-> //] := fac_scale Ec j k.
split=> // d2 W2 T2 S; have [i2 [G2 Si Eb Wi2 Ti2]] := counterparts W G W2 T2 S.
have [c2 Ec2] := Sc _ Wi2 Ti2.
eexists; rewrite G2 Hi // Rj Ec2 /= Eb' /=; split; first reflexivity.
apply: upd_same2 => //; case: Si => [-> [Hb Hf]]; split=> //; split=> [k|j k]; first by rewrite /bel_at /= Eb.
rewrite -!fac_ccf_at /=; apply: (scale_same _ Ec Ec2) => j' k'; rewrite !fac_ccf_at; exact: Hf.
Qed.

(** ** joint measurements *)
Lemma ofold_inv {S A} (f : S -> A -> outcome S) (I : S -> Prop) l : (forall s a s', I s -> f s a = Ok s' -> I s') ->
  forall s s', I s -> ofold f s l = Ok s' -> I s'.
Proof.
move=> H; elim: l => [|a l IH] s s' Hs /=; first by case=> <-.
by case E: (f s a) => [s1|e|e] //= E2; apply: (IH s1) => //; exact: H E.
Qed.
Lemma mod_inst_wf id f (d d' : dict) : (forall i i', wf_inst i -> f i = Ok i' -> wf_inst i') -> wf d -> mod_inst id f d = Ok d' -> wf d'.
Proof.
move=> H W /mod_inst_ok [i [i' [G [E ->]]]]; apply: upd_wf => //; apply: H E; exact: wf_find G.
Qed.
Lemma set_keys j t (m : dmat) c : forall x, List.In x (List.map fst (ccf_set j t m c)) -> x = j \/ List.In x (List.map fst c).
Proof.
elim: c => [|[k b] c IH] x /=; first by case=> // ->; left.
case: Nat.eqb_spec => [E|_] /=; first by right.
by case=> [->|/IH [->|Hx]]; [right; left|left|right; right].
Qed.
Lemma set_wf j t (m : dmat) i : Z.le wa t -> Z.le t wb -> wf_inst i -> wf_inst (with_ccf (ccf_set j t m (i_ccf i)) i).
Proof.
move=> L1 L2 [Ob [Oc Nc]]; split=> //; split=> /=.
  elim: (i_ccf i) Oc {Nc} => [|[k b] c IH] Oc x y /=.
    case=> // -[_ <-]; apply: (@okb_ins _ wa wb t m nil) => //; split; [constructor|by []].
  case: Nat.eqb_spec => [E|_] /= [[_ <-]|Hin].
  - by apply: okb_ins => //; apply: (Oc k); left.
  - by apply: (Oc x); right.
  - by apply: (Oc k); left.
  - by apply: (IH _ x) => // x' y' H; apply: (Oc x'); right.
elim: (i_ccf i) Nc {Oc} => [|[k b] c IH] /=; first by move=> _; constructor=> //; constructor.
move=> /List.NoDup_cons_iff [NI ND]; case: Nat.eqb_spec => [E|Ne] /=; constructor=> //; last exact: IH.
by move=> /set_keys [|].
Qed.
Lemma set_Sigma_wf I J (X : dmat) t (d d' : dict) : Z.le wa t -> Z.le t wb -> wf d -> set_Sigma_IJ I J X t d = Ok d' -> wf d'.
Proof.
move=> L1 L2 W; have H k m i i' : wf_inst i -> Ok (with_ccf (ccf_set k t m (i_ccf i)) i) = Ok i' -> wf_inst i' by move=> Wi [<-]; exact: set_wf.
rewrite /set_Sigma_IJ; case: Nat.ltb; case E: mod_inst => [d1|e|e] //= E2; apply: (mod_inst_wf _ _ E2); try (by apply: (mod_inst_wf _ W E) => i i'; exact: H);
by move=> i i'; exact: H.
Qed.
Lemma write_wf Sp dx bs t (d d' : dict) : Z.le wa t -> Z.le t wb -> wf d -> write_joint junk Sp dx bs t d = Ok d' -> wf d'.
Proof.
move=> L1 L2 W; rewrite /write_joint.
case E1: apply_corrections => [d1|e|e] //=; case E2: split_right_upper => [d2|e|e] //= E3.
have W1 : wf d1.
  move: E1; rewrite /apply_corrections; case E: ofold => [[dd k]|e|e] //= [Ed]; subst dd.
  apply: (ofold_inv (I := fun s => wf (fst s)) _ _ E) => // -[da na] [id b] [db nb] /= Wa; case: ifP => [_|_ [<- _]] //.
  case: dblock => //= Sii; case Em: mod_inst => [dc|e|e] //= [Edb _]; subst dc.
  apply: (mod_inst_wf _ Wa Em) => i i' Wi; case Ec: ccf_correct => [c|e|e] //= [<-].
  move: Ec; rewrite /ccf_correct; case: dinv => //= iv; case: dmul => //= L Ec.
  case: Wi => [Ob [Oc Nc]]; split=> //; split=> /=; first exact: scale_wf Ec Oc.
  by rewrite (scale_keys Ec).
have W2 : wf d2.
  move: E2; rewrite /split_right_upper; move: (List.filter _ _) 0%N => us row; move: row d1 W1 {E1}; elim: us => [//|[I b] us IH] row da Wa.
  rewrite /=; case: us IH => [_ [<-]|e us] // IH.
  case Er: split_row => [db|x|x] //=; apply: IH.
  move: (e :: us) (row + bel_dim b)%N da Wa Er => rest; elim: rest => [|[J bj] rest IH] col da Wa /=; first by case=> <-.
  case: dblock => //= Sij; case Es: set_Sigma_IJ => [dc|x|x] //=; apply: IH; exact: (set_Sigma_wf L1 L2 Wa Es).
move: E3; rewrite /correct_beliefs; case E: ofold => [[dd k]|e|e] //= [Ed]; subst dd.
apply: (ofold_inv (I := fun s => wf (fst s)) _ _ E) => // -[da na] [id b] [db nb] /= Wa; case: ifP => [_|_ [<- _]] //.
case: dblock => //= Sii; case: dblock => //= v; case: bel_correct => //= b'; case Em: mod_inst => [dc|e|e] //= [Edb _]; subst dc.
apply: (mod_inst_wf _ Wa Em) => i i' [Ob Oc] [<-]; split=> //; exact: okb_ins.
Qed.

(** the content of a registry, pointwise *)
Lemma same_of (d d2 : dict) : same d d2 -> [/\ List.map fst d = List.map fst d2, (forall id, d_find id d = None <-> d_find id d2 = None),
  (forall id s, bel_of d id s = bel_of d2 id s) & (forall id j s, fac_of d id j s = fac_of d2 id j s)].
Proof.
move=> /find_all2 [K H]; have N id := find_none id K; split=> // [id s|id j s]; rewrite /bel_of /fac_of;
case G: (d_find id d) => [i|]; case G2: (d_find id d2) => [i2|] //; try (by move: (proj1 (N id) G); rewrite G2); try (by move: (proj2 (N id) G2); rewrite G);
by have [_ [Hb Hf]] := H _ _ _ G G2.
Qed.
Lemma of_same (d d2 : dict) : List.NoDup (List.map fst d) -> List.map fst d = List.map fst d2 ->
  (forall id i i2, d_find id d = Some i -> d_find id d2 = Some i2 -> i_enabled i = i_enabled i2) ->
  (forall id s, bel_of d id s = bel_of d2 id s) -> (forall id j s, fac_of d id j s = fac_of d2 id j s) -> same d d2.
Proof.
move=> N K E B Fc; apply: all2_find => // id i i2 G G2; split; first exact: E G G2.
by split=> [k|j k]; [have := B id k|have := Fc id j k]; rewrite /bel_of /fac_of G G2.
Qed.
Lemma of_only t (d d2 : dict) : List.NoDup (List.map fst d) -> List.map fst d = List.map fst d2 ->
  (forall id i i2, d_find id d = Some i -> d_find id d2 = Some i2 -> i_enabled i = i_enabled i2) ->
  (forall id s, s <> t -> bel_of d id s = bel_of d2 id s) -> (forall id j s, s <> t -> fac_of d id j s = fac_of d2 id j s) -> writes_only_at t d d2.
Proof.
move=> N K E B Fc; apply: all2_find => // id i i2 G G2; split; first exact: E G G2.
by split=> [k Hk|j k Hk]; [have := B id k Hk|have := Fc id j k Hk]; rewrite /bel_of /fac_of G G2.
Qed.
Lemma typed_bel (d : dict) id s b : typed d -> bel_of d id s = Some b -> bel_typed id s b.
Proof. by move=> [_ T]; rewrite /bel_of; case G: d_find => [i|//]; exact: (proj1 (T _ _ G)). Qed.
Lemma typed_fac (d : dict) id j s f : typed d -> fac_of d id j s = Some f -> shaped (n id) (n (maxn id j)) f.
Proof. by move=> [_ T]; rewrite /fac_of; case G: d_find => [i|//]; exact: (proj2 (T _ _ G)). Qed.
Lemma of_typed (d : dict) : List.map fst d = reg -> (forall id s b, bel_of d id s = Some b -> bel_typed id s b) ->
  (forall id j s f, fac_of d id j s = Some f -> shaped (n id) (n (maxn id j)) f) -> typed d.
Proof.
by move=> K B Fc; split=> // id i G; split=> [k b Eb|j k f Ef]; [apply: B|apply: (Fc id j k)]; rewrite /bel_of /fac_of G.
Qed.

(** collecting the beliefs *)
Notation nopredict := (fun (_ : nat) (_ : Z) (i : inst) => Ok (i, false)).
Lemma collect_missing t (d : dict) id0 : bel_of d id0 t = None -> forall ids acc, (forall id, List.In id ids -> d_find id d <> None) -> List.In id0 ids ->
  get_dict_bel_loop nopredict ids t d acc = Ok (d, nil).
Proof.
move=> B0; elim=> [//|id ids IH] acc R Hin /=; rewrite /at_inst.
case G: (d_find id d) => [i|]; last by case: (R id (or_introl erefl)).
rewrite /belief_or_predict; case X: (exist_at_t t (i_bel i)) => /=; last by rewrite upd_same.
case Gb: (get_at_t t (i_bel i)) => [b|]; last by rewrite upd_same.
rewrite upd_same //; apply: IH => [x Hx|]; first by apply: R; right.
case: Hin => [E|//]; subst id0; by move: B0; rewrite /bel_of G /bel_at Gb.
Qed.
Lemma all_or_missing t (d : dict) ids : (exists bs, List.map fst bs = ids /\ forall id b, List.In (id, b) bs -> bel_of d id t = Some b) \/
  exists id, List.In id ids /\ bel_of d id t = None.
Proof.
elim: ids => [|id ids [[bs [E H]]|[x [Hx Bx]]]]; first by left; exists nil.
- case B: (bel_of d id t) => [b|]; last by right; exists id; split=> //; left.
  by left; exists ((id, b) :: bs); rewrite /= E; split=> // y c [[<- <-]|/H].
- by right; exists x; split=> //; right.
Qed.
Lemma asc_map (bs : list (nat * belief)) : ascending_ids (List.map fst bs) -> ascending bs.
Proof.
move=> A k l i j bi bj Ek El L.
have Sz : (l < seq.size (List.map fst bs))%N.
  have : List.nth_error bs l <> None by rewrite El.
  by move=> /List.nth_error_Some/ltP; rewrite -(List.map_length fst).
have N q x b : List.nth_error bs q = Some (x, b) -> nth 0%N (List.map fst bs) q = x by elim: (bs) q => [|[y c] r IH] [|q] //=; [case|exact: IH].
have := sorted_ltn_nth ltn_trans 0%N A; move=> /(_ k l); rewrite !inE => /(_ (ltn_trans L Sz) Sz L).
by rewrite (N _ _ _ Ek) (N _ _ _ El).
Qed.

Hypothesis nearest_dims : forall k (A : 'M[F]_k), exists B : 'M[F]_k, nearest (DM A) = DM B.
Lemma same_Sigma (d d2 : dict) I J t : same d d2 -> get_Sigma_IJ I J t d = get_Sigma_IJ I J t d2.
Proof. by move=> /same_of [_ N _ Fc]; apply: get_Sigma_ext. Qed.
Lemma stack_same bs t (d d2 : dict) : same d d2 -> stack_Sigma bs t d = stack_Sigma bs t d2.
Proof.
move=> S; rewrite /stack_Sigma; congr (obind _ _); apply: ofold_ext => s e; case: ifP => // _; congr (obind _ _); apply: ofold_ext => s' e'.
by rewrite (same_Sigma _ _ _ S).
Qed.
Lemma same_refl (d : dict) : List.NoDup (List.map fst d) -> same d d.
Proof. by move=> N; apply: of_same => // id i i2 -> [->]. Qed.
(** participants of a well-typed registry *)
Definition group (bs : list (nat * belief)) t (d : dict) : Prop :=
  [/\ bs <> nil, ascending bs & forall id b, List.In (id, b) bs -> List.In id reg /\ bel_of d id t = Some b].
Lemma group_same bs t (d d2 : dict) : same d d2 -> group bs t d -> group bs t d2.
Proof. by move=> /same_of [_ _ B _] [H1 H2 H3]; split=> // id b /H3; rewrite B. Qed.
Lemma group_free bs t d : typed d -> group bs t d -> unfixed bs = bs.
Proof.
move=> T [_ _]; rewrite /unfixed; elim: bs => [//|[id b] bs IH] H /=.
have [_ B] := H id b (or_introl erefl); have [_ [_ [-> _]]] := typed_bel T B; rewrite /= IH // => x y Hin; apply: H; by right.
Qed.
Lemma group_dim bs t d k id b : typed d -> group bs t d -> List.nth_error bs k = Some (id, b) ->
  dim_k (dims bs) k = n id /\ idk bs k = id /\ bel_typed id t b /\ List.In id reg.
Proof.
move=> T [_ _ H] E; have [Hr B] := H _ _ (List.nth_error_In _ _ E); have TB := typed_bel T B.
have [R [D [Ik _]]] := dim_rows E; split; last by split.
by rewrite -R; case: TB => [_ [[-> _] _]].
Qed.
Lemma group_part bs t d : wf d -> typed d -> group bs t d -> part_ok bs t d.
Proof.
move=> W T G k id b E; have [D [_ [TB Hr]]] := group_dim T G E; case: TB => [[Rm Cm] [[Rs Cs] _]].
rewrite D; split=> //; split=> //; split=> //.
have [i Gi] : exists i, d_find id d = Some i by apply: find_key; case: T => ->.
exists i; split=> //; split; first by case: (wf_find W Gi) => [_ []].
by move=> j m Ej; have [] := proj2 (proj2 T _ _ Gi) _ _ _ Ej.
Qed.
Lemma group_cross bs t d k l : typed d -> group bs t d -> (k < l)%N -> (l < seq.size bs)%N ->
  exists X, get_Sigma_IJ (idk bs k) (idk bs l) t d = Ok X /\ (dsize X = 0%N \/ drows X = dim_k (dims bs) k /\ dcols X = dim_k (dims bs) l).
Proof.
move=> T G L Ll; have [bl El] := nth_idk Ll; have [bk Ek] := nth_idk (ltn_trans L Ll).
have [Dk [_ [_ Rk]]] := group_dim T G Ek; have [Dl [_ [_ Rl]]] := group_dim T G El.
have Lid : (idk bs k < idk bs l)%N by case: G => _ A _; exact: A Ek El L.
move: (idk bs k) (idk bs l) Lid Dk Dl Rk Rl => I J Lid -> -> RI RJ.
have [i Gi] : exists i, d_find I d = Some i by apply: find_key; case: T => ->.
have [j Gj] : exists i, d_find J d = Some i by apply: find_key; case: T => ->.
rewrite (get_SigmaE _ Gi Gj).
have -> : (I <? J)%nat = true by apply/Nat.ltb_lt; apply/ltP.
cbv zeta; rewrite /odflt /oapp.
case Fi: (fac_of d I J t) => [fi|]; last by exists (dempty F); split=> //; left.
case Fj: (fac_of d J I t) => [fj|]; last by rewrite andbF; exists (dempty F); split=> //; left.
case: ifP => _; last by exists (dempty F); split=> //; left.
have Si := typed_fac T Fi; have Sj := typed_fac T Fj; rewrite (maxnC J I) in Sj.
have [X EX] := shaped_DM Si; have [Y EY] := shaped_DM Sj; rewrite EX EY /dtr /= dmul_ok.
by eexists; split; first reflexivity; right.
Qed.
(** what a joint observation writes is decided by the content *)
Lemma joint_run dH z R t d bs p : wf d -> typed d -> group bs t d -> List.map fst bs = List.map fst dH ->
  (forall id X, List.In (id, X) dH -> shaped p (n id) X) -> shaped p p R -> shaped p 1 z ->
  (forall d2, wf d2 -> typed d2 -> same d d2 -> apply_observation_z junk is_psd nearest nopredict eps0 dH z R t (u_cfg u) d2 = Ok (d2, false)) \/
  exists Sp dx, [/\ sq (dims bs) Sp, drows dx = sumn (dims bs), dcols dx = 1%N &
   forall d2, wf d2 -> typed d2 -> same d d2 -> apply_observation_z junk is_psd nearest nopredict eps0 dH z R t (u_cfg u) d2 =
     let! d' := write_joint junk Sp dx bs t d2 in Ok (d', true)].
Proof.
move=> W T G Em HH HR Hz; have Ufx := group_free T G; have asc := asc_idk (let: And3 _ A _ := G in A).
have [rx Er] := shaped_DM HR; have [zx Ez] := shaped_DM Hz.
have Nn : dH <> nil by move=> E; case: G => Nb _ _; apply: Nb; rewrite E in Em; case: (bs) Em.
have [Hs [EH _]] := stack_H_spec (fun id X Hin => proj1 (HH id X Hin)) Nn.
have Ecols : cols_of dH = dims bs.
  have HB id b : List.In (id, b) bs -> bel_dim b = n id.
    by move=> Hin; have [k Ek] := List.In_nth_error _ _ Hin; have [D _] := group_dim T G Ek; have [_ [-> _]] := dim_rows Ek.
  rewrite /cols_of /dims; move: HH Em HB; clear; elim: dH bs => [|[i X] l IH] [|[j b] l'] //= HH [Ei El] HB; rewrite -Ei in HH.
  rewrite (HB j b (or_introl erefl)); have [_ ->] := HH j X (or_introl erefl); congr cons; apply: IH => // x y Hin; [apply: HH|apply: HB]; by right.
rewrite Ecols in Hs EH.
have [|mu [Emu _]] := stack_mean_spec (us := bs) _ Ufx.
  move=> id b Hin; have [k Ek] := List.In_nth_error _ _ Hin; have [D [_ [[[Rm Cm] _] _]]] := group_dim T G Ek.
  by have [_ [-> _]] := dim_rows Ek; rewrite D.
have [Ax [EA _]] : exists A : 'M[F]_(sumn (dims bs)), stack_Sigma bs t d = Ok (DM A) /\ True.
  have Sqr k : (k < seq.size bs)%N -> dcols (dblk bs k) = dim_k (dims bs) k.
    move=> Lk; have [b Ek] := nth_idk Lk; have [D [_ [[_ [[_ Cs] _]] _]]] := group_dim T G Ek; have [_ [_ [_ [-> _]]]] := dim_rows Ek; by rewrite Cs D.
  have [A [EA _]] := stack_run asc Sqr (fun k l => group_cross T G).
  by exists (symm A); rewrite stack_SigmaE Ufx /= EA /= symmetrize_ok.
have [res [Eres [HP [Hd _]]]] := corr_ok Hs rx (zx - Hs *m mu) (symm Ax + eps0%:M).
have Run d2 : wf d2 -> typed d2 -> same d d2 -> apply_observation_z junk is_psd nearest nopredict eps0 dH z R t (u_cfg u) d2 =
   if ~~ rejected res then let! d' := write_joint junk (if is_psd (Sigma_apos res) then Sigma_apos res else nearest (Sigma_apos res)) (delta_mean res) bs t d2 in Ok (d', true) else Ok (d2, false).
  move=> W2 T2 S; have [Nb Ab HB] := group_same S G.
  rewrite /apply_observation_z EH /= /get_dict_bel -Em (@collect _ _ _ _ bs nil) //=; last by move=> id b /HB [].
  have Eif (X : Type) (a b : X) : (if bs is nil then a else b) = b by case: (bs) Nb.
  by rewrite Eif Emu /= -(stack_same _ _ S) EA /= dmul_ok /= Ez dsub_ok /= /joint_update stabilize_ok /= Er Eres.
case Rj: (rejected res); rewrite Rj /= in Run; first by left.
right; eexists; eexists; split; last exact: Run.
- have [P0 ->] := shaped_DM HP; case: is_psd; first by split.
  by have [B ->] := nearest_dims P0; split.
- exact: (proj1 Hd).
- exact: (proj2 Hd).
Qed.

Lemma group_in bs k id b j (d : dict) t : typed d -> group bs t d -> List.nth_error bs k = Some (id, b) -> List.In (j) (List.map fst bs) ->
  j = id \/ exists l bj, List.nth_error bs l = Some (j, bj) /\ (k < l \/ l < k)%N.
Proof.
move=> T G Ek /List.in_map_iff [[x bj] [/= -> Hin]]; have [l El] := List.In_nth_error _ _ Hin.
case: (ltngtP k l) => [L|L|E]; [by right; exists l, bj; split=> //; left|by right; exists l, bj; split=> //; right|].
by left; subst l; move: El; rewrite Ek => -[].
Qed.
Lemma write_content Sp dx bs t (d : dict) : Z.le wa t -> Z.le t wb -> wf d -> typed d -> group bs t d -> sq (dims bs) Sp -> drows dx = sumn (dims bs) -> dcols dx = 1%N ->
  exists d', write_joint junk Sp dx bs t d = Ok d' /\ outcome_ok t d d' /\
    forall d2, wf d2 -> typed d2 -> same d d2 -> exists d2', write_joint junk Sp dx bs t d2 = Ok d2' /\ same d' d2'.
Proof.
move=> L1 L2 W T G SS Rd Cd; have Ufx := group_free T G; have asc := asc_idk (let: And3 _ A _ := G in A).
have Nb : bs <> nil by case: G.
have Sp' dd : wf dd -> typed dd -> group bs t dd -> _ := fun W T G => write_joint_spec junk asc SS Rd Cd Ufx Nb (group_part W T G).
have [d' [E [K [N [En [B [C [O S]]]]]]]] := Sp' _ W T G.
have W' : wf d' by exact: write_wf E.
have Split id : List.In id (List.map fst bs) -> exists k b, List.nth_error bs k = Some (id, b).
  by move=> /List.in_map_iff [[x b] [/= -> Hin]]; have [k Ek] := List.In_nth_error _ _ Hin; exists k, b.
have Out id : ~ List.In id (List.map fst bs) -> forall k b, List.nth_error bs k <> Some (id, b).
  by move=> H k b Ek; apply: H; apply/List.in_map_iff; exists (id, b); split=> //; exact: (List.nth_error_In _ _ Ek).
have Blk k l ik il bk bl : List.nth_error bs k = Some (ik, bk) -> List.nth_error bs l = Some (il, bl) -> forall X, blk (dims bs) Sp k l = Ok X -> shaped (n ik) (n il) X.
  move=> Ek El X EX; have [Dk _] := group_dim T G Ek; have [Dl _] := group_dim T G El.
  have [_ [_ [_ [_ Lk]]]] := dim_rows Ek; have [_ [_ [_ [_ Ll]]]] := dim_rows El.
  rewrite -(dims_size bs) in Lk; rewrite -(dims_size bs) in Ll.
  by have [R0 [C0 _]] := blk_entry SS Lk Ll EX; split; rewrite ?R0 ?C0.
exists d'; split=> //; split.
  split=> //; split.
    apply: of_typed; first by rewrite K; case: T.
      move=> id s b; case: (List.in_dec Nat.eq_dec id (List.map fst bs)) => [/Split [k [b0 Ek]]|/Out Nin]; last by rewrite /bel_of N // -/(bel_of d id s); exact: typed_bel.
      have [[X [v [b' [EX [Ev [Eb Bt]]]]]] Bo] := B _ _ _ Ek.
      case: (Z.eq_dec s t) => [Es|Ns]; last by rewrite Bo //; exact: typed_bel.
      subst s; rewrite Bt => -[<-]; have [Dk [_ [[Sm [SS0 [Fx Tt]]] _]]] := group_dim T G Ek; have SX := Blk _ _ _ _ _ _ Ek Ek _ EX.
      move: Eb; rewrite /bel_correct /bel_correct_mean.
      have [mx Em] := shaped_DM Sm.
      have [vx Evx] : exists vx : 'cV[F]_(n id), v = DM vx.
        have [_ [_ [_ [_ Lk]]]] := dim_rows Ek; rewrite -(dims_size bs) in Lk.
        apply: shaped_DM; move: Ev; rewrite dblock_ok ?Rd ?Cd //; last exact: off_fit.
        by move=> Ev; rewrite -(Ok_inj Ev) -Dk.
      rewrite Em Evx dadd_ok /= => -[<-]; split=> //.
    move=> id j s f; case: (Z.eq_dec s t) => [Es|Ns]; last by rewrite S //; exact: typed_fac.
    subst s; case: (List.in_dec Nat.eq_dec id (List.map fst bs)) => [/Split [k [b0 Ek]]|/Out Nin]; last by rewrite /fac_of N // -/(fac_of d id j t); exact: typed_fac.
    have Oth : (forall l bl, List.nth_error bs l = Some (j, bl) -> j = id) -> fac_of d' id j t = Some f -> shaped (n id) (n (maxn id j)) f.
      move=> Nj; have [L [[X [iv [EX [Ei EL]]]] Hm]] := O _ _ _ _ Ek Nj; move: Hm; case Ef: (fac_of d id j t) => [m|]; last by move=> ->.
      move=> [q [Eq ->]] [<-]; have SX := Blk _ _ _ _ _ _ Ek Ek _ EX; have [_ [_ [[_ [[Rb Cb] _]] _]]] := group_dim T G Ek.
      case: SX => RX CX; have [CL RL] := lam_dims RX CX Rb Cb Ei EL.
      have [Lx EL'] := shaped_DM (conj RL CL : shaped (n id) (n id) L); have [mx Em] := shaped_DM (typed_fac T Ef).
      by move: Eq; rewrite EL' Em dmul_ok => Eq; rewrite -(Ok_inj Eq).
    case: (List.in_dec Nat.eq_dec j (List.map fst bs)) => [Hj|/Out Nj]; last by apply: Oth => l bl El; case: (Nj _ _ El).
    case: (group_in T G Ek Hj) => [Eji|[l [bj [El Ll]]]]; first exact: Oth.
    case: Ll => Ll.
      have [X [EX [F1 F2]]] := C _ _ _ _ _ _ Ek El Ll; rewrite F1 => -[<-].
      have /maxn_idPr -> : (id <= j)%N; last exact: (Blk _ _ _ _ _ _ Ek El _ EX).
      by apply: ltnW; case: G => _ A _; exact: A Ek El Ll.
    have [X [EX [F1 F2]]] := C _ _ _ _ _ _ El Ek Ll; rewrite F2 => -[<-].
    have /maxn_idPl -> : (j <= id)%N by apply: ltnW; case: G => _ A _; exact: A El Ek Ll.
    by have [_ ->] := Blk _ _ _ _ _ _ El Ek _ EX.
  apply: of_only => //; first by case: W.
  - by move=> id i i' Gi Gi'; have [i2 [G2 e2]] := En _ _ Gi; move: G2; rewrite Gi' => -[->].
  - move=> id s Ns; case: (List.in_dec Nat.eq_dec id (List.map fst bs)) => [/Split [k [b0 Ek]]|/Out Nin]; last by rewrite /bel_of N.
    by have [_ ->] := B _ _ _ Ek.
  - by move=> id j s Ns; rewrite S.
move=> d2 W2 T2 Sm; have G2 := group_same Sm G; have [d2' [E2 [K2 [N2 [En2 [B2 [C2 [O2 S2]]]]]]]] := Sp' _ W2 T2 G2.
have [Ks Ns Bs Fs] := same_of Sm; have [_ Ri] := find_all2 Sm.
exists d2'; split=> //; apply: of_same; first by case: W'.
- by rewrite K K2.
- move=> id i i2 Gi Gi2.
  have [j Gj] : exists j, d_find id d = Some j by apply: find_key; rewrite -K; exact: key_find Gi.
  have [j2 Gj2] : exists j, d_find id d2 = Some j by apply: find_key; rewrite -K2; exact: key_find Gi2.
  have [x [Gx ex]] := En _ _ Gj; have [y [Gy ey]] := En2 _ _ Gj2.
  move: Gx Gy; rewrite Gi Gi2 => -[->] [->]; rewrite ex ey; by have [] := Ri _ _ _ Gj Gj2.
- move=> id s; case: (List.in_dec Nat.eq_dec id (List.map fst bs)) => [/Split [k [b0 Ek]]|/Out Nin]; last first.
    by rewrite /bel_of N // N2 //; exact: Bs.
  have [[X [v [b' [EX [Ev [Eb Bt]]]]]] Bo] := B _ _ _ Ek; have [[X2 [v2 [b2' [EX2 [Ev2 [Eb2 Bt2]]]]]] Bo2] := B2 _ _ _ Ek.
  case: (Z.eq_dec s t) => [Es|Nt]; last by rewrite Bo // Bo2.
  by subst s; rewrite Bt Bt2; move: EX2 Ev2 Eb2; rewrite EX Ev => -[<-] [<-]; rewrite Eb => -[->].
move=> id j s; case: (Z.eq_dec s t) => [Es|Nt]; last by rewrite S // S2.
subst s; case: (List.in_dec Nat.eq_dec id (List.map fst bs)) => [/Split [k [b0 Ek]]|/Out Nin]; last first.
  by rewrite /fac_of N // N2 //; exact: Fs.
have Oth : (forall l bl, List.nth_error bs l = Some (j, bl) -> j = id) -> fac_of d' id j t = fac_of d2' id j t.
  move=> Nj; have [L [[X [iv [EX [Ei EL]]]] Hm]] := O _ _ _ _ Ek Nj; have [L' [[X' [iv' [EX' [Ei' EL']]]] Hm']] := O2 _ _ _ _ Ek Nj.
  move: EX' Ei' EL' Hm'; rewrite EX Ei => -[<-] [<-]; rewrite EL => -[<-]; rewrite -Fs.
  move: Hm; case: (fac_of d id j t) => [m [q [Eq ->]] [q' [Eq' ->]]|-> ->] //.
  by move: Eq'; rewrite Eq => -[->].
case: (List.in_dec Nat.eq_dec j (List.map fst bs)) => [Hj|/Out Nj]; last by apply: Oth => l bl El; case: (Nj _ _ El).
case: (group_in T G Ek Hj) => [Eji|[l [bj [El [Ll|Ll]]]]]; first exact: Oth.
  have [X [EX [F1 _]]] := C _ _ _ _ _ _ Ek El Ll; have [X' [EX' [F1' _]]] := C2 _ _ _ _ _ _ Ek El Ll.
  by rewrite F1 F1'; move: EX'; rewrite EX => -[->].
have [X [EX [_ F2]]] := C _ _ _ _ _ _ El Ek Ll; have [X' [EX' [_ F2']]] := C2 _ _ _ _ _ _ El Ek Ll.
by rewrite F2 F2'; move: EX'; rewrite EX => -[->].
Qed.

Lemma est_joint_ok m d : wf d -> typed d -> Z.le wa (m_t m) -> Z.le (m_t m) wb -> okm m -> m_ty m = JOINT ->
  exists d' s, est_joint junk is_psd nearest eps0 u m d = Ok (d', s) /\ outcome_ok (m_t m) d d' /\ s <> DISCARED /\
    forall d2, wf d2 -> typed d2 -> same d d2 -> exists d2', est_joint junk is_psd nearest eps0 u m d2 = Ok (d2', s) /\ same d' d2'.
Proof.
move=> W T L1 L2 [Hr +] Ty; rewrite Ty /est_joint; case Eu: u_joint => [[dH z] R] [Nn [A [Rg [p [HH [HR Hz]]]]]].
have Sd : same d d by apply: same_refl; case: W.
case: (all_or_missing (m_t m) d (List.map fst dH)) => [[bs [Em Hb]]|[id0 [Hi0 B0]]]; last first.
  have Miss d2 : wf d2 -> typed d2 -> same d d2 -> apply_observation_z junk is_psd nearest nopredict eps0 dH z R (m_t m) (u_cfg u) d2 = Ok (d2, false).
    move=> W2 T2 S; have [_ _ Bs _] := same_of S.
    rewrite /apply_observation_z; have [Hs [-> _]] := stack_H_spec (fun id X Hin => proj1 (HH id X Hin)) Nn.
    rewrite /= /get_dict_bel (@collect_missing _ _ id0) // -?Bs // => id /Rg Hin Gn.
    have [i Gi] : exists i, d_find id d2 = Some i by apply: find_key; case: T2 => ->.
    by move: Gn; rewrite Gi.
  exists d, REJECTED; rewrite Miss //; split=> //; split; first exact: refl_ok.
  by split=> // d2 W2 T2 S; exists d2; rewrite Miss.
have G : group bs (m_t m) d.
  split; first by move=> E; apply: Nn; rewrite E in Em; case: (dH) Em.
    by apply: asc_map; rewrite Em.
  move=> id b Hin; split; last exact: Hb.
  by apply: Rg; rewrite -Em; apply/List.in_map_iff; exists (id, b).
case: (joint_run W T G Em HH HR Hz) => [Run|[Sp [dx [SS Rd Cd Run]]]].
  exists d, REJECTED; rewrite Run //; split=> //; split; first exact: refl_ok.
  by split=> // d2 W2 T2 S; exists d2; rewrite Run.
have [d' [E [Od Sm]]] := write_content L1 L2 W T G SS Rd Cd.
exists d', PROCESSED; rewrite Run // E /=; split=> //; split=> //; split=> // d2 W2 T2 S.
by have [d2' [E2 S2]] := Sm _ W2 T2 S; exists d2'; rewrite Run // E2.
Qed.

(** ** every measurement *)
Theorem est_ok m d : wf d -> typed d -> Z.le wa (m_t m) -> Z.le (m_t m) wb -> okm m ->
  exists d' s, est junk hor is_psd nearest eps0 u d m = Ok (d', s) /\ outcome_ok (m_t m) d d' /\ s <> DISCARED /\
    forall d2, wf d2 -> typed d2 -> same d d2 -> exists d2', est junk hor is_psd nearest eps0 u d2 m = Ok (d2', s) /\ same d' d2'.
Proof.
move=> W T L1 L2 /[dup] Om [_]; rewrite /est; case Ty: (m_ty m) => // _; [exact: est_propagate_ok|exact: est_private_ok|exact: est_joint_ok].
Qed.
End Est.
