(** Simulation between the lazy and the eager isolated filter. *)
From Coq Require Import ZArith List Bool Arith Lia.
From Flocq Require Import IEEE754.BinarySingleNaN.
From mathcomp Require Import all_ssreflect all_algebra.
From Verif Require Import Outcome TimestampModel DoubleModel Spec_Time TimestampProofs BufModel Spec_Buf BufProofs HorizonModel HorizonProofs MeasModel HandlerModel Spec_Handler DMat KFModel Spec_Mat KFProofs BeliefModel EigenModel EigenProofs IsoModel IsoProofs IsoTrace CorrModel Spec_Corr CorrProofs CorrTime.
Set Implicit Arguments. Unset Strict Implicit. Unset Printing Implicit Defensive.
Import GRing.Theory Num.Theory.
Local Open Scope outcome_scope.
Local Open Scope ring_scope.

Section Product.
Variable F : realFieldType.
Notation dmat := (dmat F).
Implicit Types (h : buf dmat).

Lemma terms_app ta tb h1 h2 : terms ta tb (h1 ++ h2)%list = (terms ta tb h1 ++ terms ta tb h2)%list.
Proof. by rewrite /terms List.filter_app List.map_app. Qed.
Lemma terms_none ta tb h : (forall e, List.In e h -> Z.le e.1 ta \/ Z.lt tb e.1) -> terms ta tb h = nil.
Proof.
elim: h => [|e h IH] H //=; rewrite /terms /=.
have -> : Z.ltb ta e.1 && Z.leb e.1 tb = false.
  by case: (H e (or_introl (erefl _))) => ?; apply/negbTE/negP => /andP [/Z.ltb_lt ? /Z.leb_le ?]; lia.
by apply: IH => x X; apply: H; right.
Qed.
Lemma terms_ext ta tb ta' tb' h : (forall e, List.In e h -> (Z.lt ta e.1 /\ Z.le e.1 tb) <-> (Z.lt ta' e.1 /\ Z.le e.1 tb')) ->
  terms ta tb h = terms ta' tb' h.
Proof.
move=> H; rewrite /terms; congr List.map; apply: List.filter_ext_in => e I.
apply/idP/idP => /andP [/Z.ltb_lt A /Z.leb_le B]; apply/andP; case: (H _ I) => H1 H2.
- by case: (H1 (conj A B)) => ? ?; split; [apply/Z.ltb_lt|apply/Z.leb_le].
- by case: (H2 (conj A B)) => ? ?; split; [apply/Z.ltb_lt|apply/Z.leb_le].
Qed.
Lemma terms_split ta tb tc h : ssorted h -> Z.le ta tb -> Z.le tb tc -> terms ta tc h = (terms ta tb h ++ terms tb tc h)%list.
Proof.
elim: h => [|[k v] h IH] // S L1 L2.
have [S' FA0] := ss_inv _ _ S; have FA e : List.In e h -> Z.lt k e.1 by move/List.Forall_forall: FA0 => X /X.
case: (Z.ltb_spec tb k) => K.
  rewrite (@terms_none ta tb); last by move=> e [<-|/FA H] /=; right; lia.
  by apply: terms_ext => e [<-|/FA H] /=; lia.
rewrite /terms /=; have -> : Z.ltb tb k = false by apply/Z.ltb_ge; lia.
have -> : Z.leb k tb = true by apply/Z.leb_le; lia.
have -> : Z.leb k tc = true by apply/Z.leb_le; lia.
by rewrite !andbT /=; have := IH S' L1 L2; rewrite /terms; case: Z.ltb => /= ->.
Qed.
Lemma product_comp n ta tb tc h : ssorted h -> Z.le ta tb -> Z.le tb tc ->
  product n ta tc h = product n tb tc h *m product n ta tb h.
Proof. by move=> S L1 L2; rewrite /product (terms_split S L1 L2) applied_cat. Qed.
Lemma product_refl n t s h : Z.le s t -> product n t s h = 1%:M.
Proof. by move=> L; rewrite /product terms_none // => e _; lia. Qed.
Lemma product_ext n ta tb ta' tb' h : (forall e, List.In e h -> (Z.lt ta e.1 /\ Z.le e.1 tb) <-> (Z.lt ta' e.1 /\ Z.le e.1 tb')) ->
  product n ta tb h = product n ta' tb' h.
Proof. by move=> H; rewrite /product (terms_ext H). Qed.

(** the newest term *)
Lemma latest_split {T} (l : buf T) t m : ssorted l -> get_latest l = Some (t, m) ->
  exists p, l = (p ++ [:: (t, m)])%list /\ forall e, List.In e p -> Z.lt e.1 t.
Proof.
elim/List.rev_ind: l => [|x p _] // S; rewrite get_latest_app => -[E]; subst x; exists p; split=> // e I.
elim: p S I => [|a p IH] //= S; have [S' FA] := ss_inv _ _ S; case=> [<-|I]; last exact: IH.
by move/List.Forall_forall: FA => /(_ (t, m)) H; apply: H; rewrite List.in_app_iff; right; left.
Qed.
Lemma ins_new {T} t (v : T) l : (forall e, List.In e l -> Z.lt e.1 t) -> hb_insert t v l = (l ++ [:: (t, v)])%list.
Proof.
elim: l => [|[k w] l IH] //= H.
have K : Z.lt k t := H (k, w) (or_introl (erefl _)).
have -> : Z.ltb t k = false by apply/Z.ltb_ge; lia.
have -> : Z.eqb t k = false by apply/Z.eqb_neq; lia.
by rewrite IH // => e I; apply: H; right.
Qed.
Lemma ins_same {T} t (v w : T) l : (forall e, List.In e l -> Z.lt e.1 t) ->
  hb_insert t v (l ++ [:: (t, w)])%list = (l ++ [:: (t, v)])%list.
Proof.
elim: l => [|[k x] l IH] /= H; first by rewrite Z.ltb_irrefl Z.eqb_refl.
have K : Z.lt k t := H (k, x) (or_introl (erefl _)).
have -> : Z.ltb t k = false by apply/Z.ltb_ge; lia.
have -> : Z.eqb t k = false by apply/Z.eqb_neq; lia.
by rewrite IH // => e I; apply: H; right.
Qed.
Lemma product_snoc n ta s t (M : dmat) p : Z.lt ta t -> Z.le t s ->
  product n ta s (p ++ [:: (t, M)])%list = mx_of n n M *m product n ta s p.
Proof.
move=> L1 L2; rewrite /product terms_app applied_cat {1}/terms /=.
have -> : Z.ltb ta t = true by apply/Z.ltb_lt.
have -> : Z.leb t s = true by apply/Z.leb_le.
by rewrite /= mul1mx.
Qed.
Lemma product_snoc_out n ta s t (M : dmat) p : Z.le t ta \/ Z.lt s t -> product n ta s (p ++ [:: (t, M)])%list = product n ta s p.
Proof.
move=> L; rewrite /product terms_app applied_cat [terms _ _ [:: _]]terms_none ?mul1mx // => e [<-|[]] /=; lia.
Qed.
Lemma trimmed_product n cut cur ta s h : Z.le (Z.sub cur cut) ta -> product n ta s (trimmed cut cur h) = product n ta s h.
Proof.
move=> L; rewrite /product; congr applied; rewrite /terms /trimmed; congr List.map.
elim: h => [|[k v] h IH] //=; case: (Z.leb_spec (Z.sub cur cut) k) => K /=; first by case: ifP => _ /=; rewrite IH.
by rewrite IH; have -> : Z.ltb ta k = false by apply/Z.ltb_ge; lia.
Qed.
End Product.

(** ** maps over all factor buffers *)
Section Map.
Variable F : realFieldType.
Notation dmat := (dmat F).
Notation ccfs := (list (nat * buf dmat)).
Fixpoint omapc (f : buf dmat -> outcome (buf dmat)) (c : ccfs) : outcome ccfs :=
  match c with nil => Ok nil | (k, b) :: r => let! b' := f b in let! r' := omapc f r in Ok ((k, b') :: r') end.
Lemma scale_map ta tb M c : ccf_scale ta tb M c =
  omapc (fun b => match get_at_t ta b with Some m => let! p := dmul M m in Ok (hb_insert tb p b) | None => Ok b end) c.
Proof. by elim: c => [|[k b] c IH] //=; rewrite IH. Qed.
Lemma trim_map hor c : ccf_trim hor c = omapc (check_horizon_restricted hor 4) c.
Proof. by elim: c => [|[k b] c IH] //=; rewrite IH. Qed.
Lemma move_map h mid c : move_ccfs h mid c = omapc (move_ccf h mid) c.
Proof. by elim: c => [|[k b] c IH] //=; rewrite IH. Qed.

Inductive pairs (R : buf dmat -> buf dmat -> Prop) : ccfs -> ccfs -> Prop :=
| P_nil : pairs R nil nil
| P_cons k b1 b2 c1 c2 : R b1 b2 -> pairs R c1 c2 -> pairs R ((k, b1) :: c1) ((k, b2) :: c2).
Lemma pairs_sub (R R' : _ -> _ -> Prop) c1 c2 : (forall b1 b2, R b1 b2 -> R' b1 b2) -> pairs R c1 c2 -> pairs R' c1 c2.
Proof. by move=> H; elim=> {c1 c2} [|k b1 b2 c1 c2 /H X _ Y]; constructor. Qed.
Lemma pairs_find R c1 c2 j : pairs R c1 c2 ->
  match ccf_find j c1, ccf_find j c2 with Some b1, Some b2 => R b1 b2 | None, None => True | _, _ => False end.
Proof. by elim=> {c1 c2} [|k b1 b2 c1 c2 X _ Y] //=; case: Nat.eqb. Qed.
Lemma pairs_left (R R' : _ -> _ -> Prop) f c1 c2 : pairs R c1 c2 -> (forall b1 b2, R b1 b2 -> exists b1', f b1 = Ok b1' /\ R' b1' b2) ->
  exists c1', omapc f c1 = Ok c1' /\ pairs R' c1' c2.
Proof.
move=> P H; elim: P => {c1 c2} [|k b1 b2 c1 c2 /H [b1' [E X]] _ [c1' [E' Y]]] /=; first by exists nil; split; constructor.
by rewrite E E' /=; eexists; split; [reflexivity|constructor].
Qed.
Lemma pairs_right (R R' : _ -> _ -> Prop) f c1 c2 c2' : pairs R c1 c2 -> omapc f c2 = Ok c2' -> (forall b1 b2 b2', R b1 b2 -> f b2 = Ok b2' -> R' b1 b2') ->
  pairs R' c1 c2'.
Proof.
move=> P E H; elim: P c2' E => {c1 c2} [|k b1 b2 c1 c2 X _ IH] c2' /=; first by case=> <-; constructor.
by case E: (f b2) => [b2'|e|e] //=; case E': omapc => [c'|e|e] //= [<-]; constructor; [exact: (H _ _ _ X)|exact: IH].
Qed.
Lemma pairs_both (R R' : _ -> _ -> Prop) f g c1 c2 c2' : pairs R c1 c2 -> omapc g c2 = Ok c2' ->
  (forall b1 b2 b2', R b1 b2 -> g b2 = Ok b2' -> exists b1', f b1 = Ok b1' /\ R' b1' b2') ->
  exists c1', omapc f c1 = Ok c1' /\ pairs R' c1' c2'.
Proof.
move=> P E H; elim: P c2' E => {c1 c2} [|k b1 b2 c1 c2 X _ IH] c2' /=; first by case=> <-; exists nil; split; constructor.
case E: (g b2) => [b2'|e|e] //=; case E': omapc => [c'|e|e] //= [<-].
have [b1' [-> Y]] := H _ _ _ X E; have [c1' [-> Z]] := IH _ E'.
by eexists; split; [reflexivity|constructor].
Qed.
End Map.

Local Arguments Z.mul : simpl never.
Local Arguments Z.add : simpl never.
Local Arguments Z.sub : simpl never.
Section Sim.
Variable F : realFieldType.
Variables (hor chor : double).
Notation dmat := (dmat F).
Notation belief := (belief F).
Notation inst := (inst belief dmat).
Notation ccfs := (list (nat * buf dmat)).
Implicit Types (h : buf dmat).
Variables (hb hh step : Z).
Hypotheses (Nb : h_near hor hb) (Rb : Z.le 0 hb /\ Z.lt hb tmax).
Hypotheses (Nc : h_near chor (Z.mul 2 hh)) (Rc : Z.lt (Z.mul 2 hh) tmax) (Hstep : Z.lt 0 step /\ Z.le (Z.mul 2 step) hh).
Variable n : nat.

Notation hist_ok := (regular n step (Z.mul 2 hh)).
Record brel (lo cur : Z) h (bL bE : buf dmat) : Prop := {
  br_sL : ssorted bL;
  br_range : forall e, List.In e bL -> Z.le 0 e.1 /\ Z.lt e.1 tmax;
  br_rows : forall e, List.In e bL -> drows e.2 = n;
  br_sE : ssorted bE;
  br_rangeE : forall e, List.In e bE -> Z.le 0 e.1 /\ Z.lt e.1 tmax;
  br_new : exists q t0 (m0 : 'M[F]_(n, q)), Z.le lo t0 /\ get_latest bL = Some (t0, DM m0) /\ (exists v, List.In (t0, v) h) /\
    get_latest bE = Some (cur, DM (product n t0 cur h *m m0)) /\
    forall s m, Z.le t0 s -> get_at_t s bE = Some m -> m = DM (product n t0 s h *m m0) /\ exists v, List.In (s, v) h }.

Lemma ho_le cur h e : hist_ok cur h -> List.In e h -> Z.le e.1 cur.
Proof. by move=> H I; have [_ M] := latest_t_spec h cur (ssorted_w h (ho_sorted H)) (ho_latest H); exact: M. Qed.
Lemma ho_cur cur h : hist_ok cur h -> exists m, get_latest h = Some (cur, m).
Proof. by move=> H; have := ho_latest H; rewrite /get_latest_t; case: get_latest => [[k m]|] //= [->]; exists m. Qed.

(** (1) a new correction term and the eagerly propagated factors *)
Lemma sim_add cur t' h (Phi : 'M[F]_n) lo bL bE bE' : hist_ok cur h -> Z.lt cur t' -> Z.lt t' tmax -> brel lo cur h bL bE ->
  (match get_at_t cur bE with Some m => let! p := dmul (DM Phi) m in Ok (hb_insert t' p bE) | None => Ok bE end) = Ok bE' ->
  brel lo t' (hb_insert t' (DM Phi) h) bL bE'.
Proof.
move=> H L LX [SL RL RW SE RE [q [t0 [m0 [lo0 [NL [[v0 I0] [NE VE]]]]]]]].
have Lh e : List.In e h -> Z.lt e.1 t' by move=> /(ho_le H) ?; lia.
have L0 : Z.le t0 cur := ho_le H I0.
rewrite (latest_get_at SE NE) dmul_ok /= => -[<-].
rewrite (ins_new _ Lh).
have P0 : product n t0 t' h = product n t0 cur h.
  by apply: product_ext => e I; have := ho_le H I; lia.
split=> //; first exact: hb_insert_ssorted.
  move=> e /hb_insert_In -/(_ SE) [->|[I _]]; last exact: RE.
  by have := ho_range H I0; simpl; lia.
exists q, t0, m0; split=> //; split=> //; split; first by exists v0; rewrite List.in_app_iff; left.
split.
  rewrite (insert_newest _ SE NE); last lia.
  by rewrite product_snoc ?mx_of_DM ?P0 ?mulmxA //; lia.
move=> s m Ls; rewrite get_ins; case: (Z.eqb_spec s t') => [->|N].
  case=> <-; rewrite product_snoc ?mx_of_DM ?P0 ?mulmxA //; [|lia|lia].
  by split=> //; exists (DM Phi); rewrite List.in_app_iff; right; left.
move=> G; have [-> [v Iv]] := VE _ _ Ls G; have Lt := Lh _ Iv; simpl in Lt.
by rewrite product_snoc_out; [split=> //; exists v; rewrite List.in_app_iff; left|right].
Qed.
(** (2) moving the newest stored factor to the middle of the correction history *)
Lemma sim_move lo cur h mid v bL bE : ssorted h -> square n h -> (forall e, List.In e h -> Z.le e.1 cur) -> (exists v, List.In (cur, v) h) ->
  Z.le 0 mid /\ Z.lt mid tmax ->
  List.In (mid, v) h -> Z.lt mid cur -> brel lo cur h bL bE -> exists bL', move_ccf h mid bL = Ok bL' /\ brel mid cur h bL' bE.
Proof.
move=> Sh Qh Mh Ch Rm Im Lm [SL RL RW SE RE [q [t0 [m0 [lo0 [NL [[v0 I0] [NE VE]]]]]]]].
rewrite /move_ccf NL; case: (Z.leb_spec t0 mid) => Lt; last first.
  exists bL; split=> //; split=> //; exists q, t0, m0; split; first lia.
  by split=> //; split; [exists v0|].
have -> : exist_at_t t0 h = true by apply/exist_at_iff; exists v0.
rewrite (compute_correctionE t0 mid Sh Qh).
have -> : available t0 mid h = true.
  case: Ch => vc Ic; apply/andP; split; apply/List.existsb_exists.
    by exists (cur, vc); split=> //; apply/Z.ltb_lt => /=; lia.
  by exists (mid, v); split=> //; apply/Z.leb_le => /=; lia.
rewrite /= dmul_ok /=; eexists; split; first reflexivity.
have [_ ML] := get_latest_spec bL t0 (DM m0) (ssorted_w bL SL) NL.
split=> //.
- exact: hb_insert_ssorted.
- by move=> e /hb_insert_In -/(_ SL) [->|[I _]]; [exact: Rm|exact: RL].
- by move=> e /hb_insert_In -/(_ SL) [->|[I _]]; [|exact: RW].
exists q, mid, (product n t0 mid h *m m0); split; first lia.
split; first exact: (insert_newest _ SL NL).
split; first by exists v.
have PC s : Z.le mid s -> product n mid s h *m (product n t0 mid h *m m0) = product n t0 s h *m m0.
  by move=> Ls; rewrite mulmxA -(product_comp _ Sh Lt Ls).
split; first by rewrite PC //; lia.
by move=> s m Ls G; rewrite PC //; apply: VE => //; lia.
Qed.
(** (3) trimming the correction history behind the newest stored factor *)
Lemma sim_trim_hist cut cur h bL bE : ssorted h -> brel (Z.sub cur cut) cur h bL bE ->
  brel (Z.sub cur cut) cur (trimmed cut cur h) bL bE.
Proof.
move=> Sh [SL RL RW SE RE [q [t0 [m0 [lo0 [NL [[v0 I0] [NE VE]]]]]]]].
have kept s v : Z.le t0 s -> List.In (s, v) h -> List.In (s, v) (trimmed cut cur h).
  by move=> Ls I; apply/List.filter_In; split=> //; apply/Z.leb_le => /=; lia.
split=> //; exists q, t0, m0; split=> //; split=> //; split; first by exists v0; apply: kept => //; lia.
rewrite trimmed_product //; split=> // s m Ls G; rewrite trimmed_product //.
by have [-> [v Iv]] := VE _ _ Ls G; split=> //; exists v; exact: kept.
Qed.
(** (4) trimming the factors *)
Lemma sim_trim_left lo cur h bL bE : brel lo cur h bL bE -> exists bL', check_horizon_restricted hor 4 bL = Ok bL' /\ brel lo cur h bL' bE.
Proof.
move=> B; case: (B) => SL RL RW SE RE [q [t0 [m0 [lo0 [NL [I0 [NE VE]]]]]]].
have LT : get_latest_t bL = Some t0 by rewrite /get_latest_t NL.
have E := check_restricted_exact hor hb 4 t0 bL (ssorted_w bL SL) Nb Rb RL LT.
eexists; split; first exact: E.
have [X [EL _]] := check_restricted_suffix hor 4 bL _ E.
have sub e : List.In e (if (4 <? length bL)%N then trimmed hb t0 bL else bL) -> List.In e bL.
  by case: X => p EX I; rewrite EX List.in_app_iff; right.
split=> //; first exact: (suffix_ssorted X SL).
- by move=> e /sub; exact: RL.
- by move=> e /sub; exact: RW.
by exists q, t0, m0; rewrite EL.
Qed.
Lemma sim_trim_right lo cur h bL bE bE' : brel lo cur h bL bE -> check_horizon_restricted hor 4 bE = Ok bE' -> brel lo cur h bL bE'.
Proof.
case=> SL RL RW SE RE [q [t0 [m0 [lo0 [NL [I0 [NE VE]]]]]]] E.
have [X [EL _]] := check_restricted_suffix hor 4 bE _ E.
split=> //; first exact: (suffix_ssorted X SE).
  by move=> e I; apply: RE; case: X => p EX; rewrite EX List.in_app_iff; right.
exists q, t0, m0; rewrite EL; split=> //; split=> //; split=> //; split=> // s m Ls G; apply: VE => //.
exact: (suffix_get X SE).
Qed.
(** (5) a correction at the current time *)
Lemma sim_correct lo cur h (U : 'M[F]_n) (mc : dmat) bL bE bE' : hist_ok cur h -> get_latest h = Some (cur, mc) -> brel lo cur h bL bE ->
  (match get_at_t cur bE with Some m => let! p := dmul (DM U) m in Ok (hb_insert cur p bE) | None => Ok bE end) = Ok bE' ->
  exists bL', (match get_at_t cur bL with Some m => let! p := dmul (DM U) m in Ok (hb_insert cur p bL) | None => Ok bL end) = Ok bL' /\
    brel lo cur (hb_insert cur (DM (U *m mx_of n n mc)) h) bL' bE'.
Proof.
move=> H NC [SL RL RW SE RE [q [t0 [m0 [lo0 [NL [[v0 I0] [NE VE]]]]]]]].
rewrite (latest_get_at SE NE) dmul_ok /= => -[<-].
have [p [Eh Lp]] := latest_split (ho_sorted H) NC.
have L0 : Z.le t0 cur := ho_le H I0.
have [IL ML] := get_latest_spec bL t0 (DM m0) (ssorted_w bL SL) NL.
have Ih s v : List.In (s, v) h -> exists v', List.In (s, v') (p ++ [:: (cur, DM (U *m mx_of n n mc))])%list.
  rewrite Eh !List.in_app_iff => -[I|[[<- _]|[]]]; first by exists v; rewrite List.in_app_iff; left.
  by eexists; rewrite List.in_app_iff; right; left.
have EI : hb_insert cur (DM (U *m mx_of n n mc)) h = (p ++ [:: (cur, DM (U *m mx_of n n mc))])%list by rewrite Eh (ins_same _ _ Lp).
have MC : product n t0 cur h = if Z.eqb t0 cur then 1%:M else mx_of n n mc *m product n t0 cur p.
  case: (Z.eqb_spec t0 cur) => [->|N0]; first by rewrite product_refl //; lia.
  by rewrite {1}Eh product_snoc //; lia.
have SE' := hb_insert_ssorted cur (DM (U *m (product n t0 cur h *m m0))) bE SE.
have Rcur : Z.le 0 cur /\ Z.lt cur tmax.
  by have [Ic _] := get_latest_spec h cur mc (ssorted_w h (ho_sorted H)) NC; have := ho_range H Ic; simpl; lia.
have RE' v e : List.In e (hb_insert cur v bE) -> Z.le 0 e.1 /\ Z.lt e.1 tmax.
  by move=> /hb_insert_In -/(_ SE) [->|[I _]]; [exact: Rcur|exact: RE].
case: (Z.eq_dec t0 cur) => [E0|N0].
  subst t0; rewrite (latest_get_at SL NL) dmul_ok /=; eexists; split; first reflexivity.
  rewrite EI; split=> //.
  - exact: hb_insert_ssorted.
  - by move=> e /hb_insert_In -/(_ SL) [->|[I _]]; [exact: (RL _ IL)|exact: RL].
  - by move=> e /hb_insert_In -/(_ SL) [->|[I _]]; [|exact: RW].
  - exact: RE'.
  exists q, cur, (U *m m0); split=> //; split; first by apply: (insert_newest _ SL NL); lia.
  split; first exact: (Ih _ _ I0).
  have P1 s : product n cur s (p ++ [:: (cur, DM (U *m mx_of n n mc))])%list = 1%:M.
    by rewrite /product terms_none // => e; rewrite List.in_app_iff => -[/Lp ?|[<-|[]]] /=; lia.
  split; first by rewrite P1 mul1mx (insert_newest _ SE NE) ?MC ?Z.eqb_refl ?mul1mx //; lia.
  move=> s m Ls; rewrite get_ins; case: (Z.eqb_spec s cur) => [->|Ns].
    by case=> <-; rewrite P1 MC Z.eqb_refl !mul1mx; split=> //; exact: (Ih _ _ I0).
  by move=> /VE -/(_ Ls) [_ [v Iv]]; have := ho_le H Iv; simpl; move=> ?; exfalso; lia.
have -> : get_at_t cur bL = None.
  by apply/get_at_none => v Iv; have := ML _ Iv; simpl; move=> ?; lia.
exists bL; split=> //; rewrite EI; split=> //; first exact: RE'.
exists q, t0, m0; split=> //; split=> //; split; first exact: (Ih _ _ I0).
have PU : product n t0 cur (p ++ [:: (cur, DM (U *m mx_of n n mc))])%list = U *m product n t0 cur h.
  rewrite product_snoc; [|lia|lia].
  by rewrite mx_of_DM MC; case: (Z.eqb_spec t0 cur) => // _; rewrite mulmxA.
split; first by rewrite PU (insert_newest _ SE NE) ?mulmxA //; lia.
move=> s m Ls; rewrite get_ins; case: (Z.eqb_spec s cur) => [->|Ns].
  by case=> <-; rewrite PU -!mulmxA; split=> //; have [v Iv] := Ih cur mc ltac:(by rewrite Eh List.in_app_iff; right; left); exists v.
move=> /VE -/(_ Ls) [-> [v Iv]]; split; last exact: (Ih _ _ Iv).
have Lv := ho_le H Iv; simpl in Lv.
by rewrite Eh !product_snoc_out //; right; lia.
Qed.
Lemma brel_lo lo lo' cur h bL bE : Z.le lo' lo -> brel lo cur h bL bE -> brel lo' cur h bL bE.
Proof.
by move=> L [SL RL RW SE RE [q [t0 [m0 [lo0 X]]]]]; split=> //; exists q, t0, m0; split=> //; lia.
Qed.
(** (6) the history after one more term, before and after trimming *)
Lemma hist_add cur t' h (Phi : 'M[F]_n) : hist_ok cur h -> Z.lt cur t' -> Z.le t' (Z.add cur step) -> Z.lt (Z.add t' (Z.mul 2 hh)) tmax ->
  let h1 := hb_insert t' (DM Phi) h in
  [/\ ssorted h1, square n h1, get_latest_t h1 = Some t', (1 <? size h1)%coq_nat = true /\
      (forall e, List.In e h1 -> Z.le 0 e.1 /\ Z.lt (Z.add e.1 (Z.mul 2 hh)) tmax) &
      (forall e, List.In e h1 -> Z.lt e.1 t' -> exists e', List.In e' h1 /\ Z.lt e.1 e'.1 /\ Z.le e'.1 (Z.add e.1 step)) /\
      (forall e, List.In e h1 -> Z.le (Z.sub cur (Z.mul 2 hh)) e.1)].
Proof.
move=> H L1 L2 L3 h1; have [mc NC] := ho_cur H.
have [Ic _] := get_latest_spec h cur mc (ssorted_w h (ho_sorted H)) NC.
have Lh e : List.In e h -> Z.lt e.1 t' by move=> /(ho_le H) ?; lia.
have E1 : h1 = (h ++ [:: (t', DM Phi)])%list by rewrite /h1 (ins_new _ Lh).
have R0 := ho_range H Ic; simpl in R0.
have In1 e : List.In e h1 -> List.In e h \/ e = (t', DM Phi) by rewrite E1 List.in_app_iff => -[|[|[]]]; [left|right].
have In2 e : List.In e h -> List.In e h1 by rewrite E1 List.in_app_iff; left.
split.
- by apply: hb_insert_ssorted; exact: ho_sorted H.
- by move=> e /In1 [/(ho_sq H)|->].
- by rewrite /get_latest_t E1 get_latest_app.
- split; last by move=> e /In1 [/(ho_range H)|->] //=; lia.
  rewrite E1 /size List.app_length /=; case: (h) Ic => [[]|a l _] /=; apply/Nat.ltb_lt; lia.
split; last by move=> e /In1 [/(ho_span H)|->] //=; lia.
move=> e /In1 [I|->] /=; last by lia.
  move=> _; case: (Z.eq_dec e.1 cur) => [E|N].
    by exists (t', DM Phi); split; [rewrite E1 List.in_app_iff; right; left|simpl; lia].
  have [|e' [I' ?]] := ho_gap H I; first by have := ho_le H I; lia.
  by exists e'; split=> //; exact: In2.
Qed.
Lemma hist_trim cur h : ssorted h -> square n h -> get_latest_t h = Some cur ->
  (forall e, List.In e h -> Z.le 0 e.1 /\ Z.lt (Z.add e.1 (Z.mul 2 hh)) tmax) ->
  (forall e, List.In e h -> Z.lt e.1 cur -> exists e', List.In e' h /\ Z.lt e.1 e'.1 /\ Z.le e'.1 (Z.add e.1 step)) ->
  check_horizon chor h = Ok (trimmed (Z.mul 2 hh) cur h) /\ hist_ok cur (trimmed (Z.mul 2 hh) cur h).
Proof.
move=> Sh Qh Lh Rh Gh.
have E := check_horizon_exact chor (Z.mul 2 hh) cur h (ssorted_w h Sh) Nc.
have {}E := E ltac:(move: Rc; rewrite /tmax; lia) ltac:(by move=> e /Rh; rewrite /tmax; lia) Lh.
split=> //.
have [X EL] := check_suffix chor h _ E.
have sub e : List.In e (trimmed (Z.mul 2 hh) cur h) <-> List.In e h /\ Z.le (Z.sub cur (Z.mul 2 hh)) e.1.
  by rewrite /trimmed List.filter_In Z.leb_le.
split.
- exact: (suffix_ssorted X Sh).
- by move=> e /sub [/Qh].
- by move: Lh; rewrite /get_latest_t EL.
- by move=> e /sub [/Rh].
- move=> e /sub [I L] Lc; have [e' [I' ?]] := Gh _ I Lc.
  by exists e'; split=> //; apply/sub; split=> //; lia.
- by move=> e /sub [].
Qed.
(** the middle of the history *)
Lemma middle_spec cur t' h : Z.le t' (Z.add cur step) -> ssorted h -> get_latest_t h = Some t' -> (1 <? size h)%coq_nat = true ->
  (forall e, List.In e h -> Z.le 0 e.1 /\ Z.lt (Z.add e.1 (Z.mul 2 hh)) tmax) ->
  (forall e, List.In e h -> Z.lt e.1 t' -> exists e', List.In e' h /\ Z.lt e.1 e'.1 /\ Z.le e'.1 (Z.add e.1 step)) ->
  (forall e, List.In e h -> Z.le (Z.sub cur (Z.mul 2 hh)) e.1) ->
  forall c : ccfs,
  (exists mid v, check_correction_horizon chor h c = move_ccfs h mid c /\ List.In (mid, v) h /\ Z.lt mid t' /\ Z.le (Z.sub t' (Z.mul 2 hh)) mid) \/
  (check_correction_horizon chor h c = Ok c /\ forall e, List.In e h -> Z.le (Z.sub t' (Z.mul 2 hh)) e.1).
Proof.
move=> Ls Sh Lh Sz Rh Gh Oh c; have W := ssorted_w h Sh.
have Ne : h <> nil by move=> E; move: Sz; rewrite E.
have [o Eo] := nonempty_oldest h Ne.
have [[vo Io] Mo] := oldest_t_spec h o W Eo; have [[vt It] Mt] := latest_t_spec h t' W Lh.
have Ro := Rh _ Io; have Rt := Rh _ It; simpl in Ro, Rt; have Oo := Oh _ Io; simpl in Oo.
have [HS1 HS2] := half_span chor hh t' o Nc ltac:(lia) ltac:(move: Rc; rewrite /tmax; lia) ltac:(move: Rt; rewrite /tmax; lia) ltac:(move: Ro; rewrite /tmax; lia).
have ES : span_sec h = d_sub (to_sec (from_stamp_ns t')) (to_sec (from_stamp_ns o)) by rewrite /span_sec Sz Lh Eo.
rewrite /check_correction_horizon ES Eo.
case: (Bltb _ _) HS1 HS2 => HS1 HS2; last first.
  right; split=> // e I; have := Mo _ I; case: (Z.ltb_spec hh (Z.sub t' o)) => [/HS1 //|]; lia.
left; have Hh := HS2 (erefl _).
rewrite (mid_key chor hh o Nc ltac:(lia) ltac:(move: Rc; rewrite /tmax; lia) ltac:(lia) ltac:(move: Rt; rewrite /tmax; lia)) /=.
rewrite stamp_of_instant; last by move: Ro Rt; rewrite /tmax; lia.
rewrite /=; case GB: (get_before_t _ h) => [[mid v]|]; last first.
  have := proj1 (get_before_none _ h W) GB _ Io; simpl; lia.
have [Im [Lm Mm]] := get_before_spec _ h mid v W GB.
exists mid, v; split=> //; split=> //; split; first lia.
have [e' [I' [G1 G2]]] := Gh _ Im ltac:(simpl; lia); simpl in G1, G2.
have : ~ Z.lt e'.1 (Z.add o hh) by move=> X; have := Mm _ I' X; lia.
lia.
Qed.
(** (7) the factor part of one propagation *)
Lemma sim_factors cur t' h (Phi : 'M[F]_n) cL cE cE1 cE2 : hist_ok cur h -> Z.lt cur t' -> Z.le t' (Z.add cur step) ->
  Z.lt (Z.add t' (Z.mul 2 hh)) tmax -> pairs (brel 0 cur h) cL cE ->
  ccf_scale cur t' (DM Phi) cE = Ok cE1 -> ccf_trim hor cE1 = Ok cE2 ->
  let h1 := hb_insert t' (DM Phi) h in
  exists cL1 cL2, check_correction_horizon chor h1 cL = Ok cL1 /\ check_horizon chor h1 = Ok (trimmed (Z.mul 2 hh) t' h1) /\
    ccf_trim hor cL1 = Ok cL2 /\ hist_ok t' (trimmed (Z.mul 2 hh) t' h1) /\ pairs (brel 0 t' (trimmed (Z.mul 2 hh) t' h1)) cL2 cE2.
Proof.
move=> H L1 L2 L3 P; rewrite scale_map trim_map => E1 E2 h1.
have [Sh Qh Lh [Sz Rh] [Gh Oh]] := hist_add Phi H L1 L2 L3; rewrite -/h1 in Sh Qh Lh Sz Rh Gh Oh.
have [ET HT] := hist_trim Sh Qh Lh Rh Gh.
have [[vt It] Mt] := latest_t_spec h1 t' (ssorted_w h1 Sh) Lh.
have P1 : pairs (brel 0 t' h1) cL cE1.
  apply: (pairs_right P E1) => bL bE bE' B; apply: (sim_add H L1 _ B); lia.
have lo_up bL bE : brel 0 t' h1 bL bE -> (forall e, List.In e h1 -> Z.le (Z.sub t' (Z.mul 2 hh)) e.1) -> brel (Z.sub t' (Z.mul 2 hh)) t' h1 bL bE.
  by case=> SL RL RW SE RE [q [t0 [m0 [lo0 [NL [[v0 I0] X]]]]]] O; split=> //; exists q, t0, m0; split; [exact: (O _ I0)|split=> //; split; [exists v0|]].
have [cL1 [EM PM]] : exists cL1, check_correction_horizon chor h1 cL = Ok cL1 /\ pairs (brel (Z.sub t' (Z.mul 2 hh)) t' h1) cL1 cE1.
  case: (middle_spec L2 Sh Lh Sz Rh Gh Oh cL) => [[mid [v [-> [Im [Lm Cm]]]]]|[-> O]].
    rewrite move_map; apply: (pairs_left P1) => bL bE B.
    have Rm := Rh _ Im; simpl in Rm.
    have [|bL' [EB BB]] := sim_move Sh Qh Mt (ex_intro _ vt It) _ Im Lm B; first lia.
    by exists bL'; split=> //; exact: (brel_lo Cm).
  by exists cL; split=> //; apply: (pairs_sub _ P1) => bL bE B; exact: lo_up.
have [cL2 [E3 P3]] := pairs_left PM (@sim_trim_left _ _ _).
have P4 := pairs_right P3 E2 (@sim_trim_right _ _ _).
exists cL1, cL2; rewrite trim_map; split=> //; split=> //; split=> //; split=> //.
apply: (pairs_sub _ P4) => bL bE B.
have [SL RL RW SE RE [q [t0 [m0 [lo0 [NL X]]]]]] := sim_trim_hist Sh B.
have [IL _] := get_latest_spec bL t0 (DM m0) (ssorted_w bL SL) NL.
by split=> //; exists q, t0, m0; split=> //; have := RL _ IL; simpl; lia.
Qed.
End Sim.
