(** Sequences of local calls and reads on the lazy filter, side by side with the eager one. *)
From Coq Require Import ZArith List Bool Arith Lia.
From Flocq Require Import IEEE754.BinarySingleNaN.
From mathcomp Require Import all_ssreflect all_algebra.
From Verif Require Import Outcome TimestampModel DoubleModel Spec_Time TimestampProofs BufModel Spec_Buf BufProofs HorizonModel HorizonProofs MeasModel HandlerModel Spec_Handler DMat KFModel Spec_Mat KFProofs BeliefModel EigenModel EigenProofs IsoModel IsoProofs IsoTrace CorrModel Spec_Corr CorrProofs CorrTime CorrSim.
Set Implicit Arguments. Unset Strict Implicit. Unset Printing Implicit Defensive.
Import GRing.Theory Num.Theory.
Local Open Scope outcome_scope.
Local Open Scope ring_scope.
Local Arguments Z.mul : simpl never.
Local Arguments Z.add : simpl never.
Local Arguments Z.sub : simpl never.

Section Idem.
Variable hor : double.
Variable hb : Z.
Hypotheses (Nb : h_near hor hb) (Rb : Z.le 0 hb /\ Z.lt hb tmax).
Definition in_time {T} (l : buf T) : Prop := forall e, List.In e l -> Z.le 0 e.1 /\ Z.lt e.1 tmax.
Lemma restricted_idem {T} (l l' : buf T) : ssorted l -> in_time l ->
  check_horizon_restricted hor 4 l = Ok l' -> check_horizon_restricted hor 4 l' = Ok l' /\ ssorted l' /\ in_time l'.
Proof.
move=> S R E; have [X [EL _]] := check_restricted_suffix hor 4 l _ E.
have S' := suffix_ssorted X S.
have R' : in_time l' by move=> e I; apply: R; case: X => p ->; rewrite List.in_app_iff; right.
split=> //; case LT: (get_latest_t l) => [a|]; last first.
  have El : l = nil by move: LT; rewrite /get_latest_t; case G: get_latest => [//|] _; exact: (proj1 (get_latest_none l) G).
  by case: X => p; rewrite El => /esym /List.app_eq_nil [_ El'] ; rewrite El' in E *; rewrite El in E.
move: E; rewrite (check_restricted_exact hor hb 4 a l (ssorted_w l S) Nb Rb R LT) => EE0; have EE := Ok_inj EE0; move: {EE0} EE => EE.
have LT' : get_latest_t l' = Some a by move: LT; rewrite /get_latest_t EL.
rewrite (check_restricted_exact hor hb 4 a l' (ssorted_w l' S') Nb Rb R' LT'); congr Ok.
case E4: (4 <? length l)%nat EE => EE; last by rewrite -EE E4.
case: (_ <? _)%nat => //; rewrite -EE.
by rewrite {1}/trimmed; apply: filter_all_true; apply/List.Forall_forall => e /List.filter_In [].
Qed.
Lemma ins_present {T} t (v : T) l : ssorted l -> get_at_t t l = Some v -> hb_insert t v l = l.
Proof.
move=> S G; have I := get_at_In _ _ _ G; elim: l S I {G} => [//|[k w] l IH] S.
have [S' FA] := ss_inv _ _ S; move/List.Forall_forall: FA => FA /=.
case=> [[-> ->]|I]; first by rewrite Z.ltb_irrefl Z.eqb_refl.
have K : Z.lt k t := FA _ I.
have -> : Z.ltb t k = false by apply/Z.ltb_ge; lia.
have -> : Z.eqb t k = false by apply/Z.eqb_neq; lia.
by rewrite IH.
Qed.
End Idem.

Section Trace.
Variable F : realFieldType.
Variable junk : forall n, 'M[F]_n -> 'M[F]_n.
Variables (hor chor : double).
Notation dmat := (dmat F).
Notation belief := (belief F).
Notation inst := (inst belief dmat).
Notation cinst := (cinst F).
Notation ccfs := (list (nat * buf dmat)).
Implicit Types (h : buf dmat).
Variables (hb hh step : Z).
Hypotheses (Nb : h_near hor hb) (Rb : Z.le 0 hb /\ Z.lt hb tmax).
Hypotheses (Nc : h_near chor (Z.mul 2 hh)) (Rc : Z.lt (Z.mul 2 hh) tmax) (Hstep : Z.lt 0 step /\ Z.le (Z.mul 2 step) hh).
Variable n : nat.
Hypothesis n0 : (0 < n)%N.
Notation brel := (@brel F n).
Notation hist_ok := (@regular F n step (Z.mul 2 hh)).

Record srel (cur : Z) (c : cinst) (i : inst) : Prop := {
  sr_hist : hist_ok cur (c_hist c);
  sr_bel : i_bel (c_inst c) = i_bel i;
  sr_sb : ssorted (i_bel i);
  sr_rb : in_time (i_bel i);
  sr_ccf : pairs (brel 0 cur (c_hist c)) (i_ccf (c_inst c)) (i_ccf i) }.

Lemma regular_cur cur h : hist_ok cur h -> Z.le 0 cur /\ Z.lt (Z.add cur (Z.mul 2 hh)) tmax.
Proof.
move=> H; have [mc NC] := ho_cur H.
by have [Ic _] := get_latest_spec h cur mc (ssorted_w h (ho_sorted H)) NC; have := ho_range H Ic.
Qed.

(** the second propagation of the factors in the eager apply_propagation(Phi, Q, ...) changes nothing *)
Lemma factors_twice cur t' h (Phi : 'M[F]_n) (i i1 : inst) cL : hist_ok cur h -> Z.lt cur t' -> Z.lt t' tmax -> pairs (brel 0 cur h) cL (i_ccf i) ->
  ssorted (i_bel i) -> in_time (i_bel i) ->
  iso_factors hor (DM Phi) cur t' i = Ok i1 -> iso_factors hor (DM Phi) cur t' i1 = Ok i1.
Proof.
move=> H L LX P SB RBl; rewrite /iso_factors; case E1: ccf_scale => [c1|e|e] //=.
rewrite /iso_check_horizon /=; case EB: check_horizon_restricted => [l|e|e] //=; case E2: ccf_trim => [c2|e|e] //= [<-] /=.
have [EB' _] := restricted_idem Nb Rb SB RBl EB.
have C0 := regular_cur H.
suff [X1 X2] : ccf_scale cur t' (DM Phi) c2 = Ok c2 /\ ccf_trim hor c2 = Ok c2 by rewrite X1 /= EB' X2.
move: E1 E2; rewrite !scale_map !trim_map; move: (i_ccf i) P => cE P.
elim: P c1 c2 => {cL cE} [|k b1 b2 cL cE B _ IH] c1 c2 /=; first by case=> <- /= [<-].
case: (B) => SL RL RW SE RE [q [ts [m0 [lo0 [NL [I0 [NE VE]]]]]]].
have G := latest_get_at SE NE; rewrite G dmul_ok /=.
set v := DM (Phi *m (_ *m m0)); case E1: omapc => [c1'|e|e] //= [<-] /=.
case ET: check_horizon_restricted => [b'|e|e] //=; case E2: omapc => [c2'|e|e] //= [<-] /=.
have [X1 X2] := IH _ _ E1 E2; rewrite X1 X2.
have S1 := hb_insert_ssorted t' v b2 SE.
have R1 : in_time (hb_insert t' v b2).
  by move=> e /hb_insert_In -/(_ SE) [->|[I _]]; [simpl; lia|exact: RE].
have [-> [S2 R2]] := restricted_idem Nb Rb S1 R1 ET.
have [X [EL _]] := check_restricted_suffix hor 4 _ _ ET.
case G2: (get_at_t cur b') => [m|] //=.
have := suffix_get X S1 G2; rewrite get_ins; case: (Z.eqb_spec cur t') => [?|_]; first lia.
rewrite G => -[Em]; have -> : dmul (DM Phi) m = Ok v by rewrite -Em dmul_ok.
rewrite /=; have -> // : hb_insert t' v b' = b'.
by apply: (ins_present S2); apply: (latest_get_at S2); rewrite EL; apply: (insert_newest _ SE NE); lia.
Qed.

(** one propagation after the belief has been stored *)
Lemma sim_prop cur t' (c : cinst) (i i' : inst) (Phi : 'M[F]_n) l : srel cur c i -> Z.lt cur t' -> Z.le t' (Z.add cur step) ->
  Z.lt (Z.add t' (Z.mul 2 hh)) tmax -> ssorted l -> in_time l ->
  iso_factors hor (DM Phi) cur t' (with_bel l i) = Ok i' ->
  exists c', corr_factors hor chor (DM Phi) t' (CInst (with_bel l (c_inst c)) (c_hist c)) = Ok (c', true) /\ srel t' c' i' /\
    corr_factors hor chor (DM Phi) t' c' = Ok (c', false).
Proof.
move=> [H EB SB RBl P] L1 L2 L3 Sl Rl; rewrite /iso_factors /=; case E1: ccf_scale => [c1|e|e] //=.
rewrite /iso_check_horizon /=; case EL: check_horizon_restricted => [l'|e|e] //=; case E2: ccf_trim => [c2|e|e] //= [<-].
have [cL1 [cL2 [X1 [X2 [X3 [X4 X5]]]]]] := sim_factors Nb Rb Nc Rc Hstep H L1 L2 L3 P E1 E2.
have [_ [S' R']] := restricted_idem Nb Rb Sl Rl EL.
rewrite /corr_factors /add_correction /=.
have -> : exist_at_t t' (c_hist c) = false.
  by apply/negbTE/negP => /exist_at_iff [v I]; have := ho_le H I; simpl; lia.
rewrite /corr_check_horizon /= X1 /= X2 /= /iso_check_horizon /= EL /= X3 /=.
eexists; split; first reflexivity; split; first by split.
rewrite /=; have [mc NC] := ho_cur X4; have [I _] := get_latest_spec _ t' mc (ssorted_w _ (ho_sorted X4)) NC.
by have -> : exist_at_t t' (trimmed (Z.mul 2 hh) t' (hb_insert t' (DM Phi) (c_hist c))) = true by apply/exist_at_iff; exists mc.
Qed.
(** a private update at the current time *)
Lemma sim_private cur (c : cinst) (i i' : inst) k (H : 'M[F]_(k, n)) (R : 'M[F]_k) z cfg b (Sg : 'M[F]_n) r : srel cur c i ->
  bel_at cur i = Some b -> b_t b = cur -> b_Sigma b = DM Sg ->
  iso_private junk (DM H) (DM R) z cur cfg i = Ok (i', r) ->
  exists c', corr_private junk (DM H) (DM R) z cur cfg c = Ok (c', r) /\ srel cur c' i'.
Proof.
move=> X G T ES; case: (X) => HH EB SB RBl P.
rewrite /iso_private /corr_private EB; rewrite /bel_at in G; rewrite G.
case: dmul => [hm|e|e] //=; case: dsub => [rr|e|e] //=; rewrite /iso_private_bel /corr_private_bel ES T.
case CS: correction_step => [res|e|e] //=; case Hr: (rejected res) => //=; first by case=> <- <-; exists c.
have U : res_U res = DM (step_U junk H R Sg cfg).
  move: CS; rewrite /correction_step; case D: check_dim_meas; last by case=> E; move: Hr; rewrite -E.
  have Dr : drows rr = k /\ dcols rr = 1%N.
    by move: D; rewrite /check_dim_meas /= => /and4P [_ _ /norP [/negbNE/eqP -> /negbNE/eqP ->] _].
  case: Dr; case: rr {D} => r1 rc rr /= E1 E2; subst r1 rc => CS.
  have := correction_step_ok junk H R rr Sg cfg; rewrite /correction_step /check_dim_meas /= !eqxx /= CS.
  by case: step_gate => [g|e|e] //= [->].
rewrite U; move: (step_U _ _ _ _ _) => {U}U.
case SC: ccf_scale => [cE'|e|e] //=; case BC: bel_correct => [b'|e|e] //= [<- <-].
have [mc NC] := ho_cur HH.
move: SC; rewrite scale_map => SC.
have [cL' [EL' PL']] := pairs_both P SC (fun bL bE bE' B E => sim_correct Hstep HH NC B E).
rewrite /apply_correction scale_map EL' /= (latest_get_at (ho_sorted HH) NC).
have [Ic Mc] := get_latest_spec _ cur mc (ssorted_w _ (ho_sorted HH)) NC.
have [D1 D2] := ho_sq HH Ic; simpl in D1, D2.
rewrite (DM_mx_of D1 D2) dmul_ok /=; eexists; split; first reflexivity.
have [p [Eh Lp]] := latest_split (ho_sorted HH) NC.
have Rcur := regular_cur HH.
split=> //=; last first.
- by move=> e /hb_insert_In -/(_ SB) [->|[I _]]; [simpl; lia|exact: RBl].
- exact: hb_insert_ssorted.
- by rewrite EB.
have E' : hb_insert cur (DM (U *m mx_of n n mc)) (c_hist c) = (p ++ [:: (cur, DM (U *m mx_of n n mc))])%list by rewrite Eh ins_same.
have keys e : List.In e (hb_insert cur (DM (U *m mx_of n n mc)) (c_hist c)) -> exists v, List.In (e.1, v) (c_hist c).
  by move=> /hb_insert_In -/(_ (ho_sorted HH)) [->|[I _]]; [exists mc|exists e.2; rewrite -surjective_pairing].
have keys' e : List.In e (c_hist c) -> exists v, List.In (e.1, v) (hb_insert cur (DM (U *m mx_of n n mc)) (c_hist c)).
  rewrite E' Eh !List.in_app_iff => -[I|[<-|[]]]; first by exists e.2; rewrite List.in_app_iff; left; rewrite -surjective_pairing.
  by eexists; rewrite List.in_app_iff; right; left.
split.
- by apply: hb_insert_ssorted; exact: ho_sorted HH.
- by move=> e /hb_insert_In -/(_ (ho_sorted HH)) [->|[I _]] //; exact: (ho_sq HH I).
- by rewrite /get_latest_t E' get_latest_app.
- by move=> e /keys [v I]; exact: (ho_range HH I).
- move=> e /keys [v I] L; have [e' [I' ?]] := ho_gap HH I L; have [v' J] := keys' _ I'.
  by exists (e'.1, v').
- by move=> e /keys [v I]; exact: (ho_span HH I).
Qed.
(** reading a factor that the eager filter has *)
Lemma pairs_set (R : buf dmat -> buf dmat -> Prop) (cL cE : ccfs) j s (v : dmat) bL : pairs R cL cE -> ccf_find j cL = Some bL ->
  (forall bE, ccf_find j cE = Some bE -> R bL bE -> R (hb_insert s v bL) bE) -> pairs R (ccf_set j s v cL) cE.
Proof.
elim=> {cL cE} [//|k b1 b2 cL cE B P IH] /=; case: Nat.eqb => [[<-] HR|G HR]; first by constructor=> //; exact: HR.
by constructor=> //; exact: IH.
Qed.
Lemma sim_read cur (c : cinst) (i : inst) j s m : srel cur c i -> ccf_at j s i = Some m ->
  exists c' m', corr_get_ccf j s c = Ok (c', m') /\ srel cur c' i /\
    (forall bL t0, assoc j (i_ccf (c_inst c)) = Some bL -> get_latest_t bL = Some t0 -> Z.le t0 s -> m' = m).
Proof.
move=> X; case: (X) => H EB SB RBl P; rewrite /ccf_at -find_assoc.
have := pairs_find j P; rewrite /corr_get_ccf -find_assoc; case GE: (ccf_find j (i_ccf i)) => [bE|] //.
case GL: ccf_find => [bL|] // B G; case: (B) => SL RL RW SE RE [q [ts [m0 [lo0 [NL [[v0 I0] [NE VE]]]]]]].
have [IL ML] := get_latest_spec bL ts (DM m0) (ssorted_w bL SL) NL.
have LT : get_latest_t bL = Some ts by rewrite /get_latest_t NL.
have Rs := RE _ (get_at_In _ _ _ G); simpl in Rs.
have [_ ME] := get_latest_spec bE cur _ (ssorted_w bE SE) NE.
case G1: (get_at_t s bL) => [m'|].
  exists c, m'; split=> //; split=> // b t0 [<-]; rewrite LT => -[<-] Ls.
  have Es : s = ts by have := ML _ (get_at_In _ _ _ G1); simpl; lia.
  subst s; move: G1; rewrite (latest_get_at SL NL) => -[<-].
  by have [-> _] := VE _ _ Ls G; rewrite product_refl ?mul1mx //; lia.
case G2: (get_before_t s bL) => [[tp mp]|]; last first.
  exists c, (dempty F); split=> //; split=> // b t0 [<-]; rewrite LT => -[<-] Ls.
  have := proj1 (get_before_none s bL (ssorted_w bL SL)) G2 _ IL; simpl => Ls'.
  have Es : s = ts by lia. by subst s; move: G1; rewrite (latest_get_at SL NL).
have [Ip [Lp Mp]] := get_before_spec s bL tp mp (ssorted_w bL SL) G2.
have Dp := RW _ Ip; simpl in Dp.
rewrite (compute_correctionE tp s (ho_sorted H) (ho_sq H)) /=.
case AV: available; last first.
  rewrite /=; exists c, mp; split=> //; split=> // b t0 [<-]; rewrite LT => -[<-] Ls.
  have [Em [v Iv]] := VE _ _ Ls G; move: AV; have Es : tp <> s by lia.
  have Lts : Z.le tp ts by have := ML _ Ip.
  suff -> : available tp s (c_hist c) = true by [].
  by apply/andP; split; apply/List.existsb_exists; exists (s, v); split=> //; [apply/Z.ltb_lt|apply/Z.leb_le] => /=; lia.
have -> : (dsize (DM (product n tp s (c_hist c))) != 0%N) = true by rewrite /dsize /= muln_eq0 negb_or -!lt0n n0.
case: mp Dp Ip G2 => rp qp mp /= Dp; subst rp => Ip G2; rewrite dmul_ok /=.
eexists _, _; split; first reflexivity; split; last first.
  move=> b t0 [<-]; rewrite LT => -[<-] Ls.
  have Lts : Z.lt ts s.
    case: (Z.eq_dec ts s) => [Es|]; last lia.
    by subst s; move: G1; rewrite (latest_get_at SL NL).
  have Et : tp = ts by have := Mp _ IL; have := ML _ Ip; simpl; lia.
  have Emp : DM mp = DM m0.
    by apply: Some_inj; rewrite -(latest_get_at SL NL) -Et; apply/esym/get_at_iff.
  have Eq : qp = q by have := f_equal (@dcols F) Emp.
  subst qp tp; rewrite (DM_inj Emp).
  by have [-> _] := VE _ _ Ls G.
split=> //=; apply: (pairs_set P GL) => bE'; rewrite GE => -[<-] _.
split=> //.
- exact: hb_insert_ssorted.
- by move=> e /hb_insert_In -/(_ SL) [->|[I _]]; [simpl; lia|exact: RL].
- by move=> e /hb_insert_In -/(_ SL) [->|[I _]]; [|exact: RW].
case: (Z.ltb_spec s ts) => Lts.
  exists q, ts, m0; split=> //; split; last by split; [exists v0|].
  apply: latest_unique; [exact: hb_insert_ssorted|rewrite get_ins|].
    by case: (Z.eqb_spec ts s) => [?|_]; [lia|exact: latest_get_at].
  by move=> e /hb_insert_In -/(_ SL) [->|[I _]] /=; [lia|exact: ML].
have Lts' : Z.lt ts s.
  case: (Z.eq_dec ts s) => [Es|]; last lia.
  by subst s; move: G1; rewrite (latest_get_at SL NL).
have Et : tp = ts by have := Mp _ IL; have := ML _ Ip; simpl; lia.
have Emp : DM mp = DM m0.
  by apply: Some_inj; rewrite -(latest_get_at SL NL) -Et; apply/esym/get_at_iff.
have Eq : qp = q by have := f_equal (@dcols F) Emp.
subst qp tp; rewrite (DM_inj Emp); have [_ [v Iv]] := VE _ _ Lts G.
exists q, s, (product n ts s (c_hist c) *m m0); split; first lia.
split; first by apply: (insert_newest _ SL NL).
split; first by exists v.
have Lsc : Z.le s cur := ho_le H Iv.
have PC x : Z.le s x -> product n s x (c_hist c) *m (product n ts s (c_hist c) *m m0) = product n ts x (c_hist c) *m m0.
  by move=> Lx; rewrite mulmxA -(product_comp _ (ho_sorted H) Lts Lx).
split; first by rewrite PC.
by move=> x y Lx Gx; rewrite PC //; apply: VE => //; lia.
Qed.
End Trace.
