(** C37, continued: what the lazy filter answers in general, and where it differs from the eager one. *)
From Coq Require Import ZArith List Bool Arith Lia Sorted.
From Flocq Require Import IEEE754.BinarySingleNaN.
From mathcomp Require Import all_ssreflect all_algebra.
From Verif Require Import Outcome TimestampModel DoubleModel Spec_Time TimestampProofs BufModel Spec_Buf BufProofs HorizonModel HorizonProofs MeasModel HandlerModel Spec_Handler DMat KFModel Spec_Mat KFProofs BeliefModel EigenModel EigenProofs IsoModel IsoProofs IsoTrace CorrModel Spec_Corr CorrProofs CorrTime CorrSim CorrTrace Props_Corr.
Set Implicit Arguments. Unset Strict Implicit. Unset Printing Implicit Defensive.
Import GRing.Theory Num.Theory.
Local Open Scope outcome_scope.
Local Arguments Z.mul : simpl never.
Local Arguments Z.add : simpl never.
Local Arguments Z.sub : simpl never.
Local Arguments Z.ltb : simpl never.
Local Arguments Z.leb : simpl never.
Local Arguments Z.eqb : simpl never.

Section General.
Variable F : realFieldType.
Variable junk : forall n, 'M[F]_n -> 'M[F]_n.
Notation dmat := (dmat F).
Notation belief := (belief F).
Notation cinst := (cinst F).

(** reading a factor at a time s at which none is stored: the newest older factor times the product of the terms that are still in the
    history and lie between the two times (and with that no factor older than s: an empty matrix) *)
Theorem C37_read_exact : forall n q j s (x : cinst) b tp (m : 'M[F]_(n, q)), (0 < n)%N ->
  ssorted (c_hist x) -> square n (c_hist x) -> assoc j (i_ccf (c_inst x)) = Some b -> get_at_t s b = None ->
  (get_before_t s b = Some (tp, DM m) -> exists x', corr_get_ccf j s x = Ok (x', DM (product n tp s (c_hist x) *m m)%R)) /\
  (get_before_t s b = None -> corr_get_ccf j s x = Ok (x, dempty F)).
Proof.
move=> n q j s x b tp m n0 S Q A G; split=> GB; rewrite /corr_get_ccf find_assoc A G GB //.
rewrite (compute_correctionE tp s S Q); case AV: available => /=.
  by rewrite /dsize /= muln_eq0 negb_or -!lt0n n0 /= dmul_ok /=; eexists.
have -> : product n tp s (c_hist x) = 1%:M%R.
  rewrite /product (_ : terms tp s (c_hist x) = nil) //.
  apply: terms_none => e I; move: AV; rewrite /available.
  case E1: (List.existsb _ _) => /= E2.
    right; case: (Z.leb_spec e.1 s) => // L; exfalso; move: E2.
    have -> // : List.existsb (fun e => Z.leb e.1 s) (c_hist x) = true.
    by apply/List.existsb_exists; exists e; split=> //; apply/Z.leb_le.
  left; case: (Z.ltb_spec tp e.1) => // L; exfalso; move: E1.
  have -> // : List.existsb (fun e => Z.ltb tp e.1) (c_hist x) = true.
  by apply/List.existsb_exists; exists e; split=> //; apply/Z.ltb_lt.
by rewrite mul1mx; exists x.
Qed.

(** a private observation at a time for which no correction term is stored: the call answers false and leaves the beliefs alone, but
    multiplies the factors of that time and stores the factor of the discarded correction as a term *)
Theorem C37_private_without_term : forall (H R r : dmat) cfg t (ba : belief) (x : cinst) res f,
  correction_step junk H R r (b_Sigma ba) cfg = Ok res -> rejected res = false ->
  get_at_t (b_t ba) (c_hist x) = None -> ccf_scale (b_t ba) (b_t ba) (res_U res) (i_ccf (c_inst x)) = Ok f ->
  exists x', corr_private_bel junk t ba H R r cfg x = Ok (x', false) /\ i_bel (c_inst x') = i_bel (c_inst x) /\
    i_ccf (c_inst x') = f /\ c_hist x' = hb_insert (b_t ba) (res_U res) (c_hist x).
Proof.
move=> H R r cfg t ba x res f E NR G EF.
rewrite /corr_private_bel E /= NR /= /apply_correction EF /= G /=.
by eexists; split; first reflexivity.
Qed.
End General.

Section Diff.
Variable F : realFieldType.
Variable junk : forall n, 'M[F]_n -> 'M[F]_n.
Variables (hor chor : double) (hb hh : Z).
Hypotheses (Nb : h_near hor hb) (Rb : Z.le 0 hb /\ Z.lt hb tmax).
Hypotheses (Nc : h_near chor (Z.mul 2 hh)) (Rc : Z.le 0 hh /\ Z.lt (Z.mul 2 hh) tmax).
Notation dmat := (dmat F).
Notation belief := (belief F).
Notation cinst := (cinst F).
Implicit Types (h fb : buf dmat).

(** strictly increasing times in range *)
Fixpoint okt (l : list Z) : bool :=
  match l with
  | nil => true
  | a :: r => Z.leb 0 a && Z.ltb a tmax && (match r with b :: _ => Z.ltb a b | nil => true end) && okt r
  end.
Lemma okt_sorted {T} (l : buf T) : okt (List.map fst l) -> ssorted l /\ forall e, List.In e l -> Z.le 0 e.1 /\ Z.lt e.1 tmax.
Proof.
elim: l => [|[a v] l IH] //=; first by split=> //; constructor.
move=> /andP [/andP [/andP [/Z.leb_le A1 /Z.ltb_lt A2] A3] /IH [S R]]; split; last by move=> e [<-|/R].
constructor=> //; apply/List.Forall_forall => e I; rewrite /klt /=.
case: l A3 S R I {IH} => [|[b w] l] // /Z.ltb_lt L S R; case=> [<- //|I].
have := proj2 (ss_inv _ _ S); rewrite List.Forall_forall => /(_ e I); rewrite /klt /=. simpl in L; lia.
Qed.
Definition rtrim {T} (a : Z) (l : buf T) : buf T := if (4 <? length l)%nat then trimmed hb a l else l.
Lemma rtrim_ok {T} a (l : buf T) : okt (List.map fst l) -> get_latest_t l = Some a -> check_horizon_restricted hor 4 l = Ok (rtrim a l).
Proof.
move=> /okt_sorted [S R] L; apply: (check_restricted_exact hor hb 4 a l (ssorted_w l S) Nb _ _ L).
  by move: Rb; rewrite /tmax; lia.
by move=> e /R; rewrite /tmax; lia.
Qed.
Definition middle o h := match get_before_t (Z.add o hh) h with Some (m, _) => m | None => Z0 end.
Section Store.
Variables (M : dmat) (bb : belief) (en : bool) (bel : buf belief) (fb fb1 h : buf dmat) (ta t o tf : Z).
Let h' := hb_insert t M h.
Let bel' := hb_insert t (bel_set_t t bb) bel.
Hypothesis D : check_dim_phi (b_Sigma bb) M = true.
Hypotheses (NE : exist_at_t t h = false) (Oh : okt (List.map fst h')) (Ob : okt (List.map fst bel')).
Hypotheses (Eo : get_oldest_t h' = Some o) (Et : get_latest_t h' = Some t) (Eb : get_latest_t bel' = Some t) (Sz : (1 <? size h')%nat = true).
Let x := CInst (Inst en bel [:: (1%nat, fb)]) h.

Lemma cch_mid (c : list (nat * buf dmat)) : Z.lt hh (Z.sub t o) -> Z.lt (Z.add o hh) tmax -> check_correction_horizon chor h' c = move_ccfs h' (middle o h') c.
Proof.
move=> L1 L2; have [S R] := okt_sorted Oh; have W := ssorted_w h' S.
have [[vo Io] Mo] := oldest_t_spec h' o W Eo; have [[vt It] Mt] := latest_t_spec h' t W Et.
have Ro := R _ Io; have Rt := R _ It; simpl in Ro, Rt.
have [HS1 HS2] := half_span chor hh t o Nc ltac:(lia) ltac:(move: Rc; rewrite /tmax; lia) ltac:(move: Rt; rewrite /tmax; lia) ltac:(move: Ro; rewrite /tmax; lia).
have ES : span_sec h' = d_sub (to_sec (from_stamp_ns t)) (to_sec (from_stamp_ns o)) by rewrite /span_sec Sz Et Eo.
rewrite /check_correction_horizon ES Eo HS1 //.
rewrite (mid_key chor hh o Nc ltac:(lia) ltac:(move: Rc; rewrite /tmax; lia) ltac:(lia) ltac:(move: L2; rewrite /tmax; lia)) /=.
by rewrite stamp_of_instant; last by move: Ro L2; rewrite /tmax; lia.
Qed.
Lemma cch_not (c : list (nat * buf dmat)) : Z.lt (Z.sub t o) hh -> check_correction_horizon chor h' c = Ok c.
Proof.
move=> L1; have [S R] := okt_sorted Oh; have W := ssorted_w h' S.
have [[vo Io] Mo] := oldest_t_spec h' o W Eo; have [[vt It] Mt] := latest_t_spec h' t W Et.
have Ro := R _ Io; have Rt := R _ It; simpl in Ro, Rt.
have [HS1 HS2] := half_span chor hh t o Nc ltac:(lia) ltac:(move: Rc; rewrite /tmax; lia) ltac:(move: Rt; rewrite /tmax; lia) ltac:(move: Ro; rewrite /tmax; lia).
have ES : span_sec h' = d_sub (to_sec (from_stamp_ns t)) (to_sec (from_stamp_ns o)) by rewrite /span_sec Sz Et Eo.
rewrite /check_correction_horizon ES; case: Bltb HS1 HS2 => // _ /(_ (erefl _)); lia.
Qed.
Lemma store_ok : check_correction_horizon chor h' [:: (1%nat, fb)] = Ok [:: (1%nat, fb1)] ->
  okt (List.map fst fb1) -> get_latest_t fb1 = Some tf ->
  cexec junk hor chor (Local (CStore bb M ta t)) x =
  Ok (CInst (Inst en (rtrim t bel') [:: (1%nat, rtrim tf fb1)]) (trimmed (Z.mul 2 hh) t h'), true).
Proof.
move=> EC Of Ef; rewrite /cexec /corr_propagate_store /kf_propagate_store D /=.
rewrite /corr_factors /add_correction /= NE /= /corr_check_horizon /= -/h' EC /=.
have [S R] := okt_sorted Oh.
rewrite (check_horizon_exact chor (Z.mul 2 hh) t h' (ssorted_w h' S) Nc _ _ Et) /=.
- by rewrite /iso_check_horizon /= -/bel' (rtrim_ok Ob Eb) /= (rtrim_ok Of Ef) /=.
- by move: Rc; rewrite /tmax; lia.
- by move=> e /R; rewrite /tmax; lia.
Qed.
Lemma store_abort e : check_correction_horizon chor h' [:: (1%nat, fb)] = Abort e ->
  cexec junk hor chor (Local (CStore bb M ta t)) x = Abort e.
Proof.
move=> EC; rewrite /cexec /corr_propagate_store /kf_propagate_store D /=.
by rewrite /corr_factors /add_correction /= NE /= /corr_check_horizon /= -/h' EC.
Qed.
End Store.
(** products of identities *)
Lemma product_ids I (EI : I = DM (1%:M%R : 'M[F]_1)) ta tb h : (forall e, List.In e h -> e.2 = I) -> product 1 ta tb h = 1%:M%R.
Proof.
move=> H; rewrite /product /terms; elim: h H => [|e h IH] H //=.
have IH' := IH (fun e' i => H e' (or_intror i)).
case: ifP => _ //=; rewrite IH' (H e (or_introl (erefl _))) EI mx_of_DM mul1mx //.
Qed.
Lemma cc_ids I (EI : I = DM (1%:M%R : 'M[F]_1)) ta tb h : ssorted h -> (forall e, List.In e h -> e.2 = I) -> available ta tb h ->
  compute_correction ta tb h = Ok I.
Proof.
move=> S H A; have Q : square 1 h by move=> e /H ->; rewrite EI.
by rewrite (compute_correctionE ta tb S Q) A (product_ids EI ta tb H) EI.
Qed.
Lemma move_ids I (EI : I = DM (1%:M%R : 'M[F]_1)) mid h fb tl : okt (List.map fst h) -> (forall e, List.In e h -> e.2 = I) ->
  get_latest fb = Some (tl, I) -> Z.le tl mid -> exist_at_t tl h = true -> available tl mid h ->
  move_ccfs h mid [:: (1%nat, fb)] = Ok [:: (1%nat, hb_insert mid I fb)].
Proof.
move=> /okt_sorted [S _] H L /Z.leb_le Lm E A; rewrite /= /move_ccf L Lm E (cc_ids EI S H A) /= EI dmul_ok mul1mx -EI //.
Qed.
End Diff.

Local Open Scope Z_scope.
Section Cases.
Variable F : realFieldType.
Variable junk : forall n, 'M[F]_n -> 'M[F]_n.
Variables (hor chor : double).
(** a horizon of 10 s for beliefs, factors and corrections *)
Hypotheses (Nb : h_near hor 10000000000) (Nc : h_near chor (Z.mul 2 5000000000)).
Notation dmat := (dmat F).
Notation belief := (belief F).
Notation cinst := (cinst F).
Definition one : dmat := DM (1%:M%R : 'M[F]_1).
Definition bel1 : belief := Bel one one 0 false false true.
(** an instance at time 0 with one factor and one correction term *)
Definition begin : cinst := CInst (Inst true [:: (0, bel1)] [:: (1%nat, [:: (0, one)])]) [:: (0, one)].
Definition go (ta tb : Z) : call F := Local (CStore bel1 one ta tb).


Section Steps.
Variable I : dmat.
Hypothesis EI : I = one.
Definition st (tb tf th : list Z) : cinst :=
  CInst (Inst true (List.map (fun t => (t, Bel I I t false false true)) tb) [:: (1%nat, List.map (fun t => (t, I)) tf)])
        (List.map (fun t => (t, I)) th).
Definition goI (ta tb : Z) : call F := Local (CStore (Bel I I 0 false false true) I ta tb).
Notation run x c := (cexec junk hor chor c x).
Lemma all_ids t th e : List.In e (hb_insert t I (List.map (fun t => (t, I)) th)) -> e.2 = I.
Proof.
elim: th => [|a th IH] /=; first by case=> // <-.
have ids l : List.In e (List.map (fun t => (t, I)) l) -> e.2 = I by elim: l => //= b l IHl [<-|/IHl].
case: Z.ltb => /=; first by move=> [<-|[<-|/ids]].
by case: Z.eqb => /=; [move=> [<-|/ids]|move=> [<-|/IH]].
Qed.
(** everything about a step that computes *)
Definition pre (tb tf th tf1 : list Z) (t o tl : Z) : bool :=
  let h := List.map (fun t => (t, I)) th in
  let h' := hb_insert t I h in
  let b' := hb_insert t (Bel I I t false false true) (List.map (fun t => (t, Bel I I t false false true)) tb) in
  let isk a b := match a with Some k => Z.eqb k b | None => false end in
  [&& ~~ exist_at_t t h, okt (List.map fst h'), okt (List.map fst b'), okt tf1,
      isk (get_oldest_t h') o, isk (get_latest_t h') t, isk (get_latest_t b') t, (1 <? size h')%nat & isk (get_latest_t (List.map (fun t => (t, I)) tf1)) tl].
Lemma is_some a b : match a with Some k => Z.eqb k b | None => false end -> a = Some b.
Proof. by case: a => // k /Z.eqb_eq ->. Qed.
Lemma map_fst_ids l : List.map fst (List.map (fun t : Z => (t, I)) l) = l.
Proof. by elim: l => //= a l ->. Qed.
Lemma bound10 : 0 <= 10000000000 /\ 10000000000 < tmax. Proof. by rewrite /tmax; lia. Qed.
Lemma bound5 : 0 <= 5000000000 /\ Z.mul 2 5000000000 < tmax. Proof. by rewrite /tmax; lia. Qed.
Lemma dimI : check_dim_phi I I = true. Proof. by rewrite EI. Qed.
Lemma step_no ta tb tf th t o tl y : pre tb tf th tf t o tl -> Z.ltb (Z.sub t o) 5000000000 ->
  (let h' := hb_insert t I (List.map (fun t => (t, I)) th) in
   let b' := hb_insert t (Bel I I t false false true) (List.map (fun t => (t, Bel I I t false false true)) tb) in
   CInst (Inst true (rtrim 10000000000 t b') [:: (1%nat, rtrim 10000000000 tl (List.map (fun t => (t, I)) tf))])
     (trimmed (Z.mul 2 5000000000) t h')) = y ->
  run (st tb tf th) (goI ta t) = Ok (y, true).
Proof.
rewrite /pre => /andP [/negbTE P1 /andP [P2 /andP [P3 /andP [P4 /andP [/is_some P5 /andP [/is_some P6 /andP [/is_some P7 /andP [P8 /is_some P9]]]]]]]].
move=> /Z.ltb_lt L <-; rewrite /st /goI.
apply: (@store_ok F junk hor chor 10000000000 5000000000 Nb bound10 Nc bound5 I (Bel I I 0 false false true)) => //.
- exact: dimI.
- exact: (@cch_not F chor 5000000000 Nc bound5 I (Bel I I 0 false false true) _ t o P2 P5 P6 P8).
- by rewrite map_fst_ids.
Qed.
Lemma step_mid ta tb tf th t o tl tl0 y mid : pre tb tf th (List.map fst (hb_insert mid I (List.map (fun t => (t, I)) tf))) t o tl ->
  [&& Z.ltb 5000000000 (Z.sub t o), Z.ltb (Z.add o 5000000000) tmax & Z.leb tl0 mid] ->
  (let h' := hb_insert t I (List.map (fun t => (t, I)) th) in
   let b' := hb_insert t (Bel I I t false false true) (List.map (fun t => (t, Bel I I t false false true)) tb) in
   let f1 := hb_insert mid I (List.map (fun t => (t, I)) tf) in
   [/\ middle 5000000000 o h' = mid, get_latest (List.map (fun t => (t, I)) tf) = Some (tl0, I),
     exist_at_t tl0 h' && available tl0 mid h', get_latest_t f1 = Some tl &
   CInst (Inst true (rtrim 10000000000 t b') [:: (1%nat, rtrim 10000000000 tl f1)]) (trimmed (Z.mul 2 5000000000) t h') = y]) ->
  run (st tb tf th) (goI ta t) = Ok (y, true).
Proof.
rewrite /pre => /andP [/negbTE P1 /andP [P2 /andP [P3 /andP [P4 /andP [/is_some P5 /andP [/is_some P6 /andP [/is_some P7 /andP [P8 /is_some P9]]]]]]]].
move=> /andP [/Z.ltb_lt L1 /andP [/Z.ltb_lt L2 /Z.leb_le L3]] /= [E1 E2 /andP [E3 E4] E5 <-]; rewrite /st /goI.
apply: (@store_ok F junk hor chor 10000000000 5000000000 Nb bound10 Nc bound5 I (Bel I I 0 false false true)) => //.
- exact: dimI.
- rewrite (@cch_mid F chor 5000000000 Nc bound5 I (Bel I I 0 false false true) _ t o P2 P5 P6 P8) // E1.
  by apply: (move_ids EI P2 _ E2) => //; exact: all_ids.
Qed.
Lemma step_throw ta tb tf th t o tl tl0 mid : pre tb tf th [:: tl] t o tl ->
  [&& Z.ltb 5000000000 (Z.sub t o), Z.ltb (Z.add o 5000000000) tmax & Z.leb tl0 mid] ->
  (let h' := hb_insert t I (List.map (fun t => (t, I)) th) in
   [/\ middle 5000000000 o h' = mid, get_latest (List.map (fun t => (t, I)) tf) = Some (tl0, I) & exist_at_t tl0 h' = false]) ->
  run (st tb tf th) (goI ta t) = Abort RTVerificationFailed.
Proof.
rewrite /pre => /andP [/negbTE P1 /andP [P2 /andP [P3 /andP [P4 /andP [/is_some P5 /andP [/is_some P6 /andP [/is_some P7 /andP [P8 _]]]]]]]].
move=> /andP [/Z.ltb_lt L1 /andP [/Z.ltb_lt L2 L3]] /= [E1 E2 E3]; rewrite /st /goI.
apply: (@store_abort F junk hor chor I) => //; first exact: dimI.
by rewrite (@cch_mid F chor 5000000000 Nc bound5 I (Bel I I 0 false false true) _ t o P2 P5 P6 P8) // E1 /= /move_ccf E2 L3 E3.
Qed.
Lemma read_ids tb tf th s tp y : okt th -> get_at_t s (List.map (fun t => (t, I)) tf) = None ->
  get_before_t s (List.map (fun t => (t, I)) tf) = Some (tp, I) -> available tp s (List.map (fun t => (t, I)) th) ->
  CInst (Inst true (List.map (fun t => (t, Bel I I t false false true)) tb) [:: (1%nat, hb_insert s I (List.map (fun t => (t, I)) tf))])
        (List.map (fun t => (t, I)) th) = y ->
  run (st tb tf th) (Read F 1 s) = Ok (y, true).
Proof.
move=> O G GB A <-; rewrite /cexec /corr_get_ccf /= G GB.
have O' : okt (List.map fst (List.map (fun t => (t, I)) th)) by rewrite map_fst_ids.
have [S _] := okt_sorted O'.
have H e : List.In e (List.map (fun t => (t, I)) th) -> e.2 = I by elim: th {O O' A S} => //= a l IH [<-|/IH].
by rewrite (cc_ids EI S H A) /= EI /= dmul_ok mul1mx.
Qed.
End Steps.

Lemma crun_cons x c r x1 b1 : cexec junk hor chor c x = Ok (x1, b1) ->
  crun junk hor chor x (c :: r) = let! (x2, bs) := crun junk hor chor x1 r in Ok (x2, b1 :: bs).
Proof. by move=> E; cbn [crun]; rewrite E. Qed.
Lemma crun_stop x c r e : cexec junk hor chor c x = Abort e -> crun junk hor chor x (c :: r) = Abort e.
Proof. by move=> E; cbn [crun]; rewrite E. Qed.
Ltac no o tl y := apply: (@step_no _ _ _ _ _ _ _ o tl y); [by [] | by vm_compute | by vm_compute | by vm_compute].
Ltac mid m o tl tl0 y := apply: (@step_mid _ _ _ _ _ _ _ o tl tl0 y m); [by [] | by vm_compute | by vm_compute | split; by vm_compute].

(** steps of at most 2.6 s (a quarter of the horizon is 2.5 s): the sixth propagation throws *)
Theorem C37_longer_steps_throw :
  crun junk hor chor begin [:: go 0 2450000000; go 2450000000 5010000000; go 5010000000 7500000000; go 7500000000 10000000000;
    go 10000000000 12600000000; go 12600000000 13000000000] = Abort RTVerificationFailed /\
  exists x, crun junk hor chor begin [:: go 0 2450000000; go 2450000000 5010000000; go 5010000000 7500000000; go 7500000000 10000000000;
    go 10000000000 12600000000] = Ok (x, [:: true; true; true; true; true]).
Proof.
have EI : one = one by []; move: {1}one EI (erefl one) => I EI.
rewrite -[begin]/(st one [:: 0] [:: 0] [:: 0]) /go /bel1 -EI => _.
rewrite -!/(goI I _ _).
have E1 : cexec junk hor chor (goI I 0 2450000000) (st I [:: 0] [:: 0] [:: 0]) = Ok (st I [:: 0; 2450000000] [:: 0] [:: 0; 2450000000], true).
  no 0 0 (st I [:: 0; 2450000000] [:: 0] [:: 0; 2450000000]).
pose T3 := [:: 0; 2450000000; 5010000000]; pose f := [:: 0; 2450000000].
have E2 : cexec junk hor chor (goI I 2450000000 5010000000) (st I [:: 0; 2450000000] [:: 0] [:: 0; 2450000000]) = Ok (st I T3 f T3, true).
  mid 2450000000 0 2450000000 0 (st I T3 f T3).
pose T4 := [:: 0; 2450000000; 5010000000; 7500000000].
have E3 : cexec junk hor chor (goI I 5010000000 7500000000) (st I T3 f T3) = Ok (st I T4 f T4, true).
  mid 2450000000 0 2450000000 2450000000 (st I T4 f T4).
pose T5 := [:: 0; 2450000000; 5010000000; 7500000000; 10000000000].
have E4 : cexec junk hor chor (goI I 7500000000 10000000000) (st I T4 f T4) = Ok (st I T5 f T5, true).
  mid 2450000000 0 2450000000 2450000000 (st I T5 f T5).
pose T6 := [:: 5010000000; 7500000000; 10000000000; 12600000000].
have E5 : cexec junk hor chor (goI I 10000000000 12600000000) (st I T5 f T5) = Ok (st I T6 f T6, true).
  mid 2450000000 0 2450000000 2450000000 (st I T6 f T6).
have E6 : cexec junk hor chor (goI I 12600000000 13000000000) (st I T6 f T6) = Abort RTVerificationFailed.
  by apply: (@step_throw _ _ _ _ _ _ _ 5010000000 0 2450000000 10000000000); [|vm_compute|vm_compute|split; vm_compute].
split; last first.
  by exists (st I T6 f T6); do 4! (rewrite (crun_cons _ E1) || rewrite (crun_cons _ E2) || rewrite (crun_cons _ E3) || rewrite (crun_cons _ E4)); rewrite (crun_cons _ E5).
by rewrite (crun_cons _ E1) (crun_cons _ E2) (crun_cons _ E3) (crun_cons _ E4) (crun_cons _ E5) (crun_stop _ E6).
Qed.
(** reading a factor at a time without a correction term: a later propagation throws, without the read it does not *)
Theorem C37_read_between_throws :
  crun junk hor chor begin [:: go 0 2000000000; Read F 1 1000000000; go 2000000000 4000000000; go 4000000000 6000000000] = Abort RTVerificationFailed /\
  exists x, crun junk hor chor begin [:: go 0 2000000000; go 2000000000 4000000000; go 4000000000 6000000000] = Ok (x, [:: true; true; true]).
Proof.
have EI : one = one by []; move: {1}one EI (erefl one) => I EI.
rewrite -[begin]/(st one [:: 0] [:: 0] [:: 0]) /go /bel1 -EI => _.
rewrite -!/(goI I _ _).
have E1 : cexec junk hor chor (goI I 0 2000000000) (st I [:: 0] [:: 0] [:: 0]) = Ok (st I [:: 0; 2000000000] [:: 0] [:: 0; 2000000000], true).
  no 0 0 (st I [:: 0; 2000000000] [:: 0] [:: 0; 2000000000]).
pose T2 := [:: 0; 2000000000]; pose T3 := [:: 0; 2000000000; 4000000000]; pose T4 := [:: 0; 2000000000; 4000000000; 6000000000].
have ER : cexec junk hor chor (Read F 1 1000000000) (st I T2 [:: 0] T2) = Ok (st I T2 [:: 0; 1000000000] T2, true).
  by apply: (@read_ids _ _ _ _ _ _ 0); [|vm_compute|vm_compute|vm_compute|vm_compute|vm_compute].
have E2 : cexec junk hor chor (goI I 2000000000 4000000000) (st I T2 [:: 0; 1000000000] T2) = Ok (st I T3 [:: 0; 1000000000] T3, true).
  no 0 1000000000 (st I T3 [:: 0; 1000000000] T3).
have E3 : cexec junk hor chor (goI I 4000000000 6000000000) (st I T3 [:: 0; 1000000000] T3) = Abort RTVerificationFailed.
  by apply: (@step_throw _ _ _ _ _ _ _ 0 0 1000000000 4000000000); [|vm_compute|vm_compute|split; vm_compute].
have E2' : cexec junk hor chor (goI I 2000000000 4000000000) (st I T2 [:: 0] T2) = Ok (st I T3 [:: 0] T3, true).
  no 0 0 (st I T3 [:: 0] T3).
have E3' : cexec junk hor chor (goI I 4000000000 6000000000) (st I T3 [:: 0] T3) = Ok (st I T4 [:: 0; 4000000000] T4, true).
  mid 4000000000 0 4000000000 0 (st I T4 [:: 0; 4000000000] T4).
split; first by rewrite (crun_cons _ E1) (crun_cons _ ER) (crun_cons _ E2) (crun_stop _ E3).
by exists (st I T4 [:: 0; 4000000000] T4); rewrite (crun_cons _ E1) (crun_cons _ E2') (crun_cons _ E3').
Qed.
End Cases.

(** concrete cases meeting the hypotheses *)
Section Examples.
Notation F := rat_realFieldType.
Notation one := (one F).
Example C37_horizons : h_near (d_of_Z 10) 10000000000 /\ h_near (d_of_Z 10) (Z.mul 2 5000000000).
Proof. by split; apply: (near_int 10). Qed.
Definition Phi2 : 'M[F]_1 := (2%:R)%:M%R.
(** 2 s steps, a quarter of the horizon being 2.5 s: propagate with Phi = 2, then read *)
Example C37_example (junk : forall n, 'M[F]_n -> 'M[F]_n) :
  regular 1 2000000000 (Z.mul 2 5000000000) 0 (c_hist (begin F)) /\ start 1 0 (c_inst (begin F)) /\
  (0 < 2000000000 /\ Z.mul 2 2000000000 <= 5000000000) /\
  exists i, forward junk (d_of_Z 10) 1 2000000000 (Z.mul 2 5000000000) (c_inst (begin F)) 0
    [:: (Local (CStore (bel1 F) (DM Phi2) 0 2000000000), true); (Read F 1 2000000000, true)] i 2000000000 /\
    ccf_at 1 2000000000 i = Some (DM Phi2).
Proof.
split; first split=> //=.
- by repeat constructor.
- by move=> e [<-|].
- by move=> e [<-|] //=; rewrite /tmax; lia.
- by move=> e [<-|] //=; lia.
- by move=> e [<-|] //=; lia.
split; first split=> //=.
- split; first by repeat constructor.
  by move=> e [<-|] //=; rewrite /tmax; lia.
- move=> j b [[_ <-]|] //; split; first by repeat constructor.
  split; first by move=> e [<-|] //=; rewrite /tmax; lia.
  by split=> // e [<-|].
split=> //.
pose i1 : inst (belief F) (dmat F) := Inst true [:: (0, bel1 F); (2000000000, bel_set_t 2000000000 (bel1 F))]
  [:: (1%nat, [:: (0, one); (2000000000, DM Phi2)])].
have E : lexec junk (d_of_Z 10) (CStore (bel1 F) (DM Phi2) 0 2000000000) (c_inst (begin F)) = Ok (i1, true).
  rewrite /lexec /iso_propagate_store /kf_propagate_store [check_dim_phi _ _]/=.
  by rewrite /iso_factors /= dmul_ok /= mulmx1 /iso_check_horizon.
exists i1; split=> //.
have FW := F_prop (F_start junk (d_of_Z 10) 1 2000000000 (Z.mul 2 5000000000) (c_inst (begin F)) 0)
  (t' := 2000000000) (Phi := Phi2) (c := CStore (bel1 F) (DM Phi2) 0 2000000000).
have {}FW := FW _ _ (erefl _) (Z.le_refl _) (erefl _) (or_intror (or_intror (ex_intro _ _ (erefl _)))) E.
by have := F_read (j := 1%nat) (s := 2000000000) FW; apply.
Qed.
(** two non-commuting terms *)
Definition P : 'M[F]_2 := (\matrix_(i < 2, j < 2) (if (i == 0%N :> nat) && (j == 1%N :> nat) then 1 else 0))%R.
Example C36_example : ssorted [:: (1, DM P); (2, DM (P^T)%R)] /\ square 2 [:: (1, DM P); (2, DM (P^T)%R)] /\
  compute_correction 0 2 [:: (1, DM P); (2, DM (P^T)%R)] = Ok (DM ((P^T *m P))%R) /\ (P^T *m P)%R <> (P *m P^T)%R.
Proof.
have S : ssorted [:: (1, DM P); (2, DM (P^T)%R)] by repeat constructor.
have Q : square 2 [:: (1, DM P); (2, DM (P^T)%R)] by move=> e [<-|[<-|[]]].
split=> //; split=> //; split.
  rewrite (compute_correctionE 0 2 S Q) [available _ _ _]/= /product /=.
  by rewrite !mx_of_DM mul1mx.
move=> /matrixP /(_ ord0 ord0); rewrite !mxE !big_ord_recl !big_ord0 !mxE /=.
by vm_compute.
Qed.
End Examples.
Print Assumptions C37_read_exact.
Print Assumptions C37_longer_steps_throw.
Print Assumptions C37_read_between_throws.
