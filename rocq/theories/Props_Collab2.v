(** C79: the inter-agent observation of the collaborative handler. *)
From Coq Require Import ZArith List Bool Arith Lia.
From mathcomp Require Import all_ssreflect all_algebra.
From Verif Require Import Outcome DoubleModel BufModel BufProofs HorizonModel HorizonProofs MeasModel HandlerModel Spec_Handler DMat KFModel Spec_Mat KFProofs BeliefModel EigenModel EigenProofs IsoModel IsoProofs Spec_Joint JointProofs Props_Joint Props_Joint2 IsoTrace DPModel Spec_DP DPProofs HObsModel HObsProofs Props_HObs AgentModel AgentProofs Props_Agent Props_DCI CollabModel CollabProofs.
Set Implicit Arguments. Unset Strict Implicit. Unset Printing Implicit Defensive.
Import Order.Theory GRing.Theory Num.Theory.
Local Open Scope outcome_scope.
Local Open Scope ring_scope.

Section C79.
Variable F : realFieldType.
Variable junk : forall n, 'M[F]_n -> 'M[F]_n.
Notation dmat := (dmat F).
Notation belief := (belief F).
Notation dict := (dict belief dmat).
Notation inst := (inst belief dmat).
Notation bels := (list (nat * belief)).
Notation fccs := (list (nat * list (nat * dmat))).
Notation keys m := (List.map fst m).
Variable is_psd : dmat -> bool.
Variable nearest : dmat -> dmat.
Variable predict : nat -> Z -> inst -> outcome (inst * bool).
Variable eps0 : F.
Hypothesis nearest_dims : forall n (A : 'M[F]_n), exists B : 'M[F]_n, nearest (DM A) = DM B.
Notation measfun := (bels -> list nat -> dmat -> list (nat * dmat) * dmat).
Notation remotefun := (list nat -> list nat -> Z -> bool * (bels * fccs)).
Notation ready := (ready is_psd nearest eps0).

(** what a remote agent does with the message (beliefs, factors) for time t: it stores the beliefs and the factors it is sent;
    the other factors of the estimators it got factors for are multiplied by (new covariance)(old covariance)^-1 *)
Record delivered (t : Z) (bels_sent : bels) (facs_sent : fccs) (dr dr' : dict) : Prop := Delivered {
  del_reg : forall id, registered dr id -> registered dr' id;
  del_bel : forall id b, smap_find id bels_sent = Some b -> bel_of dr' id t = Some b;
  del_fac : forall id j X, fget id j facs_sent = Some X -> fac_of dr' id j t = Some X;
  del_other : forall id j, smap_find id facs_sent <> None -> fget id j facs_sent = None ->
    exists b b' iv L, bel_of dr id t = Some b /\ smap_find id bels_sent = Some b' /\ dinv junk (b_Sigma b) = Ok iv /\ dmul (b_Sigma b') iv = Ok L /\
      match fac_of dr id j t with Some X => exists p, dmul L X = Ok p /\ fac_of dr' id j t = Some p | None => fac_of dr' id j t = None end;
  del_rest : forall id j, smap_find id facs_sent = None -> fac_of dr' id j t = fac_of dr id j t
}.

Section Update.
Variables (lI rI : list nat) (lb rb bs : bels) (m : nat) (t : Z) (d dr : dict) (dH : list (nat * dmat)) (keep : nat -> bool).
Hypothesis Ol : observes lI lb t d.
Hypothesis Or : observes rI rb t dr.
Hypothesis Hr : forall i, List.In i rI -> ~ registered d i.
Hypothesis Hl : forall i, List.In i lI -> ~ registered dr i.
Hypothesis Ab : ascending bs.
Hypothesis Hb : forall i, smap_find i bs = if smap_find i lb is Some b then Some b else smap_find i rb.
Notation us := (free bs).
Notation ds := (sizes us).
Notation N := (sumn ds).
Hypothesis P : participants dH us m t (d ++ dr).
Hypothesis two : (1 < List.length us)%N.
Hypothesis keepE : forall i, List.In i lI \/ List.In i rI \/ List.In i (keys us) -> keep i = ina i (keys us).

Lemma not_reg (x : dict) i : ~ registered x i <-> d_find i x = None.
Proof. by rewrite /registered; case: d_find => [a|]; split=> // H; [exfalso; apply: H|move=> K; apply: K]. Qed.
Lemma lI_here i : List.In i lI -> d_find i d <> None.
Proof. by move=> /(o_ids Ol) /List.in_map_iff [[j b] [/= <- /(o_bel Ol)]]; rewrite /bel_of; case: d_find. Qed.
Lemma rI_here i : List.In i rI -> d_find i dr <> None.
Proof. by move=> /(o_ids Or) /List.in_map_iff [[j b] [/= <- /(o_bel Or)]]; rewrite /bel_of; case: d_find. Qed.
Lemma findl i b : smap_find i lb = Some b <-> List.In (i, b) lb.
Proof. split; [exact: find_Some|apply: find_In; exact: asc_nodup (ascending_asc (o_asc Ol))]. Qed.
Lemma findr i b : smap_find i rb = Some b <-> List.In (i, b) rb.
Proof. split; [exact: find_Some|apply: find_In; exact: asc_nodup (ascending_asc (o_asc Or))]. Qed.
Lemma in_bs i b : List.In (i, b) bs -> List.In i lI /\ smap_find i lb = Some b \/ List.In i rI /\ smap_find i lb = None /\ smap_find i rb = Some b.
Proof.
move=> Hin; have := find_In (asc_nodup (ascending_asc Ab)) Hin; rewrite Hb; case E: (smap_find i lb) => [c|] E'; [left|right].
  case: E' => Ec; subst c; by split=> //; apply/(o_ids Ol)/List.in_map_iff; exists (i, b); split=> //; exact/findl.
by split=> //; apply/(o_ids Or)/List.in_map_iff; exists (i, b); split=> //; exact/findr.
Qed.
Lemma us_bs i b : List.In (i, b) us -> List.In (i, b) bs.
Proof. by move=> /List.filter_In []. Qed.
Lemma lr_disj i : List.In i lI -> List.In i rI -> False.
Proof. by move=> /lI_here H /Hr /not_reg. Qed.
Lemma none_of (l : bels) ids i : (forall j, List.In j ids <-> List.In j (keys l)) -> ~ List.In i ids -> smap_find i l = None.
Proof. by move=> H Ni; apply: find_None => /H. Qed.
Lemma bel_union i b : List.In (i, b) bs -> bel_of (d ++ dr) i t = Some b.
Proof.
move=> /in_bs [[Hi /findl Hf]|[Hi [_ /findr Hf]]]; first by rewrite bel_cat; [exact: (o_bel Ol)|exact: lI_here].
by rewrite bel_cat'; [exact: (o_bel Or)|apply/not_reg; exact: Hr].
Qed.
Lemma union_obs : observes (rI ++ lI)%list bs t (d ++ dr).
Proof.
split=> // [i|]; last exact: bel_union.
rewrite List.in_app_iff (o_ids Or) (o_ids Ol); split.
  move=> H; have : smap_find i bs <> None.
    rewrite Hb; case E: (smap_find i lb) => [//|]; case: H => /find_keys [v Ev]; by rewrite Ev in E *.
  by case E: (smap_find i bs) => [b|//] _; apply/List.in_map_iff; exists (i, b); split=> //; exact: find_Some E.
move=> /List.in_map_iff [[j b] [/= -> /in_bs [[/(o_ids Ol) H _]|[/(o_ids Or) H _]]]]; by [right|left].
Qed.
Lemma two_union : two_of (rI ++ lI)%list.
Proof.
have Hin k b : List.nth_error us k = Some b -> List.In (fst b) (rI ++ lI)%list.
  move=> Ek; have Hu := List.nth_error_In _ _ Ek; apply/(o_ids union_obs)/List.in_map_iff; exists b; split=> //; by case: b Hu {Ek} => i c /us_bs.
case E: us two => [|[i bi] [|[j bj] l]] // _.
have /= Hi := Hin 0%N (i, bi); have /= Hj := Hin 1%N (j, bj); rewrite E /= in Hi Hj.
exists i, j; split; first exact: Hi; split; first exact: Hj.
move=> Eij; have := @p_asc _ _ _ _ _ _ P 0%N 1%N i j bi bj; rewrite E /= => /(_ erefl erefl erefl); by rewrite Eij ltnn.
Qed.
Lemma cov_union : exists B : 'M[F]_N, stack_Sigma_locally (unfix bs) (drop_rows bs (c_join (local_fcc lI (rI ++ lI)%list t d) (local_fcc rI (rI ++ lI)%list t dr))) = Ok (DM B) /\
  stacked_cov us t (d ++ dr) B ds.
Proof.
rewrite (join_fcc _ _ _ lI_here) => [|i /Hr /not_reg //].
exact: (local_cov P Ab (o_ids union_obs) (o_bel union_obs) two_union).
Qed.
Lemma sideL i b : List.In (i, b) us -> List.In i lI /\ smap_find i lb <> None \/ List.In i rI /\ d_find i d = None /\ smap_find i lb = None /\ smap_find i rb <> None.
Proof.
move=> /us_bs /in_bs [[H ->]|[H [-> ->]]]; [by left|right; split=> //; split=> //; apply/not_reg; exact: Hr].
Qed.
Lemma sideR i b : List.In (i, b) us -> List.In i rI /\ smap_find i rb <> None \/ List.In i lI /\ d_find i dr = None /\ smap_find i rb = None /\ smap_find i lb <> None.
Proof.
move=> /us_bs /in_bs [[H ->]|[H [_ ->]]]; [right|by left].
split=> //; split; first by apply/not_reg; exact: Hl.
by split=> //; apply: (none_of (o_ids Or)) => /(lr_disj H).
Qed.
Lemma partL : part_ok us t (d ++ dr).
Proof. exact: (part P). Qed.
Lemma partR : part_ok us t (dr ++ d).
Proof.
move=> k id b Ek; have [A [B [C [i [G D]]]]] := partL Ek; split=> //; split=> //; split=> //; exists i; split=> //.
move: G; rewrite !find_cat; case: (sideL (List.nth_error_In _ _ Ek)) => [[H _]|[_ [-> _]]].
  by have /not_reg -> := Hl H; case: d_find (lI_here H).
by case: d_find.
Qed.
Lemma write_union (S : 'M[F]_N) (dx : 'cV[F]_N) : exists d' rb' rf', c_write junk keep (DM S) (DM dx) us lb rb lI rI t d = Ok (d', (rb', rf')) /\
  (forall dr', delivered t rb' rf' dr dr' -> distributed junk us t (d ++ dr) (d' ++ dr') S dx ds) /\ exists dr', delivered t rb' rf' dr dr'.
Proof.
have U : unfixed us = us := unfixed_idem bs.
have AI := asc_idk (p_asc P); have Sq : sq (dims us) (DM S) by [].
have rd i : List.In i rI -> d_find i d = None by move=> /Hr /not_reg.
have ld i : List.In i lI -> d_find i dr = None by move=> /Hl /not_reg.
have kR i : List.In i rI \/ List.In i lI \/ List.In i (keys us) -> keep i = ina i (keys us) by move=> H; apply: keepE; tauto.
have [d' [rb' [mm [EW [ES [K' [Kr' [En [Out [Be [Pm [Om [Fm [Fo Fs]]]]]]]]]]]]]] :=
  @write_spec F junk us lb rb lI rI t d dr keep (DM S) (DM dx) Sq erefl erefl AI U two partL lI_here sideL keepE.
exists d', rb', (c_sent_rows keep rI mm); split; first exact: EW.
have sentE id j : fget id j (c_sent_rows keep rI mm) = if ina id rI && keep id then fget id j mm else None.
  rewrite /fget sent_find; case: (ina id rI && keep id) => //=; by case: (smap_find id mm).
have sentK id : smap_find id (c_sent_rows keep rI mm) <> None <-> List.In id rI /\ List.In id (keys us).
  rewrite sent_find; case: (inaP id rI) => [H|H] /=; last by split=> // -[].
  by rewrite keepE; [case: (inaP id (keys us)) => [H'|H']; split=> // -[]|right; left].
split.
- move=> dr' D.
  have FI id : d_find id d <> None -> d_find id d' <> None by move=> H /(find_keys_eq _ K').
  have FN id : d_find id d = None -> d_find id d' = None by move=> /(find_keys_eq _ K').
  apply: (dist_of P).
  + move=> id j Hn; have Nu : ~ List.In id (keys us) by move=> /us_nth [k [b Ek]]; exact: Hn Ek.
    case G: (d_find id d) => [i|].
      have Gd : d_find id d <> None by rewrite G.
      rewrite (fac_cat _ _ _ Gd) (fac_cat _ _ _ (FI _ Gd)) /fac_of; by have [-> _] := Out _ Nu.
    rewrite (fac_cat' _ _ _ G) (fac_cat' _ _ _ (FN _ G)); apply: (del_rest D).
    by case E: smap_find => [r|//]; exfalso; apply: Nu; apply: (proj2 (proj1 (sentK id) _)); rewrite E.
  + move=> id i; rewrite !find_cat; case G: (d_find id d) => [i'|] E.
      by have [i2 [-> _]] := En _ _ G.
    rewrite (FN _ G); have := del_reg D (id := id); rewrite /registered E => /(_ (fun e => ltac:(discriminate e))); by [].
  + move=> k id b Ek; have [B [v [b' [H1 [H2 [H3 [H4 H5]]]]]]] := Be _ _ _ Ek; exists B, v, b'; split=> //; split=> //; split=> //.
    case G: (d_find id d) => [i|].
      have Gd : d_find id d <> None by rewrite G.
      by rewrite (bel_cat _ _ (FI _ Gd)); have [] := H4 Gd.
    rewrite (bel_cat' _ _ (FN _ G)); apply: (del_bel D); exact: H5.
  + move=> k l ik il bk bl Ek El L; have [B [EB [G1 G2]]] := Pm _ _ _ _ _ _ Ek El L; exists B; split=> //.
    have Ik := in_us Ek; have Il := in_us El.
    have st x y X : List.In x (keys us) -> fget x y mm = Some X -> fac_of (d' ++ dr') x y t = Some X.
      move=> Hx Ex; case G: (d_find x d) => [i|].
        have Gd : d_find x d <> None by rewrite G.
        by rewrite (fac_cat _ _ _ (FI _ Gd)) Fm // Ex.
      rewrite (fac_cat' _ _ _ (FN _ G)); apply: (del_fac D); rewrite sentE.
      have [k' [b' Ek']] := us_nth Hx; case: (sideL (List.nth_error_In _ _ Ek')) => [[H _]|[H _]]; first by case: (lI_here H).
      by rewrite (introT (inaP _ _) H) keepE ?(introT (inaP _ _) Hx) //; right; left.
    by split; apply: st.
  + move=> k id b j Ek Hj.
    have Nf : fget id j mm = None.
      case E: fget => [X|//]; exfalso; have [_ [/us_nth [l [bl El]] Ne]] : List.In id (keys us) /\ List.In j (keys us) /\ id <> j by apply: Om; rewrite E.
      by apply: Ne; rewrite (Hj _ _ El).
    case G: (d_find id d) => [i|].
      have Gd : d_find id d <> None by rewrite G.
      have [L [HL Q]] := Fo _ _ _ _ Ek Gd Nf; exists L; split=> //.
      by rewrite (fac_cat _ _ _ Gd) (fac_cat _ _ _ (FI _ Gd)).
    have Hrow : smap_find id (c_sent_rows keep rI mm) <> None.
      apply/sentK; split; last exact: in_us Ek.
      by case: (sideL (List.nth_error_In _ _ Ek)) => [[H _]|[H _]] //; case: (lI_here H).
    have Nf' : fget id j (c_sent_rows keep rI mm) = None by rewrite sentE Nf; case: ifP.
    have [b0 [b' [iv [L [B0 [B1 [EI [EL Q]]]]]]]] := del_other D Hrow Nf'.
    have [B [v [b2 [H1 [H2 [H3 [_ H5]]]]]]] := Be _ _ _ Ek.
    move: B1; rewrite (H5 G) => -[E2]; subst b2.
    have E0 : b0 = b.
      have := bel_union (us_bs (List.nth_error_In _ _ Ek)); rewrite (bel_cat' _ _ G) B0; by case.
    subst b0; exists L; split; last by rewrite (fac_cat' _ _ _ G) (fac_cat' _ _ _ (FN _ G)).
    exists B, iv; split=> //; split=> //; move: H3; rewrite /bel_correct /bel_correct_mean; case: dadd => //= mm' [E3].
    by rewrite -E3 in EL.
- have [dr' [lb' [m2 [_ [ES2 [K2 [_ [En2 [Out2 [Be2 [_ [_ [Fm2 [Fo2 _]]]]]]]]]]]]]] :=
    @write_spec F junk us rb lb rI lI t dr d keep (DM S) (DM dx) Sq erefl erefl AI U two partR rI_here sideR kR.
  have Em : m2 = mm by move: ES2; rewrite ES => -[].
  subst m2; exists dr'; split.
  + by move=> id; rewrite /registered => H /(find_keys_eq _ K2).
  + move=> id b Eb; case: (List.in_dec Nat.eq_dec id (keys us)) => [/us_nth [k [b0 Ek]]|Nu].
      have Hrb : smap_find id rb <> None.
        by have : List.In id (keys rb'); [apply/List.in_map_iff; exists (id, b); split=> //; exact: find_Some Eb|rewrite Kr' => /find_keys [v ->]].
      have Gr : d_find id dr <> None.
        by case E: (smap_find id rb) Hrb => [v|//] _; apply: rI_here; apply/(o_ids Or)/List.in_map_iff; exists (id, v); split=> //; exact/findr.
      have G : d_find id d = None.
        apply: rd; case E: (smap_find id rb) Hrb => [v|//] _; apply/(o_ids Or)/List.in_map_iff; exists (id, v); split=> //; exact/findr.
      have [B [v [b' [H1 [H2 [H3 [_ H5]]]]]]] := Be _ _ _ Ek; have [B2 [v2 [b2 [I1 [I2 [I3 [I4 _]]]]]]] := Be2 _ _ _ Ek.
      move: I1; rewrite H1 => -[E1]; subst B2; move: I2; rewrite H2 => -[E2]; subst v2; move: I3; rewrite H3 => -[E3]; subst b2.
      by have [-> _] := I4 Gr; rewrite -(H5 G).
    have [Ed _] := Out2 _ Nu; have [_ Er] := Out _ Nu; rewrite Er in Eb.
    by rewrite /bel_of Ed; exact: (o_bel Or) (proj1 (findr _ _) Eb).
  + move=> id j X; rewrite sentE; case: (inaP id rI) => //= H; case: ifP => // Hk E.
    rewrite keepE in Hk; last by right; left.
    have Hu := elimT (inaP _ _) Hk; rewrite -E; apply: Fm2 => //; [exact: rI_here|by rewrite E].
  + move=> id j /sentK [HrI Hu]; have [k [b Ek]] := us_nth Hu.
    rewrite sentE (introT (inaP _ _) HrI) keepE; last by right; left.
    rewrite (introT (inaP _ _) Hu) /= => Nf.
    have Gr := rI_here HrI; have [L [[B [iv [H1 [H2 H3]]]] Q]] := Fo2 _ _ _ _ Ek Gr Nf.
    have [B' [v [b' [J1 [J2 [J3 [_ J5]]]]]]] := Be _ _ _ Ek; have G := rd _ HrI.
    move: J1; rewrite H1 => -[E1]; subst B'.
    exists b, b', iv, L; split; first by have := bel_union (us_bs (List.nth_error_In _ _ Ek)); rewrite (bel_cat' _ _ G).
    split; first exact: J5.
    split=> //; split=> //; move: J3; rewrite /bel_correct /bel_correct_mean; case: dadd => //= mm' [<-]; exact: H3.
  + move=> id j Hn; case: (List.in_dec Nat.eq_dec id (keys us)) => [Hu|Nu]; last by rewrite /fac_of; have [-> _] := Out2 _ Nu.
    have [k [b Ek]] := us_nth Hu; case: (sideR (List.nth_error_In _ _ Ek)) => [[H _]|[_ [G _]]].
      by have := proj2 (sentK id) (conj H Hu).
    by rewrite /fac_of G; have /(find_keys_eq _ K2) -> := G.
Qed.
Lemma update_union (Hs : 'M[F]_(m, N)) (R : 'M[F]_m) (r : 'cV[F]_m) (Ps : 'M[F]_N) cfg fcc : symmetric Ps -> stack_Sigma_locally us fcc = Ok (DM Ps) ->
  match correction_step junk (DM Hs) (DM R) (DM r) (ready Ps) cfg with
  | Ok res => if rejected res then c_update junk is_psd nearest eps0 keep (DM Hs) (DM R) (DM r) us lb rb fcc lI rI t cfg d = Ok (d, None) else
      exists (S : 'M[F]_N) (dx : 'cV[F]_N) d' bels_sent facs_sent, DM S = (if is_psd (Sigma_apos res) then Sigma_apos res else nearest (Sigma_apos res)) /\
        DM dx = delta_mean res /\ c_update junk is_psd nearest eps0 keep (DM Hs) (DM R) (DM r) us lb rb fcc lI rI t cfg d = Ok (d', Some (bels_sent, facs_sent)) /\
        (forall dr', delivered t bels_sent facs_sent dr dr' -> distributed junk us t (d ++ dr) (d' ++ dr') S dx ds) /\
        (exists dr', delivered t bels_sent facs_sent dr dr')
  | Abort e => c_update junk is_psd nearest eps0 keep (DM Hs) (DM R) (DM r) us lb rb fcc lI rI t cfg d = Abort e
  | UB e => c_update junk is_psd nearest eps0 keep (DM Hs) (DM R) (DM r) us lb rb fcc lI rI t cfg d = UB e
  end.
Proof.
move=> sP ES; rewrite /c_update ES; cbn [obind]; rewrite (ready_ok is_psd nearest eps0 sP); cbn [obind].
have [Qi ->] := @ready_dims F is_psd nearest eps0 nearest_dims _ Ps; rewrite correction_step_ok.
case: (step_gate _ _ _ _ _ _) => [rej|e|e] //=; case: rej => //=.
set Sf := step_final _ _ _ _ _.
have [S ->] : exists S : 'M[F]_N, (if is_psd (DM Sf) then DM Sf else nearest (DM Sf)) = DM S by case: ifP => _; [eexists|exact: nearest_dims].
set dx : 'cV[F]_N := _ *m _.
have [d' [rb' [rf' [EW [D1 D2]]]]] := write_union S dx.
by exists S, dx, d', rb', rf'; rewrite EW.
Qed.
End Update.

(** ** The measurement-function version.  [d]: the registry of the agent that runs the update; [dr]: the other agent's, whose
    reply is what its own collecting of beliefs and factors yields.  No estimator is registered at both. *)
Definition fused_by (us : bels) t (d dr : dict) m N (Hs : 'M[F]_(m, N)) (Ps : 'M[F]_N) (R : 'M[F]_m) (r : 'cV[F]_m) cfg T
    (seen : outcome (dict * option (bels * fccs) * T)) (rejects : T) (done : bels -> fccs -> T) : Prop :=
  match correction_step junk (DM Hs) (DM R) (DM r) (ready Ps) cfg with
  | Ok res => if rejected res then seen = Ok (d, None, rejects) else
      exists (S : 'M[F]_N) (dx : 'cV[F]_N) d' bels_sent facs_sent, DM S = (if is_psd (Sigma_apos res) then Sigma_apos res else nearest (Sigma_apos res)) /\
        DM dx = delta_mean res /\ seen = Ok (d', Some (bels_sent, facs_sent), done bels_sent facs_sent) /\
        (* once the other agent has done its part, both registries together show the centralized posterior *)
        (forall dr', delivered t bels_sent facs_sent dr dr' -> distributed junk us t (d ++ dr) (d' ++ dr') S dx (sizes us)) /\
        (exists dr', delivered t bels_sent facs_sent dr dr')
  | Abort e => seen = Abort e
  | UB e => seen = UB e
  end.
Lemma keptE (bs : bels) i : ascending bs -> kept (free bs) i = ina i (keys (free bs)).
Proof.
move=> A; rewrite /kept; have Au : asc (free bs) by apply: asc_filter; exact: ascending_asc.
case E: smap_find => [b|].
  have Hin := find_Some E; have [_ ->] := proj1 (List.filter_In _ _ _) Hin; apply/esym/inaP/List.in_map_iff; by exists (i, b).
by apply/esym/negP => /inaP /find_keys [v]; rewrite E.
Qed.
Lemma join_ok (lI rI : list nat) (lb rb bs : bels) t (d dr : dict) : observes lI lb t d -> observes rI rb t dr -> ascending bs ->
  (forall i, smap_find i bs = if smap_find i lb is Some b then Some b else smap_find i rb) -> c_join lb rb = bs.
Proof.
move=> Ol Or Ab Hb; have [Aj Fj] := join_find rb (ascending_asc (o_asc Ol)).
by apply: asc_unique => // [|k]; [exact: ascending_asc|rewrite Fj Hb].
Qed.
Theorem C79_fusion : forall (h : measfun) (remote : remotefun) accepts IDs remote_IDs local_IDs lb rb all_bels m t (d dr : dict) dHf z (R : 'M[F]_m) (r : 'cV[F]_m) cfg,
  observes local_IDs lb t d -> observes remote_IDs rb t dr ->
  (forall i, List.In i remote_IDs -> ~ registered d i) -> (forall i, List.In i local_IDs -> ~ registered dr i) ->
  remote remote_IDs (remote_IDs ++ local_IDs)%list t = (true, (rb, local_fcc remote_IDs (remote_IDs ++ local_IDs)%list t dr)) ->
  (* h sees the beliefs of both agents *)
  ascending all_bels -> (forall i, smap_find i all_bels = if smap_find i lb is Some b then Some b else smap_find i rb) ->
  h all_bels IDs z = (dHf, DM r) ->
  participants (of_free all_bels dHf) (free all_bels) m t (d ++ dr) -> (1 < List.length (free all_bels))%N ->
  lb <> nil -> rb <> nil ->
  exists (Hs : 'M[F]_(m, sumn (sizes (free all_bels)))) (Ps : 'M[F]_(sumn (sizes (free all_bels)))),
  stacked_H (of_free all_bels dHf) Hs (sizes (free all_bels)) /\ stacked_cov (free all_bels) t (d ++ dr) Ps (sizes (free all_bels)) /\
  fused_by (free all_bels) t d dr Hs Ps R r cfg
    (c_observation junk is_psd nearest predict eps0 remote accepts h (DM R) z t IDs cfg remote_IDs local_IDs d)
    (ObsRes REJECTED (Some (DM r)))
    (fun bels_sent facs_sent => if accepts t bels_sent facs_sent then ObsRes PROCESSED (Some (DM r)) else ObsRes OUTOFORDER None).
Proof.
move=> h remote accepts IDs rI lI lb rb bs m t d dr dHf z R r cfg Ol Or Hr Hl Er Ab Hb Eh P two Nl Nr.
have [Hs [EH SH]] := H_ok P.
have [Ps [EP SP]] := @cov_union lI rI lb rb bs m t d dr _ Ol Or Hr Ab Hb P two.
exists Hs, Ps; split=> //; split=> //.
rewrite /c_observation /get_local (local_any predict (ascending_asc (o_asc Ol)) (o_ids Ol) (o_bel Ol)); cbn [obind].
have -> : forall X (a b : X), (if lb is nil then a else b) = b by move=> X a b; case: (lb) Nl.
rewrite Er /=; have -> : forall X (a b : X), (if rb is nil then a else b) = b by move=> X a b; case: (rb) Nr.
rewrite (join_ok Ol Or Ab Hb) Eh drop_fixedE -/(of_free bs dHf) EH; cbn [obind]; rewrite -[unfix bs]/(free bs).
have kE i : List.In i lI \/ List.In i rI \/ List.In i (keys (free bs)) -> kept (free bs) i = ina i (keys (free bs)) by move=> _; exact: keptE.
have := @update_union lI rI lb rb bs m t d dr _ (kept (free bs)) Ol Or Hr Hl Ab Hb P two kE Hs R r Ps cfg _ (proj1 SP) EP.
rewrite /fused_by; case: correction_step => [res|e|e] /=.
- case: rejected => [->//|[S [dx [d' [bs' [fs' [E1 [E2 [-> E4]]]]]]]]]; exists S, dx, d', bs', fs'; split=> //; split=> //; split=> //=; by case: (accepts _ _ _).
- by move=> ->.
- by move=> ->.
Qed.
(** ** The version with given measurement matrices: the same, if no participant is fixed; but a rejected correction also returns true *)
Theorem C79_fusion_matrices : forall (remote : remotefun) accepts remote_IDs local_IDs lb rb all_bels m t (d dr : dict) dH (R : 'M[F]_m) (r : 'cV[F]_m) cfg,
  observes local_IDs lb t d -> observes remote_IDs rb t dr ->
  (forall i, List.In i remote_IDs -> ~ registered d i) -> (forall i, List.In i local_IDs -> ~ registered dr i) ->
  remote remote_IDs (remote_IDs ++ local_IDs)%list t = (true, (rb, local_fcc remote_IDs (remote_IDs ++ local_IDs)%list t dr)) ->
  ascending all_bels -> (forall i, smap_find i all_bels = if smap_find i lb is Some b then Some b else smap_find i rb) ->
  participants dH all_bels m t (d ++ dr) -> lb <> nil -> rb <> nil ->
  exists (Hs : 'M[F]_(m, sumn (sizes all_bels))) (Ps : 'M[F]_(sumn (sizes all_bels))),
  stacked_H dH Hs (sizes all_bels) /\ stacked_cov all_bels t (d ++ dr) Ps (sizes all_bels) /\
  fused_by all_bels t d dr Hs Ps R r cfg
    (c_observation_H junk is_psd nearest predict eps0 remote accepts dH (DM R) (DM r) t cfg remote_IDs local_IDs d)
    true (fun bels_sent facs_sent => accepts t bels_sent facs_sent).
Proof.
move=> remote accepts rI lI lb rb bs m t d dr dH R r cfg Ol Or Hr Hl Er Ab Hb P Nl Nr.
have Fb : free bs = bs := free_all P.
have two : (1 < List.length bs)%N.
  have Il i : List.In i (keys lb) -> List.In i (keys bs).
    by move=> /find_keys [v Ev]; apply/List.in_map_iff; exists (i, v); split=> //; apply: find_Some; rewrite Hb Ev.
  have Ir i : List.In i (keys rb) -> List.In i (keys bs).
    move=> /find_keys [v Ev]; have : smap_find i bs <> None by rewrite Hb; case: smap_find => //; rewrite Ev.
    by case E: smap_find => [w|//] _; apply/List.in_map_iff; exists (i, w); split=> //; exact: find_Some E.
  case: lb Nl Ol Il {Hb} => [//|[i bi] lb'] _ Ol Il; case: rb Nr Or Ir {Er} => [//|[j bj] rb'] _ Or Ir.
  have Hi := Il i (or_introl erefl); have Hj := Ir j (or_introl erefl).
  have Ne : i <> j.
    move=> E; subst j; have HlI : List.In i lI by apply/(o_ids Ol); left.
    have HrI : List.In i rI by apply/(o_ids Or); left.
    by apply: (Hr _ HrI); exact: (lI_here Ol HlI).
  case: (bs) Hi Hj => [//|x [|y l]] //= [Ei|//] [Ej|//]; by case: Ne; rewrite -Ei -Ej.
have Dr (fc : fccs) : drop_rows bs fc = fc.
  rewrite drop_rowsE; have -> : List.filter (fun e : nat * list (nat * dmat) => ~~ List.existsb (fun e' : nat * belief => b_fixed (snd e') && (fst e' =? fst e)%nat) bs) fc = List.filter (fun _ => true) fc.
    apply: List.filter_ext => e; apply/negP => /List.existsb_exists [[j b] [Hin /andP [/= Fb' _]]].
    by have [] := p_bel P Hin; rewrite Fb'.
  by elim: fc => [//|a l /= ->].
have U := union_obs Ol Or Hr Ab Hb.
have Ej : c_join lb rb = free bs by rewrite Fb; exact: join_ok Ol Or Ab Hb.
suff G : exists (Hs : 'M[F]_(m, sumn (sizes (free bs)))) (Ps : 'M[F]_(sumn (sizes (free bs)))),
  stacked_H dH Hs (sizes (free bs)) /\ stacked_cov (free bs) t (d ++ dr) Ps (sizes (free bs)) /\
  fused_by (free bs) t d dr Hs Ps R r cfg (c_observation_H junk is_psd nearest predict eps0 remote accepts dH (DM R) (DM r) t cfg rI lI d)
    true (fun bels_sent facs_sent => accepts t bels_sent facs_sent) by rewrite Fb in G.
have kE i : List.In i lI \/ List.In i rI \/ List.In i (keys (free bs)) -> true = ina i (keys (free bs)).
  rewrite Fb => H; apply/esym/inaP; case: H => [H|[H|//]]; apply/(o_ids U); apply/List.in_app_iff; by [right|left].
rewrite -Fb in P two; have [Hs [EH SH]] := H_ok P.
have [Ps [EP SP]] := @cov_union lI rI lb rb bs m t d dr _ Ol Or Hr Ab Hb P two; rewrite Dr in EP.
exists Hs, Ps; split=> //; split=> //.
rewrite /c_observation_H EH; cbn [obind]; rewrite /get_local (local_any predict (ascending_asc (o_asc Ol)) (o_ids Ol) (o_bel Ol)); cbn [obind].
have -> : forall X (a b : X), (if lb is nil then a else b) = b by move=> X a b; case: (lb) Nl.
rewrite Er /=; have -> : forall X (a b : X), (if rb is nil then a else b) = b by move=> X a b; case: (rb) Nr.
rewrite Ej.
have := @update_union lI rI lb rb bs m t d dr _ (fun _ => true) Ol Or Hr Hl Ab Hb P two kE Hs R r Ps cfg _ (proj1 SP) EP.
rewrite /fused_by; case: correction_step => [res|e|e] /=.
- case: rejected => [->//|[S [dx [d' [bs' [fs' [E1 [E2 [-> E4]]]]]]]]]; by exists S, dx, d', bs', fs'.
- by move=> ->.
- by move=> ->.
Qed.

(** ** Whatever the measurement function and the other agent answer: only entries at t of the local participants and of
    estimators the other agent reported change, and only if the correction was applied (a message was produced) *)
Lemma near_c_write keep Sg dx bs lb rb lI rI t (d d' : dict) ms ids : c_write junk keep Sg dx bs lb rb lI rI t d = Ok (d', ms) ->
  List.incl (keys bs) ids -> List.incl lI ids -> near t ids d d'.
Proof.
rewrite /c_write => E HB HL; have {E} [d1 [E1 E]] := bind_ok E; have {E} [mm [_ E]] := bind_ok E; have {E} [d2 [E2 E]] := bind_ok E.
have {E} [[d3 rb'] [E3 E]] := bind_ok E; case: E => Ed _; subst d3.
have N1 : near t ids d d1.
  move: E1; rewrite /c_corrections; case E: ofold => [[d0 r]|x|x] //= [<-].
  apply: (near_fold (s := (d, 0%N)) (s' := (d0, r)) _ E) => [[x r1] e [x' r2] Hin] /=.
  case: dblock => //= A; case: ifP => _ /=; last by case=> <- _; exact: near_refl.
  case M: mod_inst => [d3|y|y] //= [<- _].
  apply: (near_mod _ M); first by apply: HB; apply: List.in_map.
  by move=> i i'; rewrite /ccf_correct; case: dinv => //= iv; case: dmul => //= L; case Ec: ccf_scale => [c|y|y] //= [<-]; exact: (sbt_scale Ec).
have N2 : near t ids d1 d2.
  have G : forall l d1 d2, List.incl l ids -> c_store_rows keep l mm t d1 = Ok d2 -> near t ids d1 d2; last exact: G E2.
  elim=> [|a l IH] x y Hi /=; rewrite /c_store_rows /=; first by case=> <-; exact: near_refl.
  have Hi' : List.incl l ids by move=> z Hz; apply: Hi; right.
  case: (keep a) => /=; last exact: IH.
  case: (smap_find a mm) => [row|//]; case Er: ofold => [x1|e|e] //= E; apply: (near_trans _ (IH _ _ Hi' E)).
  have Ha : List.In a ids by apply: Hi; left.
  elim: row x Er => [|e row IHr] x /=; first by case=> <-; exact: near_refl.
  case: (keep (fst e)) => /=; last exact: IHr.
  case M: mod_inst => [x2|y2|y2] //= /IHr N; apply: near_trans N; apply: (near_mod Ha M) => i i' [<-]; exact: sbt_set.
have N3 : near t ids d2 d'.
  move: E3; rewrite /c_correct; case E: ofold => [[[d0 rb0] r]|x|x] //= [Ed _]; subst d0.
  have G : forall l d0 rb0 r0 d1 rb1 r1, List.incl l bs -> ofold (fun s e => if ~~ b_fixed (snd e) then
      let di := bel_dim (snd e) in
      let! Sii := dblock Sg (snd s) (snd s) di di in
      let! v := dblock dx (snd s) 0 di 1 in
      let! b' := bel_correct v Sii (snd e) in
      let! s' := (if smap_find (fst e) lb is Some _ then
                    let! d := mod_inst (fst e) (fun i => Ok (with_bel (hb_insert t b' (i_bel i)) i)) (fst (fst s)) in Ok (d, snd (fst s))
                  else Ok (fst (fst s), List.map (fun x => if (fst x =? fst e)%nat then (fst x, b') else x) (snd (fst s)))) in
      Ok (s', (snd s + di)%nat)
    else Ok s) ((d0, rb0), r0) l = Ok ((d1, rb1), r1) -> near t ids d0 d1; last exact: (G _ _ _ _ _ _ _ (List.incl_refl bs) E).
  elim=> [|e l IH] x xb xr y yb yr Hi /=; first by case=> <- _ _; exact: near_refl.
  have Hi' : List.incl l bs by move=> z Hz; apply: Hi; right.
  case: (b_fixed (snd e)) => /=; first exact: IH.
  case: dblock => //= A; case: dblock => //= v; case: bel_correct => //= b'; case: (smap_find _ lb) => [c|] /=; last by move=> /IH; exact.
  case M: mod_inst => [x2|y2|y2] //= /IH N; apply: near_trans (N Hi'); apply: (near_mod _ M); first by apply: HB; apply: List.in_map; apply: Hi; left.
  by move=> i i' [<-]; exact: sbt_bel.
exact: near_trans (near_trans N1 N2) N3.
Qed.
Lemma keys_join V (rb lb : list (nat * V)) i : List.In i (keys (c_join lb rb)) -> List.In i (keys lb) \/ List.In i (keys rb).
Proof.
rewrite /c_join; elim: rb lb => [|[j b] rb IH] lb /=; first by left.
move=> H; case: (IH _ H) => [H'|H']; last by right; right.
by case: (keys_ins H') => [->|]; [right; left|left].
Qed.
Lemma touched_c t ids ids' (d d0 d' : dict) ob b : local_beliefs predict ids t d nil = Ok (d0, ob) ->
  (b = true -> near t (ids ++ ids')%list d0 d') -> (b = false -> d' = d0) -> touched t (ids ++ ids')%list d d' b.
Proof.
move=> /local_frame [A [B C]] N E; split; last split.
- move=> id H; have Hi : ~ List.In id ids by move=> X; apply: H; apply/List.in_app_iff; left.
  case: b N E => [/(_ erefl) N _|_ /(_ erefl) ->]; last exact: A.
  by have [X _] := N id; rewrite X ?A.
- move=> id i G Hi; case: b N E => [/(_ erefl) N _|_ /(_ erefl) ->]; last by exists i; split; [exact: B|].
  by have [_ [X _]] := N id; exact: X (B _ _ G Hi).
- by move=> /E -> id i G Hi; exact: B.
Qed.
Lemma update_near keep H R r bs lb rb fc lI rI t cfg (d d' : dict) om ids : c_update junk is_psd nearest eps0 keep H R r bs lb rb fc lI rI t cfg d = Ok (d', om) ->
  List.incl (keys bs) ids -> List.incl lI ids -> if om is Some _ then near t ids d d' else d' = d.
Proof.
rewrite /c_update => E HB HL; have {E} [S1 [_ E]] := bind_ok E; have {E} [S2 [_ E]] := bind_ok E; have {E} [res [_ E]] := bind_ok E.
move: E; case: ifP => _; last by case=> <- <-.
by move=> E; have {E} [[d1 ms] [E1 E]] := bind_ok E; case: E => <- <-; exact: near_c_write E1 HB HL.
Qed.
Theorem C79_untouched : forall (h : measfun) (remote : remotefun) accepts R z t IDs cfg remote_IDs local_IDs (d d' : dict) om o,
  c_observation junk is_psd nearest predict eps0 remote accepts h R z t IDs cfg remote_IDs local_IDs d = Ok (d', om, o) ->
  touched t (local_IDs ++ keys (fst (snd (remote remote_IDs (remote_IDs ++ local_IDs)%list t))))%list d d' (if om is Some _ then true else false) /\
  (om = None -> processed o = false).
Proof.
move=> h remote accepts R z t IDs cfg rI lI d d' om o; rewrite /c_observation /get_local => E.
have {E} [[d1 q] [E E']] := bind_ok E; have {E} [[d0 ob] [Eb E]] := bind_ok E; case: E => ? Eq; subst d0 q.
set ids' := (keys (fst _)).
have no o' : processed o' = false -> Ok (d1, None, o') = Ok (d', om, o) -> touched t (lI ++ ids')%list d d' (if om is Some _ then true else false) /\ (om = None -> processed o = false).
  by move=> Ep [<- <- <-]; split=> //; exact: (touched_c Eb).
move: E'; case Eob: ob => [lb|]; last exact: no.
have Cl id : List.In id (keys lb) -> List.In id lI by move=> Hid; have [_ [_ C]] := local_frame Eb; case: (C lb id Eob Hid).
case Elb: lb => [|e l]; first exact: no.
rewrite -Elb; case Erm: (remote rI (rI ++ lI)%list t) => [got [rb rf]]; case: ifP => _; first exact: no.
have Ei : ids' = keys rb by rewrite /ids' Erm.
case Erb: rb => [|e' l']; first exact: no.
rewrite -Erb; case: (h _ _ _) => dH r E; have {E} [Hs [_ E]] := bind_ok E; have {E} [[d2 om'] [Eu E]] := bind_ok E.
have I1 : List.incl (keys (unfix (c_join lb rb))) (lI ++ ids')%list.
  move=> x /List.in_map_iff [y [<- /List.filter_In [Hy _]]]; apply/List.in_app_iff.
  by case: (keys_join (List.in_map fst _ _ Hy)) => [/Cl|]; [left|rewrite -Ei; right].
have I2 : List.incl lI (lI ++ ids')%list by move=> x Hx; apply/List.in_app_iff; left.
have N := update_near Eu I1 I2; case: om' E N {Eu} => [ms|] E N.
  by case: E => <- <- Eo; split=> //; apply: (touched_c Eb) => // _; exact: N.
by case: E => <- <- <-; rewrite N; split=> //; exact: (touched_c Eb).
Qed.
(** no belief to be had on either side: OUTOFORDER, nothing is sent, and the beliefs stored at t stay *)
Theorem C79_missing : forall (h : measfun) (remote : remotefun) accepts R z t IDs cfg remote_IDs local_IDs (d : dict),
  (forall i, List.In i local_IDs -> ~ registered d i -> (forall j, List.In j local_IDs -> registered d j -> bel_of d j t <> None) ->
     c_observation junk is_psd nearest predict eps0 remote accepts h R z t IDs cfg remote_IDs local_IDs d = Ok (d, None, ObsRes OUTOFORDER None)) /\
  (local_IDs = nil -> c_observation junk is_psd nearest predict eps0 remote accepts h R z t IDs cfg remote_IDs local_IDs d = Ok (d, None, ObsRes OUTOFORDER None)) /\
  ((forall j, List.In j local_IDs -> bel_of d j t <> None) ->
     fst (remote remote_IDs (remote_IDs ++ local_IDs)%list t) = false \/ fst (snd (remote remote_IDs (remote_IDs ++ local_IDs)%list t)) = nil ->
     c_observation junk is_psd nearest predict eps0 remote accepts h R z t IDs cfg remote_IDs local_IDs d = Ok (d, None, ObsRes OUTOFORDER None)).
Proof.
move=> h remote accepts R z t IDs cfg rI lI d; rewrite /c_observation /get_local; split; last split.
- move=> i Hi Ni Hj; have -> // : forall acc, local_beliefs predict lI t d acc = Ok (d, None).
  elim: lI Hi Hj => [//|j lI IH] Hi Hj acc /=; case G: (d_find j d) => [jj|//].
  have Rj : registered d j by rewrite /registered G.
  have := Hj j (or_introl erefl) Rj; rewrite /bel_of G; case Gb: (bel_at t jj) => [b|//] _.
  rewrite (stored_read predict j Gb) /= upd_same // IH //; first by case: Hi => // E; subst j.
  by move=> k Hk; apply: Hj; right.
- by move=> ->.
- move=> Hj Hr; rewrite local_collect //.
  have [//|//|//|bs [-> [A _]]] := @collect_loop F predict t d lI nil; cbn [obind].
  case: bs A => [//|e l] _; case: (remote rI _ t) Hr => got [rb rf] /= [->|->] //; by case: ifP.
Qed.
(** ** One unfixed participant, and it is a local one: the correction is never completed (the call ends in an exception unless
    the measurement is rejected) *)
Theorem C79_lone_local : forall (h : measfun) (remote : remotefun) accepts R z t IDs cfg remote_IDs local_IDs (d d' : dict) i b ms o rb rf,
  (forall j, List.In j local_IDs <-> j = i) -> bel_of d i t = Some b -> b_fixed b = false ->
  remote remote_IDs (remote_IDs ++ local_IDs)%list t = (true, (rb, rf)) -> (forall j c, List.In (j, c) rb -> b_fixed c) ->
  c_observation junk is_psd nearest predict eps0 remote accepts h R z t IDs cfg remote_IDs local_IDs d <> Ok (d', Some ms, o).
Proof.
move=> h remote accepts R z t IDs cfg rI lI d d' i b ms o rb rf Hi Gb Fb Er Fr.
have Ia j : List.In j lI <-> List.In j (List.map fst [:: (i, b)]) by rewrite Hi /=; split=> [->|[->|//]]; [left|].
have Ib j c : List.In (j, c) [:: (i, b)] -> bel_of d j t = Some c by case=> [[<- <-]|//].
have Aa : asc [:: (i, b)] by split.
rewrite /c_observation /get_local (local_any predict Aa Ia Ib); cbn [obind]; rewrite Er /=.
case Erb: rb => [|e l] //; rewrite -Erb; case: (h _ _ _) => dH r.
have Eu : unfix (c_join [:: (i, b)] rb) = [:: (i, b)].
  have [Aj Fj] := join_find rb Aa; apply: asc_unique => //; first exact: asc_filter.
  have Ju x c : List.In (x, c) (c_join [:: (i, b)] rb) <-> smap_find x (c_join [:: (i, b)] rb) = Some c by split; [apply: find_In; exact: asc_nodup|exact: find_Some].
  move=> k; rewrite /= ; case Ek: (smap_find k (unfix _)) => [c|].
    have /List.filter_In [/Ju /= Hc /= Fc] := find_Some Ek; move: Hc; rewrite /c_join Fj /=.
    by case: Nat.eqb => // Hc; move: (Fr _ _ (find_Some Hc)) Fc => ->.
  case: (Nat.eqb_spec i k) => // Eik; subst k; exfalso.
  have : List.In (i, b) (unfix (c_join [:: (i, b)] rb)) by apply/List.filter_In; rewrite /= Fb; split=> //; apply/Ju; rewrite /c_join Fj /= Nat.eqb_refl.
  by move=> /(find_In (asc_nodup (asc_filter _ Aj))); rewrite Ek.
rewrite Eu => E; have {E} [Hs [_ E]] := bind_ok E; have {E} [[d2 om'] [E2 E]] := bind_ok E.
case: om' E2 E => [ms'|] // E2 _; move: E2; rewrite /c_update => E.
have {E} [S1 [_ E]] := bind_ok E; have {E} [S2 [_ E]] := bind_ok E; have {E} [res [_ E]] := bind_ok E.
move: E; case: ifP => // _ E; have {E} [[d3 ms3] [E _]] := bind_ok E.
move: E; rewrite /c_write => E; have {E} [d4 [_ E]] := bind_ok E.
rewrite /split_Sigma_locally /= in E; have {E} [d5 [E _]] := bind_ok E.
have : List.In i lI by apply/Hi.
elim: lI d4 Hi {Ia Er} E => [//|j lI IH] d4 Hi E _; have Ej : j = i by apply/Hi; left.
by subst j; move: E; rewrite /c_store_rows /= /kept /= Nat.eqb_refl Fb.
Qed.
End C79.
(** the hypotheses of C79_fusion hold for agents with the estimators 2 (local) and 8 (remote), correlated with each other *)
Section Example79.
Let Q := rat_realFieldType.
Let c1 (x : Q) : dmat Q := DM (x%:M : 'M[Q]_1).
Let b (x s : Q) : belief Q := Bel (c1 x) (c1 s) Z0 false false true.
Let here : dict (belief Q) (dmat Q) := [:: (2, Inst true [:: (Z0, b 2%:R 3%:R)] [:: (8, [:: (Z0, c1 2%:R)])])]%N.
Let there : dict (belief Q) (dmat Q) := [:: (8, Inst true [:: (Z0, b 3%:R 4%:R)] [:: (2, [:: (Z0, c1 1)])])]%N.
Let hb : list (nat * belief Q) := [:: (2%N, b 2%:R 3%:R)].
Let tb : list (nat * belief Q) := [:: (8%N, b 3%:R 4%:R)].
Let H0 : list (nat * dmat Q) := [:: (2, c1 1); (8, c1 (- 1))]%N.
Example C79_example : observes [:: 2]%N hb Z0 here /\ observes [:: 8]%N tb Z0 there /\
  (forall i, List.In i [:: 8]%N -> ~ registered here i) /\ (forall i, List.In i [:: 2]%N -> ~ registered there i) /\
  ascending (hb ++ tb)%list /\ (forall i, smap_find i (hb ++ tb)%list = if smap_find i hb is Some x then Some x else smap_find i tb) /\
  participants (of_free (hb ++ tb)%list H0) (free (hb ++ tb)%list) 1 Z0 (here ++ there)%list /\ (1 < List.length (free (hb ++ tb)%list))%N /\
  (* and the two are correlated *)
  get_Sigma_IJ 2 8 Z0 (here ++ there)%list = Ok (c1 2%:R).
Proof.
have [O P] := @pair_ok76 2 8 1 (- 1) erefl; have nnil T k : List.nth_error (@nil T) k = None by case: k.
split; first by split=> //= [|i bb [[<- <-]|//]] //; case=> [|k] [|l] //= x y bi bj; rewrite ?nnil.
split; first by split=> //= [|i bb [[<- <-]|//]] //; case=> [|k] [|l] //= x y bi bj; rewrite ?nnil.
split; first by move=> i [<-|//]; apply.
split; first by move=> i [<-|//]; apply.
split; first exact: (o_asc O).
split; first by move=> i /=; do !case: ifP.
split; first exact: P.
split=> //.
by rewrite /get_Sigma_IJ /at_inst /= /ccf_get /= c1_tr76 /c1 dmul_ok mulmx1.
Qed.
End Example79.
Print Assumptions C79_fusion. Print Assumptions C79_fusion_matrices. Print Assumptions C79_untouched. Print Assumptions C79_missing. Print Assumptions C79_lone_local.
