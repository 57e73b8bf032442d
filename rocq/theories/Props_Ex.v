(** C99, C100: the estimator shipped with the delay example. *)
From Coq Require Import ZArith List Bool Arith Lia Permutation Sorted.
From Flocq Require Import IEEE754.BinarySingleNaN.
From mathcomp Require Import all_ssreflect all_algebra.
From Verif Require Import Outcome Spec_Time DoubleModel BufModel Spec_Buf BufProofs HorizonModel HorizonProofs MeasModel HandlerModel Spec_Handler ClockProofs ReplayProofs ArrivalProofs AgreeProofs WindowProofs Props_Buffers Props_Handler2 Chi2Model Props_Chi2 DMat KFModel KFProofs BeliefModel EigenModel EigenProofs CatModel IsoModel IsoProofs EstModel Spec_Est EstProofs Props_Est ExModel Spec_Ex ExProofs ExRun.
Set Implicit Arguments. Unset Strict Implicit. Unset Printing Implicit Defensive.
Import GRing.Theory Num.Theory.
Local Open Scope outcome_scope.
Local Open Scope ring_scope.

Section C99.
Variable F : realFieldType.
Lemma sc1 (p v a t h : F) : 1 * p + (t * v + 0) + (h * t * t * (a *+ 1) + 0) = p + v * t + h * a * t * t.
Proof. by rewrite mul1r !addr0 mulr1n (mulrC t v); congr (_ + _); rewrite -!mulrA; congr (_ * _); rewrite mulrA mulrC. Qed.
Lemma sc2 (p v a t : F) : 0 * p + (1 * v + 0) + (t * (a *+ 1) + 0) = v + a * t.
Proof. by rewrite mul0r add0r mul1r !addr0 mulr1n mulrC. Qed.
Lemma sc3 (a b c d t g r q : F) : (1 * a + (t * c + 0)) * 1 + ((1 * b + (t * d + 0)) * t + 0) + ((g * r + 0) * g + 0 + q) = a + (b + c) * t + d * t * t + r * g * g + q.
Proof.
rewrite !mul1r !addr0 mulr1 addrA (mulrC g r); congr (_ + _ + _); rewrite !mulrDl -!addrA; congr (_ + _).
by rewrite (mulrC t c) (mulrC t d) addrCA.
Qed.
Lemma sc4 (a b c d t g r : F) : (1 * a + (t * c + 0)) * 0 + ((1 * b + (t * d + 0)) * 1 + 0) + ((g * r + 0) * t + 0 + 0) = b + d * t + r * g * t.
Proof. by rewrite mulr0 add0r !addr0 mulr1 mul1r (mulrC t d) (mulrC g r). Qed.
Lemma sc5 (a b c d t g r : F) : (0 * a + (1 * c + 0)) * 1 + ((0 * b + (1 * d + 0)) * t + 0) + ((t * r + 0) * g + 0 + 0) = c + d * t + r * g * t.
Proof. by rewrite !mul0r !add0r !addr0 mulr1 !mul1r; congr (_ + _); rewrite -mulrA mulrC -mulrA. Qed.
Lemma sc6 (a b c d t r q : F) : (0 * a + (1 * c + 0)) * 0 + ((0 * b + (1 * d + 0)) * 1 + 0) + ((t * r + 0) * t + 0 + q) = d + r * t * t + q.
Proof. by rewrite mulr0 !mul0r !add0r !addr0 mulr1 mul1r addrA (mulrC t r). Qed.
Variable junk : forall n, 'M[F]_n -> 'M[F]_n.
Variable garbage : forall m n, 'M[F]_(m, n).
Notation dmat := (dmat F).
Notation belief := (belief F).
Notation dict := (dict belief dmat).
Notation meas := (meas (ex_dat F)).
Variable is_psd : dmat -> bool.
Variable nearest : dmat -> dmat.
Variable eps0 : F.
Variable dtf : Z -> Z -> F.
Variable reg : list nat.
Notation two := (fun _ : nat => 2%N).
Notation shipped hor := (ex junk garbage hor is_psd nearest eps0 dtf).
Notation library := (apply_observation_z junk is_psd nearest (fun _ _ i => Ok (i, false)) eps0).

Lemma ord2 (P : 'I_2 -> Prop) : P ord0 -> P (lift ord0 ord0) -> forall i, P i.
Proof. by move=> H0 H1; case=> [[|[|i]]] // Hi; [rewrite (_ : Ordinal Hi = ord0)|rewrite (_ : Ordinal Hi = lift ord0 ord0)] => //; apply: val_inj. Qed.
Lemma m22_eq (A : 'M[F]_2) : DM A = m22 (A ord0 ord0) (A ord0 (lift ord0 ord0)) (A (lift ord0 ord0) ord0) (A (lift ord0 ord0) (lift ord0 ord0)).
Proof. by congr DM; apply/matrixP; apply: ord2; apply: ord2; rewrite mxE. Qed.
Lemma m21_eq (A : 'M[F]_(2, 1)) : DM A = m21 (A ord0 ord0) (A (lift ord0 ord0) ord0).
Proof. by congr DM; apply/matrixP; apply: ord2 => j; rewrite mxE (ord1 j). Qed.

(** the prediction: uniformly accelerated motion with the measured acceleration, and its covariance *)
Theorem C99_prediction hor (wa wb hz tmax slack : Z) (d : dict) id t ta (ba : belief) p v s11 s12 s21 s22 a r peer :
  clock tmax slack -> denotes_ns hor hz -> Z.le Z0 hz /\ Z.lt hz span_max -> Z.le Z0 wa -> Z.lt wb tmax -> Z.le (wb - wa) (hz - slack) ->
  Spec_Handler.wf wa wb d -> typed two reg d -> List.In id reg -> Z.le wa t /\ Z.le t wb ->
  (* the latest belief before t *)
  bel_of d id ta = Some ba -> Z.lt ta t -> (forall k, Z.lt ta k /\ Z.lt k t -> bel_of d id k = None) ->
  b_mean ba = m21 p v -> b_Sigma ba = m22 s11 s12 s21 s22 ->
  let dt := dtf ta t in
  let m := Meas id t PROPAGATION (ExDat (@DM F 1 1 a%:M) (@DM F 1 1 r%:M) peer) in
  exists d' b', shipped hor d m = Ok (d', PROCESSED) /\ bel_of d' id t = Some b' /\ b_t b' = t /\
    b_mean b' = m21 (p + v * dt + 2%:R^-1 * a * dt * dt) (v + a * dt) /\
    b_Sigma b' = m22 (s11 + (s12 + s21) * dt + s22 * dt * dt + r * (2%:R^-1 * dt * dt) * (2%:R^-1 * dt * dt) + 10%:R^-1 ^+ 6)
                     (s12 + s22 * dt + r * (2%:R^-1 * dt * dt) * dt)
                     (s21 + s22 * dt + r * (2%:R^-1 * dt * dt) * dt)
                     (s22 + r * dt * dt + 10%:R^-1 ^+ 6) /\
    (forall j f, fac_of d id j ta = Some f -> exists f', fac_of d' id j t = Some f' /\ dmul (m22 1 dt 0 1) f = Ok f') /\
    (forall k, k <> t -> bel_of d' id k = bel_of d id k) /\ (forall x, x <> id -> d_find x d' = d_find x d).
Proof.
move=> Ck Dn [H0 H1] A0 B1 Hw W T Hr [L1 L2] Ba Lt Gap Em ES dt m.
have [i Gi] : exists i, d_find id d = Some i by apply: find_key; case: T => ->.
have Wi := wf_find W Gi; have Ti := proj2 T _ _ Gi; have So : ssorted (i_bel i) by case: Wi => [[]].
have Gt : get_at_t ta (i_bel i) = Some ba by move: Ba; rewrite /bel_of Gi.
have Hin : List.In (ta, ba) (i_bel i) by apply/(get_at_iff _ _ _ So).
have Gb : get_before_t t (i_bel i) = Some (ta, ba).
  case Gb: (get_before_t t (i_bel i)) => [[k b]|]; last by move: Gb => /(get_before_none _ _ (ssorted_w _ So)) /(_ _ Hin) /=; lia.
  have [Hk [Lk Mx]] := get_before_spec _ _ _ _ (ssorted_w _ So) Gb; have /= Le := Mx _ Hin Lt.
  have Bk : get_at_t k (i_bel i) = Some b by apply/(get_at_iff _ _ _ So).
  case: (Z.eq_dec k ta) => [E|N]; first by subst k; move: Bk; rewrite Gt => -[->].
  by have := Gap k; rewrite /bel_of Gi /bel_at Bk => /(_ _) H; have : Some b = None by apply: H; lia.
have Tba : bel_typed two id ta ba := proj1 Ti _ _ Gt.
set mx := dmx (m21 p v); set S := dmx (m22 s11 s12 s21 s22).
set Y := phi dt *m mx + gam dt *m a%:M; set Qx := gam dt *m r%:M *m (gam dt)^T + (10%:R^-1 ^+ 6)%:M.
set b' := bel_set_t t (bel_set_Sigma (DM (phi dt *m S *m (phi dt)^T + Qx)) (bel_set_mean (DM Y) ba)).
have [c' [b0 [Ec [E0 [_ Ei]]]]] := @propagate_ok F hor two wa wb hz tmax slack Ck Dn H0 H1 A0 B1 Hw id ba (DM Y) (DM (phi dt)) (DM Qx) ta t i Wi Ti L1 L2 Tba
  (conj erefl erefl) (conj erefl erefl) (conj erefl erefl).
have K l : kf_propagate_bel ba (DM Y) (DM (phi dt)) (DM Qx) t l = Ok (hb_insert t b' l, true).
  rewrite /kf_propagate_bel ES /check_dim_phi_q /check_dim_phi /= cov_prop_ok /=.
  by rewrite /check_dim_mean /bel_set /check_dim_mean /=.
have E1 : iso_propagate_bel hor ba (DM Y) (DM (phi dt)) (DM Qx) ta t i = Ok (Inst (i_enabled i) (hb_insert t b' (i_bel i)) c', true).
  rewrite /iso_propagate_bel K /= /iso_factors /with_bel /with_ccf /= Ec /= (trim_id Ck Dn H0 H1 A0 B1 Hw) //.
  case: Wi => [Ob [Oc Nc]]; split; first exact: okb_ins.
  by split; [exact: scale_wf Ec Oc|rewrite /= (scale_keys Ec)].
exists (d_upd id (Inst (i_enabled i) (hb_insert t b' (i_bel i)) c') d), b'; split.
  rewrite /ex /m /= /ex_propagate /= /at_inst Gi Gb -/dt Em.
  rewrite /m22 /m21 /dtr /dscale /deye !(dmul_ok, dadd_ok) /= !(dmul_ok, dadd_ok) /= !(dmul_ok, dadd_ok) /=.
  have -> : 10%:R^-1 ^+ 6 *: (\matrix_(i0, j) ((i0 : nat) == (j : nat))%:R) = (10%:R^-1 ^+ 6)%:M :> 'M[F]_2.
    by apply/matrixP => x y; rewrite !mxE -val_eqE; case: eqP; rewrite ?mulr1 ?mulr0 ?mulr1n ?mulr0n.
  by rewrite -/(phi dt) in E1; rewrite E1.
have Fd x : d_find x (d_upd id (Inst (i_enabled i) (hb_insert t b' (i_bel i)) c') d) = if (x =? id)%nat then Some (Inst (i_enabled i) (hb_insert t b' (i_bel i)) c') else d_find x d.
  by rewrite find_upd; case: Nat.eqb => //; rewrite Gi.
split; first by rewrite /bel_of Fd Nat.eqb_refl /bel_at /= get_ins Z.eqb_refl.
split; first by [].
split.
  rewrite /b' /= m21_eq; congr m21; rewrite /Y /mx /phi /gam /= !mxE !big_ord_recl !big_ord0 !mxE /=; [exact: sc1|exact: sc2].
split.
  rewrite /b' /= m22_eq; congr m22; rewrite /Qx /S /phi /gam /= !mxE !big_ord_recl !big_ord0 !mxE /= !big_ord_recl !big_ord0 !mxE /= ?big_ord_recl ?big_ord0 ?mxE /= ?mulr1n ?mulr0n; [exact: sc3|exact: sc4|exact: sc5|exact: sc6].
split.
  move=> j f; rewrite /fac_of Fd Nat.eqb_refl Gi -!fac_ccf_at => Ef /=; have [_ [_ /(_ _ Ef) [f' [E2 E3]]]] := fac_scale Ec j t; by exists f'.
split; first by move=> k Nk; rewrite /bel_of Fd Nat.eqb_refl Gi /bel_at /= get_ins; case: Z.eqb_spec.
by move=> x Nx; rewrite Fd; case: Nat.eqb_spec.
Qed.

(** the observations: the residuals the example computes are those the library computes from z (position; difference of the
    two positions, whichever ID is smaller) *)
Theorem C99_observation hor (d : dict) (m : meas) : typed two reg d -> List.In (m_id m) reg ->
  shaped 1 1 (x_z (m_dat m)) -> shaped 1 1 (x_R (m_dat m)) ->
  let J := x_peer (m_dat m) in
  (m_ty m = PRIVATE -> shipped hor d m = let! (d', ok) := library [:: (m_id m, m12 1 0)] (x_z (m_dat m)) (x_R (m_dat m)) (m_t m) (ex_cfg F) d in
     Ok (d', if ok then PROCESSED else REJECTED)) /\
  (m_ty m = JOINT -> List.In J reg -> bel_of d (m_id m) (m_t m) <> None -> bel_of d J (m_t m) <> None ->
     ((m_id m < J)%N -> shipped hor d m = let! (d', ok) := library [:: (m_id m, m12 (-1) 0); (J, m12 1 0)] (x_z (m_dat m)) (x_R (m_dat m)) (m_t m) (ex_cfg F) d in
        Ok (d', if ok then PROCESSED else REJECTED)) /\
     ((J < m_id m)%N -> shipped hor d m = let! (d', ok) := library [:: (J, m12 1 0); (m_id m, m12 (-1) 0)] (x_z (m_dat m)) (x_R (m_dat m)) (m_t m) (ex_cfg F) d in
        Ok (d', if ok then PROCESSED else REJECTED))).
Proof.
move=> T Hr Hz HR J; split=> [Ty|Ty HJ B1 B2].
  have O : fits reg m by split=> //; split=> //; split=> //; rewrite Ty.
  by rewrite /ex Ty (@ex_private_eq _ _ _ _ _ dtf reg m d T O Ty) /est_joint /tag Ty.
have Go : J <> m_id m -> shipped hor d m = est_joint junk is_psd nearest eps0 (ux dtf) (tag m) d.
  move=> Ne; have O : fits reg m by split=> //; split=> //; split=> //; rewrite Ty.
  by rewrite /ex Ty (@ex_joint_eq _ _ garbage _ _ _ dtf reg m d T O Ty B1 B2).
split=> L; (rewrite Go; last by move=> E; move: L; rewrite E ltnn); rewrite /est_joint /tag Ty /= -/J.
  have L1 : (J <? m_id m)%nat = false by apply/Nat.ltb_ge; apply: Nat.lt_le_incl; apply/ltP.
  have L2 : (J =? m_id m)%nat = false by apply/Nat.eqb_neq => E; move: L; rewrite E ltnn.
  rewrite L1 L2; reflexivity.
have L1 : (J <? m_id m)%nat = true by apply/Nat.ltb_lt/ltP.
rewrite L1; reflexivity.
Qed.
(** the null pointers: a propagation without an earlier belief and a joint measurement without both beliefs at its time end
    in a null dereference, a private measurement without a belief is rejected *)
Theorem C99_null hor (d : dict) (m : meas) : typed two reg d -> List.In (m_id m) reg -> (forall i, d_find (m_id m) d = Some i -> ssorted (i_bel i)) ->
  (m_ty m = PROPAGATION -> (forall k, Z.lt k (m_t m) -> bel_of d (m_id m) k = None) -> shipped hor d m = UB NullDeref) /\
  (m_ty m = JOINT -> bel_of d (m_id m) (m_t m) = None \/ bel_of d (x_peer (m_dat m)) (m_t m) = None -> shipped hor d m = UB NullDeref) /\
  (m_ty m = PRIVATE -> bel_of d (m_id m) (m_t m) = None -> shipped hor d m = Ok (d, REJECTED)).
Proof.
move=> T Hr So; have [i Gi] : exists i, d_find (m_id m) d = Some i by apply: find_key; case: T => ->.
have Si := So _ Gi; split.
  move=> Ty H; rewrite /ex Ty /ex_propagate /at_inst Gi.
  have -> : get_before_t (m_t m) (i_bel i) = None; last by [].
  apply/(get_before_none _ _ (ssorted_w _ Si)) => -[k b] Hin /=; case: (Z_lt_le_dec k (m_t m)) => // L.
  have : bel_of d (m_id m) k = Some b by rewrite /bel_of Gi; apply/(get_at_iff _ _ _ Si).
  by rewrite H.
split=> Ty H; last by rewrite /ex Ty /ex_private /at_inst Gi; move: H; rewrite /bel_of Gi /bel_at => ->.
rewrite /ex Ty /ex_joint /at_inst Gi.
move: H; rewrite {1}/bel_of Gi /bel_at; case Gb: get_at_t => [bi|//] /= [//|].
by rewrite /bel_of; case: d_find => // j; rewrite /bel_at => ->.
Qed.
(** a joint measurement of an instance with itself: only [-1 0] is used, with the whole z as residual *)
Theorem C99_self hor (d : dict) (m : meas) (b : belief) : typed two reg d -> m_ty m = JOINT -> x_peer (m_dat m) = m_id m ->
  bel_of d (m_id m) (m_t m) = Some b -> shaped 1 1 (x_z (m_dat m)) ->
  shipped hor d m = let! (d', ok) := apply_observation_r junk is_psd nearest (fun _ _ i => Ok (i, false)) eps0 [:: (m_id m, m12 (-1) 0)] (x_R (m_dat m)) (x_z (m_dat m)) (m_t m) (ex_cfg F) d in
     Ok (d', if ok then PROCESSED else REJECTED).
Proof.
move=> T Ty E Bb Hz; rewrite /ex Ty /ex_joint E.
have -> : horcat garbage (m12 (-1) 0) (m12 1 0) = Ok (DM (row_mx (@hI F) (@h1 F))) by exact: Props_Cat.C54_horcat.
have [Hm _] := typed_bel T Bb; have Em := mx_of_shaped Hm; have Ez := mx_of_shaped Hz.
have -> : at_inst (m_id m) d (fun i => match get_at_t (m_t m) (i_bel i) with Some b => Ok b | None => UB NullDeref end) = Ok b.
  by move: Bb; rewrite /bel_of /at_inst /bel_at; case: d_find => // i ->.
rewrite /= Nat.ltb_irrefl Nat.eqb_refl Em !vec_ofE Props_Cat.C54_vertcat_vec //= dmul_ok /= mul_row_col -mulmxDl.
have -> : @hI F + @h1 F = 0 by apply/matrixP => x; apply: ord2; rewrite !mxE /= ?addNr ?addr0.
rewrite mul0mx Ez dsub_ok subr0; reflexivity.
Qed.

(** ** behind the handler: joint measurements arrive after propagations of both participants to their time; then nothing
    dereferences null, no call fails, and the arrival order does not matter *)
Notation del hor fallback := (ex_with junk garbage hor is_psd nearest eps0 dtf fallback).
Theorem C100_arrival_order_irrelevant (wa wb lo hz hzo tmax slack : Z) (h : handler belief dmat (ex_dat F)) (m0 : meas) (rest inorder : list meas) :
  clock tmax slack ->
  (forall k (A : 'M[F]_k), exists B : 'M[F]_k, nearest (DM A) = DM B) ->
  Spec_Handler.wf wa wb (h_dict h) -> typed two reg (h_dict h) -> initialised lo (h_dict h) ->
  h_meas h = nil -> h_ooo h = nil -> h_redo h = nil ->
  denotes_ns (h_max h) hz -> Z.le Z0 hz /\ Z.lt hz span_max -> denotes_ns (h_ooo_max h) hzo -> Z.le Z0 hzo /\ Z.lt hzo span_max ->
  Z.le Z0 wa -> Z.le wa lo -> Z.lt wb tmax -> Z.le (wb - wa) (hz - slack) ->
  (forall m, List.In m (m0 :: rest) -> fits reg m /\ (Z.le lo (m_t m) /\ Z.le (m_t m) wb) /\ exists i, d_find (m_id m) (h_dict h) = Some i /\ i_enabled i = true) ->
  (forall m, List.In m rest -> Z.lt (m_t m0 + slack) (m_t m)) ->
  prepared (m0 :: rest) -> stable_sort (m0 :: rest) inorder ->
  exists h1 h2,
    (forall fallback, process_all (del (h_max h) fallback) h (m0 :: rest) = Ok h1) /\
    (forall fallback, process_all (del (h_max h) fallback) h inorder = Ok h2) /\
    same (h_dict h1) (h_dict h2) /\ h_meas h1 = List.map (fun m => (m_t m, m)) inorder /\ h_meas h2 = h_meas h1 /\
    Spec_Handler.wf wa wb (h_dict h1) /\ typed two reg (h_dict h1).
Proof.
move=> Ck Hn W T I0 Em Eo Er Dn [H0 H1] Dno [Ho0 Ho1] A0 AL B1 L Hm Old Pp St.
set d0 := deleg0 junk (h_max h) is_psd nearest eps0 dtf.
have C := @contract0 F junk (h_max h) is_psd nearest eps0 dtf reg wa wb hz tmax slack Ck Dn H0 H1 A0 B1 L Hn.
have N := @no_ooo0 F junk (h_max h) is_psd nearest eps0 dtf reg wa wb hz tmax slack Ck Dn H0 H1 A0 B1 L Hn.
have Pr0 l : (forall m, List.In m l -> List.In m (m0 :: rest)) -> processable (typed two reg) (fits reg) d0 (h_dict h) lo wa wb hz hzo tmax slack l.
  move=> Sub; split; first move=> m /Sub /Hm [O [[L1 L2] E]].
    split; first by case: O => _ [_ [_ []]].
    split; first by lia.
    by split=> //; split=> //; lia.
  split; last by left=> d m Wd Td Lm Om; exact: (N d m (conj Wd Td) (conj Lm Om)).
  by move=> x y /Sub /Hm [_ [Lx _]] /Sub /Hm [_ [Ly _]]; lia.
have Rg (z : Z) : Z.le Z0 z -> Z.lt z span_max -> Z.le Z0 z /\ Z.lt z span_max by [].
have Lo0 := Z.le_trans _ _ _ A0 AL.
have [h1 [h2 [E1 [E2 [Sm [M1 [M2 _]]]]]]] := C42_arrival_order_irrelevant _ _ _ _ _ _ _ _ _ _ _ _ _ _ _ _ _ Ck C W T I0 Em Eo Er Dn (Rg _ H0 H1) Dno (Rg _ Ho0 Ho1) Lo0 (Pr0 _ (fun _ x => x)) Old St.
have An : forall e, List.In e (h_dict h) -> exists k v, Z.lt k lo /\ bel_at k (snd e) = Some v.
  move=> e He; have [[k [v Ev]] [Nb _]] := I0 e He; exists k, v; split=> //; case: (Z_lt_le_dec k lo) => // Q; by rewrite Nb in Ev.
have Be : below lo (h_dict h) by move=> e He; have [_ Q] := I0 e He.
have Arr l : (forall m, List.In m l -> List.In m (m0 :: rest)) -> @arrived F reg wa wb (h_dict h) lo l.
  move=> Sub m /Sub /Hm [O [[L1 L2] E]]; split=> //; split=> //; split=> //; lia.
have Agree x l f : (forall m, List.In m (x :: l) -> List.In m (m0 :: rest)) -> prepared (x :: l) -> (forall m, List.In m l -> Z.lt (m_t x + slack) (m_t m)) ->
    process_all (del (h_max h) f) h (x :: l) = process_all d0 h (x :: l).
  move=> Sub Pl Ol.
  have Ft : fit d0 wa wb (typed two reg) (fits reg) (h_dict h) lo hz hzo tmax slack (nil ++ (x :: l))%list.
    have [X1 [X2 X3]] := Pr0 _ Sub; split=> //; split=> //; left=> d m Wd Wm; exact: N.
  apply: (process_all_agree2 _ _ _ _ _ _ C _ _ _ _ _ _ Ck (conj W T) An Be (Rg _ H0 H1) (Rg _ Ho0 Ho1) Lo0 N (x :: l) h nil _ Dn Dno Ft); [|by left|by []|].
    constructor; rewrite ?Em ?Eo ?Er //; [exact: SSorted_nil|exact: ReplayProofs.same_refl].
  move=> a b Eab; apply: (@calls_ok F junk garbage (h_max h) is_psd nearest eps0 dtf reg wa wb hz tmax slack Ck Dn H0 H1 A0 B1 L Hn (h_dict h) lo (conj W T) An).
  - apply: Arr => m Hin; apply: Sub; rewrite Eab; apply: List.in_or_app; left; exact: (Permutation_in _ (Permutation_sym (fold_perm a nil)) Hin).
  - by apply: fold_sorted; exact: SSorted_nil.
  - exact: covered_perm (fold_perm a nil) (prepared_covered Pl Eab).
have [r [Ei [Pm Oldr]]] := inorder_head slack _ _ _ (proj1 (clock_bounds _ _ Ck)) St Old; subst inorder.
have Ppr : prepared (m0 :: r).
  apply: covered_prepared; first by case: St.
  have Cv : covered (m0 :: rest) by apply: (prepared_covered (b := nil) Pp); rewrite List.app_nil_r.
  by case: St => _ [PmS _]; exact: covered_perm PmS Cv.
have Subr m : List.In m (m0 :: r) -> List.In m (m0 :: rest).
  by move=> Hin; case: St => _ [PmS _]; exact: (Permutation_in _ (Permutation_sym PmS) Hin).
exists h1, h2; split; first by move=> f; rewrite Agree.
split; first by move=> f; rewrite Agree.
split=> //; split=> //; split=> //.
have F0 : fit d0 wa wb (typed two reg) (fits reg) (h_dict h) lo hz hzo tmax slack (m0 :: rest).
  have [X1 [X2 X3]] := Pr0 _ (fun _ x => x); split=> //; split=> //; left=> d m Wd Wm; exact: N.
have [h' [E' [V _]]] := process_all_exact _ _ _ _ _ C _ _ _ _ _ _ Ck (conj W T) An Be (Rg _ H0 H1) (Rg _ Ho0 Ho1) Lo0 h m0 rest erefl Em Eo Er Dn Dno F0 Old.
have Eh : h1 = h' by move: E'; rewrite E1 => -[].
by subst h1; exact: (v_wf _ _ _ _ _ _ _ V).
Qed.
End C99.


Section Example100.
Notation Q := rat_realFieldType.
Notation D k l := (@DM Q k l).
Definition bel100 : belief Q := Bel (m21 (1 : rat) 2%:R) (m22 (1 : rat) 0 0 1) (Zpos 5) false false true.
Definition d100 : dict (belief Q) (dmat Q) :=
  (3%nat, Inst true ((Zpos 5, bel100) :: nil) ((7%nat, (Zpos 5, D 2 2 1%:M) :: nil) :: nil)) ::
  (7%nat, Inst true ((Zpos 5, bel100) :: nil) ((3%nat, (Zpos 5, D 2 2 1%:M) :: nil) :: nil)) :: nil.
Definition h100 : handler (belief Q) (dmat Q) (ex_dat Q) := Handler d100 nil nil nil (d_of_Z (Zpos 3)) (d_of_Z (Zpos 3)) (d_of_Z (Zpos 3)) (d_of_Z (Zpos 3)).
Definition x100 (peer : nat) : ex_dat Q := ExDat (D 1 1 (1 : rat)%:M) (D 1 1 (1 : rat)%:M) peer.
Notation M id t ty peer := (Meas id%nat (Zpos t) ty (x100 peer%nat)).
Definition m100 := M 3 10 PROPAGATION 0.
(** instance 7's propagation to 20 arrives last but one, after measurements from later times; then the joint measurement *)
Definition rest100 : list (meas (ex_dat Q)) :=
  M 3 20 PROPAGATION 0 :: M 7 30 PRIVATE 0 :: M 7 20 PROPAGATION 0 :: M 7 20 JOINT 3 :: M 3 15 PRIVATE 0 :: nil.
Definition inorder100 : list (meas (ex_dat Q)) := m100 :: M 3 15 PRIVATE 0 ::
  M 3 20 PROPAGATION 0 :: M 7 20 PROPAGATION 0 :: M 7 20 JOINT 3 :: M 7 30 PRIVATE 0 :: nil.

Lemma typed100 : typed (fun _ => 2%N) (3%nat :: 7%nat :: nil) d100.
Proof.
split=> // id i E; have := find_In E.
by case=> [[<- <-]|[[<- <-]|[]]]; (split; [move=> k b E1; have [-> ->] := at68 E1; by []|]); move=> j k f E1; have [_ [_ ->]] := ccf68 E1.
Qed.
Lemma wf100 : Spec_Handler.wf (Zpos 5) (Zpos 1000) d100.
Proof.
split; first by repeat constructor => //=; intuition congruence.
by move=> e [<-|[<-|[]]]; (split; [split; [exact: sorted68|move=> x [<-|[]]; simpl; lia]|split; [|by apply: List.NoDup_cons; [case|exact: List.NoDup_nil]]]);
  move=> j b [[_ <-]|[]]; (split; [exact: sorted68|move=> x [<-|[]]; simpl; lia]).
Qed.
Example C100_example :
  Spec_Handler.wf (Zpos 5) (Zpos 1000) (h_dict h100) /\ typed (fun _ => 2%N) (3%nat :: 7%nat :: nil) (h_dict h100) /\ initialised (Zpos 10) (h_dict h100) /\
  denotes_ns (h_max h100) (Z.mul (Zpos 3) Spec_Time.giga) /\
  (forall m, List.In m (m100 :: rest100) -> fits (3%nat :: 7%nat :: nil) m /\ (Z.le (Zpos 10) (m_t m) /\ Z.le (m_t m) (Zpos 1000)) /\
     exists i, d_find (m_id m) (h_dict h100) = Some i /\ i_enabled i = true) /\
  (forall m, List.In m rest100 -> Z.lt (m_t m100) (m_t m)) /\ prepared (m100 :: rest100) /\ stable_sort (m100 :: rest100) inorder100.
Proof.
split; first exact: wf100.
split; first exact: typed100.
split.
  move=> e [<-|[<-|[]]]; (split; [exists (Zpos 5); eexists; reflexivity|split]).
  - by move=> k L; case E: bel_at => [w|//]; have [Ek _] := at68 E; move: L; rewrite Ek.
  - by move=> j k L; case E: ccf_at => [w|//]; have [_ [Ek _]] := ccf68 E; move: L; rewrite Ek.
  - by move=> k L; case E: bel_at => [w|//]; have [Ek _] := at68 E; move: L; rewrite Ek.
  - by move=> j k L; case E: ccf_at => [w|//]; have [_ [Ek _]] := ccf68 E; move: L; rewrite Ek.
split; first exact: C21_denotes_example.
split.
  move=> m Hin; split; last first.
    by move: Hin => [<-|[<-|[<-|[<-|[<-|[<-|[]]]]]]]; (split; [simpl; lia|by eexists; split; reflexivity]).
  by move: Hin => [<-|[<-|[<-|[<-|[<-|[<-|[]]]]]]]; (split; [simpl; tauto|split; [by []|split; [by []|split; [by []|]]]]) => //= _; split; [tauto|].
split; first by move=> m [<-|[<-|[<-|[<-|[<-|[]]]]]].
split.
  move=> a m b; rewrite /m100 /rest100 => E Ty.
  do 4 (destruct a as [|? a]; simpl in E; [have Em := f_equal (List.hd m) E; simpl in Em; move: Ty; rewrite -Em //|
    have Eh := f_equal (List.hd m) E; simpl in Eh; rewrite -Eh {Eh}; have {}E := f_equal (@List.tl _) E; simpl in E]).
  destruct a as [|? a]; simpl in E.
    have Em := f_equal (List.hd m) E; simpl in Em; rewrite -Em => x [->|->] /=.
    + by eexists; split; [right; right; right; left|split; [|split]].
    + by eexists; split; [right; left|split; [|split]].
  have {}E := f_equal (@List.tl _) E; simpl in E.
  destruct a as [|? a]; simpl in E; first by have Em := f_equal (List.hd m) E; simpl in Em; move: Ty; rewrite -Em.
  by have {}E := f_equal (@List.tl _) E; simpl in E; destruct a.
have <- : chrono (m100 :: rest100) = inorder100 by reflexivity.
split; first by apply: fold_sorted; exact: SSorted_nil.
split; first by exact: (fold_perm (m100 :: rest100) nil).
by move=> t ty; rewrite /chrono fold_slot //; exact: SSorted_nil.
Qed.
(** C99: the same registry meets the hypotheses of the prediction at 10, of the observations, and of the null pointers *)
Example C99_example :
  bel_of d100 3 (Zpos 5) = Some bel100 /\ (forall k, Z.lt (Zpos 5) k /\ Z.lt k (Zpos 10) -> bel_of d100 3 k = None) /\
  b_mean bel100 = m21 (1 : rat) 2%:R /\ b_Sigma bel100 = m22 (1 : rat) 0 0 1 /\
  bel_of d100 7 (Zpos 5) <> None /\ (forall k, Z.lt k (Zpos 5) -> bel_of d100 3 k = None).
Proof.
split; first by [].
split; first by move=> k [L _]; rewrite /bel_of /=; case E: bel_at => [w|//]; have [Ek _] := at68 E; move: L; rewrite Ek.
by do 3 (split; first by []); move=> k L; rewrite /bel_of /=; case E: bel_at => [w|//]; have [Ek _] := at68 E; move: L; rewrite Ek.
Qed.
End Example100.
Print Assumptions C99_prediction.
Print Assumptions C99_observation.
Print Assumptions C99_null.
Print Assumptions C99_self.
Print Assumptions C100_arrival_order_irrelevant.
