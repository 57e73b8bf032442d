(** Runs of the handler with the shipped estimator. *)
From Coq Require Import ZArith List Bool Arith Lia Permutation Sorted.
From Flocq Require Import IEEE754.BinarySingleNaN.
From mathcomp Require Import all_ssreflect all_algebra.
From Verif Require Import Outcome Spec_Time DoubleModel BufModel Spec_Buf BufProofs HorizonModel HorizonProofs MeasModel HandlerModel Spec_Handler ClockProofs ReplayProofs ArrivalProofs AgreeProofs WindowProofs Props_Buffers Props_Handler2 Chi2Model Props_Chi2 DMat KFModel BeliefModel IsoModel IsoProofs EstModel Spec_Est EstProofs Props_Est ExModel Spec_Ex ExProofs.
Set Implicit Arguments. Unset Strict Implicit. Unset Printing Implicit Defensive.
Import GRing.Theory Num.Theory.
Local Open Scope outcome_scope.
Local Open Scope ring_scope.

Section Run.
Variable F : realFieldType.
Variable junk : forall n, 'M[F]_n -> 'M[F]_n.
Variable g : forall m n, 'M[F]_(m, n).
Notation dmat := (dmat F).
Notation belief := (belief F).
Notation dict := (dict belief dmat).
Notation meas := (meas (ex_dat F)).
Variable hor : double.
Variable is_psd : dmat -> bool.
Variable nearest : dmat -> dmat.
Variable eps0 : F.
Variable dtf : Z -> Z -> F.
Variable reg : list nat.
Notation n2 := (fun _ : nat => 2%N).
Notation typed := (@Spec_Est.typed F n2 reg).
Notation fits := (@fits F reg).
Notation ux := (@ux F dtf).
Variables (wa wb hz tmax sl : Z).
Hypothesis Ck : clock tmax sl.
Hypothesis near : h_near hor hz.
Hypothesis hz0 : Z.le Z0 hz.
Hypothesis hz1 : Z.lt hz span_max.
Hypothesis wa0 : Z.le Z0 wa.
Hypothesis wb1 : Z.lt wb tmax.
Hypothesis win_hz : Z.le (wb - wa) (hz - sl).
Hypothesis nearest_dims : forall k (A : 'M[F]_k), exists B : 'M[F]_k, nearest (DM A) = DM B.
Notation wf := (@Spec_Handler.wf belief dmat wa wb).
Notation est_t := (fun d m => est junk hor is_psd nearest eps0 ux d (tag m)).
Notation exd := (ex junk g hor is_psd nearest eps0 dtf).

Lemma gate_ux : gate_ok ux.
Proof.
right=> df; have M : means_permille (confidence_interval (u_cfg ux)) (Zpos 997) by vm_compute.
have [X _] := C25_safe_iff_tabulated _ _ df M; apply: X; simpl; tauto.
Qed.
Definition deleg0 (d : dict) (m : meas) : dict * status := match est_t d m with Ok r => r | _ => (d, REJECTED) end.
Lemma run0 d m : wf d -> typed d -> Z.le wa (m_t m) /\ Z.le (m_t m) wb -> fits m -> exists d' s,
  deleg0 d m = (d', s) /\ est_t d m = Ok (d', s) /\ @outcome_ok F n2 reg wa wb (m_t m) d d' /\ s <> DISCARED /\ s <> OUTOFORDER /\
  forall d2, wf d2 -> typed d2 -> same d d2 -> exists d2', est_t d2 m = Ok (d2', s) /\ same d' d2'.
Proof.
move=> W T [L1 L2] O; have [d' [s [E [X1 [X2 X3]]]]] := est_ok junk is_psd eps0 gate_ux Ck near hz0 hz1 wa0 wb1 win_hz nearest_dims W T
  (eq_ind_r (Z.le wa) L1 (tag_t m)) (eq_ind_r (fun t => Z.le t wb) L2 (tag_t m)) (fits_ok dtf O).
rewrite tag_t in X1; exists d', s; rewrite /deleg0 E; split=> //; split=> //; split=> //; split=> //; split=> //; exact: est_status E.
Qed.
Lemma contract0 : contract wa wb typed fits deleg0.
Proof.
split.
- by move=> d d' T; exact: typed_part.
- by move=> d m W T L0 O; have [d' [s [-> [_ [[W' [T' _]] _]]]]] := run0 W T L0 O.
- by move=> d m W T L0 O; have [d' [s [-> [_ [[_ [_ O']] _]]]]] := run0 W T L0 O.
- move=> d d2 m W T W2 T2 L0 O S; have [d' [s [-> [_ [_ [_ [_ X]]]]]]] := run0 W T L0 O.
  by have [d2' [E2 S2]] := X _ W2 T2 S; have [e' [s' [-> [E2' _]]]] := run0 W2 T2 L0 O; move: E2'; rewrite E2 => -[<- <-].
- by move=> d m W T L0 O; have [d' [s [-> [_ [_ [X _]]]]]] := run0 W T L0 O.
Qed.
Lemma no_ooo0 d m : fine wa wb typed d -> win wa wb fits m -> snd (deleg0 d m) <> OUTOFORDER.
Proof. by move=> [W T] [L O]; have [d' [s [-> [_ [_ [_ [X _]]]]]]] := run0 W T L O. Qed.

(** ** a propagation leaves a belief, nothing removes one *)
Lemma prop0 d m : wf d -> typed d -> Z.le wa (m_t m) /\ Z.le (m_t m) wb -> fits m -> m_ty m = PROPAGATION ->
  grow d (fst (deleg0 d m)) /\
  ((forall i, d_find (m_id m) d = Some i -> get_before_t (m_t m) (i_bel i) <> None) -> bel_of (fst (deleg0 d m)) (m_id m) (m_t m) <> None).
Proof.
case: m => id t ty x W T /= [L1 L2] [/= Hr [Hz [HR _]]] Ty; subst ty; rewrite /deleg0 /tag /est /= /est_propagate /= /at_inst.
have [i Gi] : exists i, d_find id d = Some i by apply: find_key; case: T => ->.
have Wi := wf_find W Gi; have Ti := proj2 T _ _ Gi; rewrite Gi; case Gb: (get_before_t t (i_bel i)) => [[ta ba]|]; last first.
  by split=> [x0 k|H] //; case: (H i).
have Tba : bel_typed n2 id ta ba.
  apply: (proj1 Ti); apply/(get_at_iff _ _ _ (proj1 (proj1 Wi))).
  by have [A _] := get_before_spec _ _ _ _ (ssorted_w _ (proj1 (proj1 Wi))) Gb; exact: A.
set mb := DM _; set Phi := DM _; set Q := DM _.
have [c' [b' [_ [-> _]]]] := @propagate_ok F hor n2 wa wb hz tmax sl Ck near hz0 hz1 wa0 wb1 win_hz id ba mb Phi Q ta t i Wi Ti L1 L2 Tba
  (conj erefl erefl) (conj erefl erefl) (conj erefl erefl).
rewrite /=; split=> [x0 k|_]; rewrite /bel_of find_upd.
  case: Nat.eqb_spec => [->|_] //; rewrite Gi /bel_at /= get_ins; by case: Z.eqb.
by rewrite Nat.eqb_refl Gi /bel_at /= get_ins Z.eqb_refl.
Qed.
Lemma grow0 d m : wf d -> typed d -> Z.le wa (m_t m) /\ Z.le (m_t m) wb -> fits m -> grow d (fst (deleg0 d m)).
Proof.
move=> W T L O; case Ty: (m_ty m); first by case: O => _ [_ [_ []]].
- by have [] := prop0 W T L O Ty.
- rewrite /deleg0 /tag Ty /est /= /est_joint /=; case E: apply_observation_z => [[d' ok]|e|e] //=; try (by move=> x k); exact: obs_grow E.
- rewrite /deleg0 /tag Ty /est /= /est_joint /=; case E: apply_observation_z => [[d' ok]|e|e] //=; try (by move=> x k); exact: obs_grow E.
Qed.
Lemma hgrow d m : fine wa wb typed d -> win wa wb fits m -> grow d (fst (h_delegate deleg0 d m)).
Proof.
move=> [W T] [L O]; rewrite /h_delegate; case: d_find => [i|]; last by move=> x k.
case: i_enabled; last by move=> x k.
by have := grow0 W T L O; case: deleg0.
Qed.

(** ** runs *)
Variables (d0 : dict) (lo : Z).
Hypothesis W0 : fine wa wb typed d0.
Hypothesis An0 : forall e, List.In e d0 -> exists k v, Z.lt k lo /\ bel_at k (snd e) = Some v.
Notation runs := (ArrivalProofs.runs deleg0 d0).
Definition arrived (l : list meas) : Prop := forall m, List.In m l ->
  Z.le lo (m_t m) /\ win wa wb fits m /\ exists i, d_find (m_id m) d0 = Some i /\ i_enabled i = true.
Lemma arr_wins l : arrived l -> wins wa wb fits l. Proof. by move=> A m /A [_ []]. Qed.
Lemma arr_app l l' : arrived (l ++ l') -> arrived l /\ arrived l'.
Proof. by move=> A; split=> m H; apply: A; apply: List.in_or_app; [left|right]. Qed.
Lemma runs_fine l : arrived l -> fine wa wb typed (sd (runs l)).
Proof. move=> A; apply: (fold_wf _ _ _ _ _ contract0) => //; exact: arr_wins. Qed.
Lemma next l m : arrived (l ++ [:: m]) -> sd (runs (l ++ [:: m])) = fst (h_delegate deleg0 (sd (runs l)) m).
Proof. move=> A; apply: (step_next _ _ _ _ _ contract0 _ W0 no_ooo0); exact: arr_wins. Qed.
Lemma runs_grow l l' : arrived (l ++ l') -> grow (sd (runs l)) (sd (runs (l ++ l'))).
Proof.
elim/last_ind: l' => [|l' m IH]; first by rewrite cats0 => _ x k.
rewrite -cats1 catA => A; have [A1 A2] := arr_app A; apply: (grow_trans (IH A1)); rewrite (next A); apply: hgrow; first exact: runs_fine.
by have [_ []] := A2 m (or_introl erefl).
Qed.
(** in every state a run goes through, each instance has a belief before [lo], so before every measurement, and is as enabled as
    it was at the beginning *)
Lemma runs_before l d id i t : arrived l -> fine wa wb typed d -> same d (sd (runs l)) -> Z.le lo t -> d_find id d = Some i -> get_before_t t (i_bel i) <> None.
Proof.
move=> A [Wd Td] S Lt Gi.
have K : keeps (fun k => Z.lt k lo) d0 (sd (runs l)).
  apply: (fold_keeps _ _ _ _ _ contract0 _ l (d0, nil, nil)) => //; last exact: arr_wins.
  by move=> m /A [Lm _]; lia.
have [k [v [Lk Bk]]] := keeps_anchored deleg0 typed lo lo d0 d (keeps_same _ _ _ _ K S) An0 (Z.le_refl _) (id, i) (find_In Gi).
have So : ssorted (i_bel i) by case: (wf_find Wd Gi) => [[]].
move=> /(get_before_none _ _ (ssorted_w _ So)) H; have Hin : List.In (k, v) (i_bel i) by apply/(get_at_iff _ _ _ So).
by have /= := H _ Hin; lia.
Qed.
Lemma runs_enabled l id i0 : arrived l -> d_find id d0 = Some i0 -> exists i, d_find id (sd (runs l)) = Some i /\ i_enabled i = i_enabled i0.
Proof.
move=> A G; have K : keeps (fun k => Z.lt k lo) d0 (sd (runs l)).
  apply: (fold_keeps _ _ _ _ _ contract0 _ l (d0, nil, nil)) => //; last exact: arr_wins.
  by move=> m /A [Lm _]; lia.
have := keeps_find _ id _ _ K; rewrite G; case: d_find => [i|//] E; by exists i.
Qed.
Lemma runs_made l p l' : arrived (l ++ p :: l') -> m_ty p = PROPAGATION -> bel_of (sd (runs (l ++ p :: l'))) (m_id p) (m_t p) <> None.
Proof.
rewrite -cat1s catA => A Ty; have [A1 A2] := arr_app A; apply: (runs_grow A); have [A3 A4] := arr_app A1; rewrite (next A1).
have [Lo [[Lp Op] [i0 [Gi0 En0]]]] := A4 p (or_introl erefl).
have Fd := runs_fine A3; have [i [Gi En]] := runs_enabled A3 Gi0.
rewrite /h_delegate Gi En En0.
have [_ H] := prop0 (proj1 Fd) (proj2 Fd) Lp Op Ty.
have -> : fst (let (d', s) := deleg0 (sd (runs l)) p in (d', Res s (m_t p))) = fst (deleg0 (sd (runs l)) p) by case: deleg0.
apply: H => j Gj; apply: (runs_before A3 Fd _ Lo Gj); apply: same_refl; by case: Fd => [[]].
Qed.

(** ** the shipped code *)
Lemma ex_eq d m : wf d -> typed d -> fits m ->
  (m_ty m = PROPAGATION -> forall i, d_find (m_id m) d = Some i -> get_before_t (m_t m) (i_bel i) <> None) ->
  (m_ty m = JOINT -> bel_of d (m_id m) (m_t m) <> None /\ bel_of d (x_peer (m_dat m)) (m_t m) <> None) -> exd d m = est_t d m.
Proof.
move=> W T O HP HJ; rewrite /ex; case Ty: (m_ty m).
- by case: O => _ [_ [_ []]].
- rewrite (@ex_propagate_eq _ _ _ reg m d T O Ty (HP Ty)); first by rewrite /est /tag Ty.
  by move=> e H; case: (proj2 W e H) => [[]].
- by rewrite (@ex_private_eq _ _ _ _ _ dtf reg m d T O Ty) /est /tag Ty.
- by have [H1 H2] := HJ Ty; rewrite (@ex_joint_eq _ _ g _ _ _ dtf reg m d T O Ty H1 H2) /est /tag Ty.
Qed.
Definition covered (l : list meas) : Prop := forall m, List.In m l -> m_ty m = JOINT ->
  forall x, x = m_id m \/ x = x_peer (m_dat m) -> exists p, List.In p l /\ m_ty p = PROPAGATION /\ m_id p = x /\ m_t p = m_t m.
Lemma prepared_covered l a b : prepared l -> l = (a ++ b)%list -> covered a.
Proof.
move=> H E m Hm Ty x Hx; have [a1 [a2 Ea]] := List.in_split _ _ Hm.
have E2 : l = (a1 ++ m :: (a2 ++ b))%list by rewrite E Ea -List.app_assoc.
have [p [Hp Rp]] := H a1 m (a2 ++ b)%list E2 Ty x Hx.
by exists p; split=> //; rewrite Ea; apply: List.in_or_app; left.
Qed.
Lemma covered_perm l l' : Permutation l l' -> covered l -> covered l'.
Proof.
move=> Pm H m Hm Ty x Hx; have [p [Hp R]] := H m (Permutation_in _ (Permutation_sym Pm) Hm) Ty x Hx.
exists p; split=> //; exact: Permutation_in Pm Hp.
Qed.
Lemma covered_prepared l : msorted l -> covered l -> prepared l.
Proof.
move=> S H a m b E Ty x Hx; have Hm : List.In m l by rewrite E; apply: List.in_or_app; right; left.
have [p [Hp [Tp [Ip Tt]]]] := H m Hm Ty x Hx; exists p; split=> //.
rewrite E in Hp; case: (List.in_app_or _ _ _ Hp) => [//|[Ep|Hb]]; first by move: Tp; rewrite -Ep Ty.
move: S; rewrite E; elim: a {E Hp} => [|y a IH] /= S; last by inversion S; auto.
inversion S as [|? ? S' Fa]; move: (proj1 (List.Forall_forall _ _) Fa p Hb); rewrite /mle Ty Tp Tt /=; clear; lia.
Qed.
Variable fallback : dict -> meas -> dict * status.
Notation exw := (ex_with junk g hor is_psd nearest eps0 dtf fallback).
Lemma calls_ok L : arrived L -> msorted L -> covered L -> calls deleg0 exw wa wb typed d0 L.
Proof.
move=> A S Cv pre m post d E Fd Sd; have Pp := covered_prepared S Cv.
have [A1 A2] : arrived pre /\ arrived (m :: post) by apply: arr_app; rewrite E in A.
have [Lo [[Lm Om] _]] := A2 m (or_introl erefl).
have [_ _ Bs _] := same_of Sd.
rewrite /ex_with (ex_eq (proj1 Fd) (proj2 Fd) Om).
- by rewrite /deleg0; have [d' [s [_ [-> _]]]] := run0 (proj1 Fd) (proj2 Fd) Lm Om.
- by move=> Ty i Gi; exact: (runs_before A1 Fd Sd Lo Gi).
move=> Ty; have Hx x : x = m_id m \/ x = x_peer (m_dat m) -> bel_of d x (m_t m) <> None.
  move=> Hx; have [p [Hp [Tp [<- <-]]]] := Pp pre m post E Ty x Hx.
  by have [a [b Ep]] := List.in_split _ _ Hp; rewrite Bs Ep; apply: (runs_made (l := a)) => //; move: A1; rewrite Ep.
by split; apply: Hx; [left|right].
Qed.
End Run.
