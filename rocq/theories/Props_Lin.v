(** C105: the estimator of the first shipped example. *)
From Coq Require Import ZArith List Bool Arith Lia Reals Lra.
From Flocq Require Import IEEE754.BinarySingleNaN.
From mathcomp Require Import all_ssreflect all_algebra.
From Verif Require Import Outcome TimestampModel DoubleModel Chi2Model Props_Chi2 DMat KFModel BeliefModel EigenModel EigenProofs Props_Eigen CatModel Props_Cat Spec_Mat KFProofs Props_KF StdModel Spec_Std StdProofs Props_Std LinModel LinProofs Props_LinClock.
Set Implicit Arguments. Unset Strict Implicit. Unset Printing Implicit Defensive.
Import Order.Theory GRing.Theory Num.Theory.
Local Open Scope ring_scope.
Local Open Scope outcome_scope.

Section C105.
Variable F : realFieldType.
Variable junk : forall n, 'M[F]_n -> 'M[F]_n.
Variable garbage : forall m n, 'M[F]_(m, n).
Variable is_psd : dmat F -> bool.
Variable eps eps0 : F.
Variable dim : nat -> nat.
Hypothesis dim_pos : forall i, (0 < dim i)%N.
Notation dmat := (dmat F).
Notation std := (std F).
Notation thr := (table_threshold F (Zpos 997)).
Notation reach := (@reach F junk garbage is_psd eps eps0 dim).
Notation exec := (@exec F junk garbage is_psd eps eps0 dim).
Notation net_of := (@net_of F dim).

(** without define_system nothing happens, whatever the filter holds *)
Theorem C105_undefined : forall (l : lin F) u v z a (s : std), l_defined l = false ->
  lin_predict l a s = Ok (s, false) /\ lin_predict_u l u v a s = Ok (s, false) /\ lin_update junk eps l z a s = Ok (s, false).
Proof. by move=> l u v z a s U; rewrite /lin_predict /lin_predict_u /lin_update U. Qed.
(** a new estimator is in that state until define_system is called *)
Corollary C105_new : forall u v z a (s : std),
  lin_predict (lin_new F) a s = Ok (s, false) /\ lin_predict_u (lin_new F) u v a s = Ok (s, false) /\ lin_update junk eps (lin_new F) z a s = Ok (s, false).
Proof. by move=> u v z a s; apply: C105_undefined. Qed.
(** with it, a filter that never got a belief dereferences a null pointer *)
Theorem C105_no_belief : forall (l : lin F) A Q G u v z a (s : std), l_defined l = true -> so_bel (st_obj s a) = None ->
  lin_predict l a s = UB NullDeref /\ lin_predict_u l u v a s = UB NullDeref /\ lin_predict_with l A Q G u v a s = UB NullDeref /\
  lin_update junk eps l z a s = UB NullDeref.
Proof. by move=> l A Q G u v z a s U N; rewrite /lin_predict /lin_predict_u /lin_predict_with /lin_update U /is_private /with_bel_of N. Qed.

Section At.
Variables (s : std) (i a : nat).
Hypothesis Rs : reach s.
Hypothesis g : st_get i s = Some a.
Variables (A Q : 'M[F]_(dim i)) (G : 'cV[F]_(dim i)) (m : nat) (H : 'M[F]_(m, dim i)) (R : 'M[F]_m) (dt : double).
Let l := lin_define (DM A) (DM G) (DM Q) (DM H) (DM R) dt.
Notation t := (time (net_of s) i).
Lemma bel_time : exists b, so_bel (st_obj s a) = Some b /\ b_t b = t.
Proof.
by case: (obj_good (reach_wf dim_pos Rs) g) => x [P [t0 [f1 [f2 [f3 [_ [E [_ [_ [_ [_ [_ Et]]]]]]]]]]]]; exists (Bel (DM x) (DM P) t0 f1 f2 f3); rewrite E Et.
Qed.
Lemma live_i : live (net_of s) i. Proof. by rewrite /live /= g. Qed.

Lemma predict_exec t' : lin_time dt t = Ok t' -> lin_predict l a s = exec (CProp A Q t') s.
Proof. by move=> E; case: bel_time => b [Eb Et]; rewrite /lin_predict /= /with_bel_of Eb Et E /= /at_id g. Qed.
Lemma predict_u_exec (u v : F) t' : lin_time dt t = Ok t' ->
  lin_predict_u l (DM (u%:M : 'cV[F]_1)) (DM (v%:M : 'cV[F]_1)) a s = exec (CPropU A Q t' G u v) s.
Proof. by move=> E; case: bel_time => b [Eb Et]; rewrite /lin_predict_u /= /with_bel_of Eb Et E /= /at_id g. Qed.

(** predict(): the belief moves to the next tick; the ticks are those of Props_LinClock.v *)
Theorem C105_predict : forall t', symmetric Q -> lin_time dt t = Ok t' ->
  exists s', lin_predict l a s = Ok (s', Z.ltb t t') /\
    (Z.lt t t' -> propagated (net_of s) (net_of s') A Q 0 t') /\ (Z.le t' t -> nothing (net_of s) (net_of s')).
Proof.
move=> t' sQ E; rewrite (predict_exec E).
case: (@C84_total _ _ _ _ _ _ _ dim_pos s (CProp A Q t') Rs sQ) => //; first by move=> j ->; exact: live_i.
move=> s' [yes Es]; case: (C83_history dim_pos Rs (c := CProp A Q t') sQ Es) => _ [Ga [Ef No]].
rewrite /= in Ga; rewrite -Ga; exists s'; split; first exact: Es; split.
  by move/Z.ltb_lt => L; apply: Ef; rewrite Ga.
by move/Z.ltb_ge => L; apply: No; rewrite Ga.
Qed.
(** predict(u, var_u) with a scalar input *)
Theorem C105_predict_u : forall (u v : F) t', symmetric Q -> lin_time dt t = Ok t' ->
  exists s', lin_predict_u l (DM (u%:M : 'cV[F]_1)) (DM (v%:M : 'cV[F]_1)) a s = Ok (s', Z.ltb t t') /\
    (Z.lt t t' -> propagated (net_of s) (net_of s') A (v *: (G *m G^T) + Q) (u *: G) t') /\ (Z.le t' t -> nothing (net_of s) (net_of s')).
Proof.
move=> u v t' sQ E; rewrite (predict_u_exec _ _ E).
case: (@C84_total _ _ _ _ _ _ _ dim_pos s (CPropU A Q t' G u v) Rs sQ) => //; first by move=> j ->; exact: live_i.
move=> s' [yes Es]; case: (C83_history dim_pos Rs (c := CPropU A Q t' G u v) sQ Es) => _ [Ga [Ef No]].
rewrite /= in Ga; rewrite -Ga; exists s'; split; first exact: Es; split.
  by move/Z.ltb_lt => L; apply: Ef; rewrite Ga.
by move/Z.ltb_ge => L; apply: No; rewrite Ga.
Qed.
(** predict(F, Q, G, u, var_u) does the same with the caller's matrices, whether the system was defined or not; before define_system
    its step is 0, so it never advances *)
Theorem C105_predict_with : forall (l0 : lin F) (u v : F) t', symmetric Q -> lin_time (l_dt l0) t = Ok t' ->
  exists s', lin_predict_with l0 (DM A) (DM Q) (DM G) (DM (u%:M : 'cV[F]_1)) (DM (v%:M : 'cV[F]_1)) a s = Ok (s', Z.ltb t t') /\
    (Z.lt t t' -> propagated (net_of s) (net_of s') A (v *: (G *m G^T) + Q) (u *: G) t') /\ (Z.le t' t -> nothing (net_of s) (net_of s')).
Proof.
move=> l0 u v t' sQ E; have -> : lin_predict_with l0 (DM A) (DM Q) (DM G) (DM (u%:M : 'cV[F]_1)) (DM (v%:M : 'cV[F]_1)) a s = exec (CPropU A Q t' G u v) s.
  by case: bel_time => b [Eb Et]; rewrite /lin_predict_with /with_bel_of Eb Et E /= /at_id g.
case: (@C84_total _ _ _ _ _ _ _ dim_pos s (CPropU A Q t' G u v) Rs sQ) => //; first by move=> j ->; exact: live_i.
move=> s' [yes Es]; case: (C83_history dim_pos Rs (c := CPropU A Q t' G u v) sQ Es) => _ [Ga [Ef No]].
rewrite /= in Ga; rewrite -Ga; exists s'; split; first exact: Es; split.
  by move/Z.ltb_lt => L; apply: Ef; rewrite Ga.
by move/Z.ltb_ge => L; apply: No; rewrite Ga.
Qed.
Theorem C105_predict_undefined : forall (u v : F), symmetric Q -> Z.le Z0 t -> Z.le (Z.add t (Zpos 3000000000)) (Zpos 2097152000000000) ->
  exists s', lin_predict_with (lin_new F) (DM A) (DM Q) (DM G) (DM (u%:M : 'cV[F]_1)) (DM (v%:M : 'cV[F]_1)) a s = Ok (s', false) /\
    nothing (net_of s) (net_of s').
Proof.
move=> u v sQ T0 B; have E : lin_time (l_dt (lin_new F)) t = Ok t by apply: C105_clock_zero.
case: (C105_predict_with u v sQ E) => s'; rewrite Z.ltb_irrefl => -[E' [_ N]].
by exists s'; split=> //; apply: N; exact: Z.le_refl.
Qed.
(** update(z) *)
Theorem C105_update : forall z, symmetric R ->
  exists s' yes, lin_update junk eps l (DM z) a s = Ok (s', yes) /\ gate eps thr H R z (mean (net_of s) i) (cov (net_of s) i i) yes /\
    (yes = true -> privately_updated eps (net_of s) (net_of s') H R z) /\ (yes = false -> nothing (net_of s) (net_of s')).
Proof.
move=> z sR; case: (@C84_total _ _ _ _ _ _ _ dim_pos s (CPriv H R z) Rs sR) => //; first by move=> j ->; exact: live_i.
move=> s' [yes Es]; case: (C83_history dim_pos Rs (c := CPriv H R z) sR Es) => _ [Ga [Ef No]].
exists s', yes; split; last by []. by move: Es; rewrite /lin_update /= /at_id g.
Qed.
(** joint_update(H_II, H_JJ, ID_J, R, z) is the base class's, called on the filter's own ID: C83 and C84 say what it does *)
Theorem C105_joint : forall j k (Hi : 'M[F]_(k, dim i)) (Hj : 'M[F]_(k, dim j)) (Rj : 'M[F]_k) z,
  lin_joint junk garbage is_psd eps eps0 (DM Hi) (DM Hj) j (DM Rj) (DM z) a s = exec (CJoint Hi Hj Rj z) s.
Proof.
move=> j k Hi Hj Rj z; case: (obj_good (reach_wf dim_pos Rs) g) => x [P [t0 [f1 [f2 [f3 [E _]]]]]].
by rewrite /lin_joint E /= /at_id g.
Qed.
End At.

(** n calls of predict(); the flag says whether every call advanced *)
Fixpoint predicts (l : lin F) (n a : nat) (s : std) : outcome (std * bool) :=
  match n with
  | O => Ok (s, true)
  | S n => let! (s1, y) := lin_predict l a s in let! (s2, ys) := predicts l n a s1 in Ok (s2, y && ys)
  end.
Lemma propagate_dict (f : belief F -> outcome (belief F * bool)) Phi a (s s' : std) y : is_propagate_with f Phi a s = Ok (s', y) -> st_dict s' = st_dict s.
Proof.
rewrite /is_propagate_with /with_bel_of; case: so_bel => // b; case: (f b) => //= -[b' ok].
by case: ok => /=; [case: so_scale => //= o [<- _]|case=> <- _].
Qed.
(** the run of the example: a step of k ns (k at least 1) advances the belief every time, up to 24 days from the epoch *)
Theorem C105_run : forall n (s : std) i a (A Q : 'M[F]_(dim i)) (G : 'cV[F]_(dim i)) m (H : 'M[F]_(m, dim i)) (R : 'M[F]_m) dt k, reach s -> st_get i s = Some a -> symmetric Q ->
  step_of dt k -> Z.le Z0 (time (net_of s) i) -> Z.lt Z0 k ->
  Z.le (Z.add (Z.add (time (net_of s) i) (Z.mul (Z.of_nat n) k)) (Zpos 3000000000)) (Zpos 2097152000000000) ->
  exists s', predicts (lin_define (DM A) (DM G) (DM Q) (DM H) (DM R) dt) n a s = Ok (s', true) /\ reach s' /\ st_get i s' = Some a /\
    time (net_of s') i = Z.add (time (net_of s) i) (Z.mul (Z.of_nat n) k) /\
    mean (net_of s') i = iter n (mulmx A) (mean (net_of s) i) /\
    cov (net_of s') i i = iter n (fun P => A *m P *m A^T + Q) (cov (net_of s) i i) /\
    (forall j, but (net_of s) i j -> cov (net_of s') i j = iter n (mulmx A) (cov (net_of s) i j)) /\
    same_live (net_of s) (net_of s') /\ same (but (net_of s) i) (net_of s) (net_of s').
Proof.
elim=> [|n IH] s i a A Q G m H R dt k Rs g sQ St T0 K0 B.
  exists s; split=> //; split=> //; split=> //; split; last by do 3 (split=> //); split=> //; split.
  by rewrite Z.add_0_r.
have E : lin_time dt (time (net_of s) i) = Ok (Z.add (time (net_of s) i) k).
  have X : ticks dt 1 (time (net_of s) i) = Ok (Z.add (time (net_of s) i) (Z.mul (Z.of_nat 1) k)).
    apply: C105_clock_exact => //; first exact: Z.lt_le_incl.
    by move: B T0 K0; clear; move: (time _ _) => t; rewrite Nat2Z.inj_succ; nia.
  by move: X; rewrite /ticks Z.mul_1_l; case: lin_time.
case: (C105_predict Rs g A G H R sQ E) => s1 [E1 [Pr _]].
have L : Z.lt (time (net_of s) i) (Z.add (time (net_of s) i) k) by lia.
have [L1 [M1 [T1 [C1 [Ca [S1 S2]]]]]] := Pr L; have Y : Z.ltb (time (net_of s) i) (Z.add (time (net_of s) i) k) = true by exact/Z.ltb_lt.
rewrite Y in E1.
have R1 : reach s1 by apply: (reachS (c := CProp A Q (Z.add (time (net_of s) i) k)) Rs sQ); rewrite -(predict_exec Rs g A Q G H R E); exact: E1.
have g1 : st_get i s1 = Some a.
  have D : st_dict s1 = st_dict s.
    move: E1; rewrite /lin_predict /= /with_bel_of; case: so_bel => // b; case: lin_time => //= t' X; exact: propagate_dict X.
  by rewrite /st_get D.
case: (IH s1 i a A Q G m H R dt k R1 g1 sQ St) => //; first by rewrite T1; lia.
  by rewrite T1; move: B; clear; move: (time _ _) => t; rewrite Nat2Z.inj_succ; nia.
move=> s2 [E2 [R2 [g2 [T2 [M2 [C2 [X2 [L2 [S3 S4]]]]]]]]].
exists s2; split; first by rewrite [predicts _ _ _ _]/= E1 /= E2.
split=> //; split=> //; split; first by rewrite T2 T1; move: (time (net_of s) i) => t; clear; rewrite Nat2Z.inj_succ; nia.
split; first by rewrite M2 M1 addr0 -iterSr.
split; first by rewrite C2 C1 -iterSr.
have bt j : but (net_of s) i j -> but (net_of s1) i j by case=> v d; split=> //; exact/L1.
split; first by move=> j b; rewrite X2 ?(bt j b) //; last exact: bt; case: (Ca _ b) => -> _; rewrite -iterSr.
split; first by move=> j; split=> [/L2/L1|/L1/L2].
split=> [j b|j q b c]; last by rewrite S4 ?S2 //; exact: bt.
by case: (S3 _ (bt _ b)) => -> ->; exact: S1.
Qed.
End C105.

(** the hypotheses can be met: one filter, a hundred predictions of 10 ms each with A = 1, Q = 1 *)
Section Example.
Let Q := rat_realFieldType.
Let dm (_ : nat) := 1%N.
Let jk n (A : 'M[Q]_n) := A.
Let gb m n : 'M[Q]_(m, n) := 0.
Let psd_test (A : dmat Q) : bool := true.
Lemma dm_pos i : (0 < dm i)%N. Proof. by []. Qed.
Let s1 (x : Q) : 'M[Q]_1 := x%:M.
Let c1 : call Q dm := @CAdd Q dm 1 (s1 0) (s1 1) Z0.
Let l := lin_define (DM (s1 1)) (DM (s1 0)) (DM (s1 1)) (DM (s1 1)) (DM (s1 1)) ms10.
Example C105_example : exists s s' a, reach jk gb psd_test 0 0 dm s /\ st_get 1 s = Some a /\ predicts l 100 a s = Ok (s', true) /\
  time (net_of dm s') 1 = Zpos 1000000000 /\ mean (net_of dm s') 1 = 0 /\ cov (net_of dm s') 1 1 = s1 101%:R.
Proof.
have [s [y E]] : exists s y, @exec Q jk gb psd_test 0 0 dm c1 (@empty Q) = Ok (s, y) by eexists; eexists; reflexivity.
have sy x : symmetric (s1 x) by rewrite /symmetric /s1 tr_scalar_mx.
have R1 : reach jk gb psd_test 0 0 dm s by apply: (reachS (c := c1) (reach0 _ _ _ _ _ _)) E; exact: sy.
case: (@C83_history Q jk gb psd_test 0 0 dm dm_pos _ c1 _ _ (reach0 _ _ _ _ _ _) (sy _) E) => _ [Y [Ef _]].
have g : st_get 1 s = Some 0%N by move: E; rewrite /= => -[<- _].
have Ey : y = true by move: E; rewrite /= => -[_ <-].
case: (Ef Ey) => L [M [T [C _]]].
case: (@C105_run Q jk gb psd_test 0 0 dm dm_pos 100 s 1 0%N (s1 1) (s1 1) (s1 0) 1 (s1 1) (s1 1) ms10 (Zpos 10000000) R1 g (sy _)) => //.
- by case: C105_clock_example.
- by rewrite T.
- by rewrite T.
move=> s' [E' [R' [g' [T' [M' [C' _]]]]]]; exists s, s', 0%N; split=> //; split=> //; split; first exact: E'.
split; first by rewrite T' T.
have it n (x : 'cV[Q]_1) : iter n (mulmx (s1 1)) x = x by elim: n => //= n ->; rewrite /s1 mul1mx.
split; first by rewrite M' it M /s1 raddf0.
have ic n : iter n (fun P : 'M[Q]_1 => s1 1 *m P *m (s1 1)^T + s1 1) (s1 1) = s1 n.+1%:R.
  by elim: n => //= n ->; rewrite /s1 tr_scalar_mx mul1mx mulmx1 -raddfD /= -(natrD _ _ 1%N) addn1.
by rewrite C' C ic.
Qed.
End Example.
Print Assumptions C105_undefined.
Print Assumptions C105_new.
Print Assumptions C105_no_belief.
Print Assumptions C105_predict.
Print Assumptions C105_predict_u.
Print Assumptions C105_update.
Print Assumptions C105_joint.
Print Assumptions C105_run.
Print Assumptions C105_example.
Print Assumptions C105_predict_with.
Print Assumptions C105_predict_undefined.
