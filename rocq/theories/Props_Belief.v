(** C33, C56, C66: beliefs, their history, propagation and private updates of a single filter. *)
From Coq Require Import ZArith List Bool Arith Lia.
From mathcomp Require Import all_ssreflect all_algebra.
From Verif Require Import Outcome DoubleModel BufModel BufProofs DMat KFModel BeliefModel BeliefProofs.
Set Implicit Arguments. Unset Strict Implicit. Unset Printing Implicit Defensive.
Import GRing.Theory Num.Theory.
Local Open Scope ring_scope.
Local Open Scope outcome_scope.

Section Props.
Variable F : realFieldType.
Variable junk : forall n, 'M[F]_n -> 'M[F]_n.
Notation dmat := (dmat F).
Notation belief := (belief F).
Notation heap := (heap F).

(** * C56: values *)
(** correct(dx, Sigma): mean + dx, the given covariance, nothing else; defined exactly when dx has the shape of the mean *)
Theorem C56_correct : forall m n (x dx : 'M[F]_(m, n)) Sg S' t fx fe es,
  bel_correct (DM dx) S' (Bel (DM x) Sg t fx fe es) = Ok (Bel (DM (x + dx)) S' t fx fe es).
Proof. by move=> *; rewrite /bel_correct /bel_correct_mean /= dadd_ok. Qed.
Theorem C56_correct_shape : forall (dx Sg : dmat) (b : belief),
  (exists b', bel_correct dx Sg b = Ok b') <-> (drows dx = drows (b_mean b) /\ dcols dx = dcols (b_mean b)).
Proof.
move=> dx Sg b; rewrite /bel_correct /bel_correct_mean /dadd /dzip.
case: eqP => [e1|n1]; last by split; [case|case].
case: eqP => [e2|n2]; last by split; [case|case].
by split=> [//|_]; eexists.
Qed.
(** boxplus after boxminus is the identity on the mean; boxminus of a belief with itself is zero *)
Theorem C56_box : forall n (x y : 'cV[F]_n) (a b : belief), b_mean a = DM x -> b_mean b = DM y ->
  exists dx b', bel_boxminus a b = Ok dx /\ bel_boxplus dx b = Ok b' /\ b_mean b' = b_mean a /\ b_Sigma b' = b_Sigma b /\
    b_t b' = b_t b /\ bel_boxminus a a = Ok (dzero F n 1).
Proof.
move=> n x y a b Ea Eb; rewrite /bel_boxminus Ea Eb dsub_ok dsub_ok subrr.
exists (DM (x - y)); eexists; split=> //; rewrite /bel_boxplus /bel_correct_mean Eb dadd_ok /=.
by split=> //=; split; first by rewrite addrC subrK.
Qed.
(** set() refuses inconsistent dimensions and then changes nothing *)
Theorem C56_set : forall (mean Sg : dmat) (b : belief),
  if (dcols mean == 1)%N && (drows mean == drows Sg) && (drows Sg == dcols Sg)
  then bel_set mean Sg b = (Bel mean Sg (b_t b) (b_fixed b) (b_fej b) (b_ess b), true)
  else bel_set mean Sg b = (b, false).
Proof. by move=> mean Sg b; rewrite /bel_set /check_dim_mean; case: (dcols mean == 1%N); case: (drows mean == drows Sg); case: (drows Sg == dcols Sg). Qed.

(** * C56: objects.  Method calls through a pointer. *)
Inductive call := CMean (v : dmat) | CSigma (v : dmat) | CSet (m s : dmat) | CCorrect (dx s : dmat) | CTime (t : Z) | COptions (a b c : bool).
Definition call_on (p : nat) (c : call) (h : heap) : outcome heap :=
  match c with
  | CMean v => Ok (h_write p (bel_set_mean v (h_obj h p)) h)
  | CSigma v => Ok (h_write p (bel_set_Sigma v (h_obj h p)) h)
  | CSet m s => Ok (h_set p m s h).1
  | CCorrect dx s => h_correct p dx s h
  | CTime t => Ok (h_set_t p t h)
  | COptions a b c => Ok (h_set_options p a b c h)
  end.
Fixpoint calls (cs : list (nat * call)) (h : heap) : outcome heap :=
  match cs with nil => Ok h | (p, c) :: r => let! h' := call_on p c h in calls r h' end.
Lemma call_other p c (h h' : heap) q : call_on p c h = Ok h' -> q <> p -> h_obj h' q = h_obj h q.
Proof.
move=> E N; have W b : h_obj (h_write p b h) q = h_obj h q by rewrite /h_write /=; case: Nat.eqb_spec.
case: c E => [v|v|m s|dx s|t|a b c] /=; try (by case=> <-; rewrite ?/h_set_t ?/h_set_options W).
- by rewrite /h_set; case: bel_set => b r [<-]; rewrite W.
- by rewrite /h_correct; case: bel_correct => //= b [<-]; rewrite W.
Qed.
Lemma calls_other cs : forall (h h' : heap) q, calls cs h = Ok h' -> (forall e, List.In e cs -> fst e <> q) -> h_obj h' q = h_obj h q.
Proof.
elim: cs => [|[p c] cs IH] h h' q /=; first by case=> ->.
case E: call_on => [h1|e|e] //= E2 N; rewrite (IH _ _ _ E2); last by move=> e He; apply: N; right.
by apply: (call_other E) => Eq; apply: (N (p, c)); [left|].
Qed.
(** clone() yields a new object with the same content; whatever is called on either one afterwards does not affect the other,
    nor any other object *)
Theorem C56_clone : forall (h h' : heap) p q, (p < h_next h)%coq_nat -> h_clone p h = (h', q) ->
  h_obj h' q = h_obj h p /\ q <> p /\ (forall r, (r < h_next h)%coq_nat -> h_obj h' r = h_obj h r) /\
  (forall cs h2, calls cs h' = Ok h2 -> (forall e, List.In e cs -> fst e = q) ->
     forall r, (r < h_next h)%coq_nat -> h_obj h2 r = h_obj h r) /\
  (forall cs h2, calls cs h' = Ok h2 -> (forall e, List.In e cs -> fst e <> q) -> h_obj h2 q = h_obj h p).
Proof.
move=> h h' p q L [<- <-] /=.
have Old r : (r < h_next h)%coq_nat -> (if (r =? h_next h)%nat then h_obj h p else h_obj h r) = h_obj h r.
  by move=> Lr; case: Nat.eqb_spec => //; lia.
split; first by rewrite Nat.eqb_refl.
split; first by move=> E; lia.
split=> //; split=> cs h2 E H.
- move=> r Lr; rewrite (calls_other E) /=; first exact: Old.
  by move=> e He; rewrite (H _ He); lia.
- by rewrite (calls_other E) //= Nat.eqb_refl.
Qed.
Theorem C56_other_objects : forall cs (h h' : heap) q, calls cs h = Ok h' -> (forall e, List.In e cs -> fst e <> q) -> h_obj h' q = h_obj h q.
Proof. exact: calls_other. Qed.

(** * C33: propagation and private updates write at one time only, and nothing when they fail *)
Lemma insert_get {T} t x (v : T) l : ssorted l -> get_at_t x (hb_insert t v l) = if Z.eqb x t then Some v else get_at_t x l.
Proof.
move=> S; apply: opt_ext => w; rewrite get_at_iff; last exact: hb_insert_ssorted.
rewrite hb_insert_In //=; case: (Z.eqb_spec x t) => [->|N].
  split; first by case=> [[->] //|[_ /= H]]; case: H.
  by case=> ->; left.
rewrite get_at_iff //; split; first by case=> [[E _]|[H _]].
by move=> H; right.
Qed.
Definition one_write (t : Z) (l l' : buf belief) : Prop :=
  (exists b, get_at_t t l' = Some b) /\ forall x, x <> t -> get_at_t x l' = get_at_t x l.
Lemma one_write_insert t b (l : buf belief) : ssorted l -> one_write t l (hb_insert t b l).
Proof.
move=> S; split; first by exists b; rewrite insert_get // Z.eqb_refl.
by move=> x N; rewrite insert_get //; case: Z.eqb_spec.
Qed.
Theorem C33_propagate_writes : forall (Phi Q : dmat) ta tb l l' ok, ssorted l -> kf_propagate Phi Q ta tb l = Ok (l', ok) ->
  if ok then one_write tb l l' /\ ssorted l' else l' = l.
Proof.
move=> Phi Q ta tb l l' ok S; rewrite /kf_propagate /kf_propagate_bel.
case: (get_at_t ta l) => [ba|]; last by case=> <- <-.
case: check_dim_mean; last by case=> <- <-.
case: dmul => [mb|e|e] //=; case: check_dim_phi_q; last by case=> <- <-.
case: covariance_propagation => [Sb|e|e] //=; case: (_ && _); last by case=> <- <-.
by case=> <- <-; split; [exact: one_write_insert|exact: hb_insert_ssorted].
Qed.
(** the propagated belief is (Phi m, Phi Sigma Phi^T + Q) stamped t_b with the options of the prior *)
Theorem C33_propagate_value : forall n (x : 'cV[F]_n) (Sg Phi Q : 'M[F]_n) ta tb t0 fx fe es (l : buf belief), ssorted l ->
  get_at_t ta l = Some (Bel (DM x) (DM Sg) t0 fx fe es) ->
  exists l', kf_propagate (DM Phi) (DM Q) ta tb l = Ok (l', true) /\
    get_at_t tb l' = Some (Bel (DM (Phi *m x)) (DM (Phi *m Sg *m Phi^T + Q)) tb fx fe es) /\
    forall y, y <> tb -> get_at_t y l' = get_at_t y l.
Proof.
move=> n x Sg Phi Q ta tb t0 fx fe es l S G; rewrite /kf_propagate G /check_dim_mean /= !eqxx /= dmul_ok /=.
rewrite /kf_propagate_bel /= /check_dim_phi_q /check_dim_phi /= !eqxx /=.
rewrite /covariance_propagation /check_dim_phi_q /check_dim_phi /= !eqxx /= dmul_ok /= dmul_ok /= dadd_ok /=.
rewrite /check_dim_mean /= !eqxx /= /bel_set /check_dim_mean /= !eqxx /=.
eexists; split; first by [].
have [_ W] := one_write_insert tb (Bel (DM (Phi *m x)) (DM (Phi *m Sg *m Phi^T + Q)) tb fx fe es) S.
by split=> //; rewrite insert_get // Z.eqb_refl.
Qed.
(** for stored beliefs with a square covariance apply_propagation never aborts, and it succeeds exactly if a belief is stored at t_a
    and all dimensions fit *)
Theorem C33_propagate_total : forall (Phi Q : dmat) ta tb (l : buf belief),
  (forall b, get_at_t ta l = Some b -> drows (b_Sigma b) = dcols (b_Sigma b)) ->
  exists l' ok, kf_propagate Phi Q ta tb l = Ok (l', ok) /\
    (ok = true <-> exists b, get_at_t ta l = Some b /\ dcols (b_mean b) = 1%N /\ drows (b_mean b) = drows (b_Sigma b) /\
        drows Phi = drows (b_Sigma b) /\ dcols Phi = drows (b_Sigma b) /\ drows Q = drows (b_Sigma b) /\ dcols Q = drows (b_Sigma b)).
Proof.
move=> Phi Q ta tb l; rewrite /kf_propagate.
case: (get_at_t ta l) => [[mean Sg t0 fx fe es]|] Sq; last first.
  by exists l, false; split=> //; split=> // [[b []]].
have {}Sq := Sq _ erefl; rewrite /= in Sq.
case: mean => mr mc mean; case: Sg Sq => sr sc Sg /= Sq; subst sc; case: Phi => pr pc Phi; case: Q => qr qc Q.
rewrite /check_dim_mean /=; case: (mc =P 1%N) => [E1|N1] /=; last first.
  by exists l, false; split=> //; split=> // [[b [[<-] []]]].
subst mc; case: (mr =P pr) => [E2|N2] /=; last first.
  by exists l, false; split=> //; split=> // [[b [[<-] /= [_ [E1 [E2 _]]]]]]; case: N2; rewrite E1 E2.
subst mr; case: (pr =P pc) => [E3|N3] /=; last first.
  by exists l, false; split=> //; split=> // [[b [[<-] /= [_ [E1 [E2 [E3 _]]]]]]]; case: N3; rewrite E2 E3.
subst pc; rewrite dmul_ok /= /kf_propagate_bel /= /check_dim_phi_q /check_dim_phi /=.
case: (sr =P pr) => [E4|N4] /=; last first.
  by exists l, false; split=> //; split=> // [[b [[<-] /= [_ [E1 [E2 [E3 _]]]]]]]; case: N4.
subst sr; case: (pr =P qr) => [E5|N5] /=; last first.
  by exists l, false; split=> //; split=> // [[b [[<-] /= [_ [E1 [E2 [E3 [E4 E5]]]]]]]]; case: N5.
subst qr; case: (pr =P qc) => [E6|N6] /=; last first.
  by exists l, false; split=> //; split=> // [[b [[<-] /= [_ [E1 [E2 [E3 [E4 E5]]]]]]]]; case: N6.
subst qc; rewrite /covariance_propagation /check_dim_phi_q /check_dim_phi /= !eqxx /= dmul_ok /= dmul_ok /= dadd_ok /=.
rewrite /bel_set /check_dim_mean /= !eqxx /=; do 2 eexists; split; first by [].
by split=> // _; eexists; split; first by [].
Qed.
Theorem C33_store_writes : forall (bb : belief) (Phi : dmat) tb l l' ok, ssorted l -> kf_propagate_store bb Phi tb l = Ok (l', ok) ->
  if ok then one_write tb l l' /\ get_at_t tb l' = Some (bel_set_t tb bb) else l' = l.
Proof.
move=> bb Phi tb l l' ok S; rewrite /kf_propagate_store; case: check_dim_phi; last by case=> <- <-.
by case=> <- <-; split; [exact: one_write_insert|rewrite insert_get // Z.eqb_refl].
Qed.
(** a private update changes the belief at its time only, keeps its stamp and options, and changes nothing when it is rejected *)
Theorem C33_private_writes : forall (H R z : dmat) t cfg l l' ok, ssorted l -> kf_private junk H R z t cfg l = Ok (l', ok) ->
  if ok then one_write t l l' /\ (exists b b', get_at_t t l = Some b /\ get_at_t t l' = Some b' /\ b_t b' = b_t b /\ b_fixed b' = b_fixed b)
  else l' = l.
Proof.
move=> H R z t cfg l l' ok S; rewrite /kf_private /kf_private_bel.
case G: (get_at_t t l) => [ba|]; last by case=> <- <-.
case: dmul => [hm|e|e] //=; case: dsub => [r|e|e] //=.
case: KFModel.correction_step => [res|e|e] //=; case: rejected => /=; first by case=> <- <-.
case C: bel_correct => [b'|e|e] //= [<- <-]; split; first exact: one_write_insert.
exists ba, b'; rewrite insert_get // Z.eqb_refl; split=> //; split=> //.
by move: C; rewrite /bel_correct /bel_correct_mean; case: dadd => //= m [<-].
Qed.
Theorem C33_correct_writes : forall dx Sg t (l l' : buf belief) ok, ssorted l -> kf_correct_at dx Sg t l = Ok (l', ok) ->
  if ok then one_write t l l' else l' = l /\ get_at_t t l = None.
Proof.
move=> dx Sg t l l' ok S; rewrite /kf_correct_at; case: (get_at_t t l) => [b|]; last by case=> <- <-.
by case: bel_correct => //= b' [<- <-]; exact: one_write_insert.
Qed.

(** * C66: the history of shared pointers behaves as a history of values *)
(** the calls that manage a filter's history: a new object is stored (initialize, set_belief_at_t, prediction), propagation,
    private update, correction, removals *)
Inductive pop :=
| PNew (b : belief) (t : Z) | PPropagate (Phi Q : dmat) (ta tb : Z) | PPrivate (H R z : dmat) (t : Z) (cfg : corr_cfg F)
| PCorrect (dx Sg : dmat) (t : Z) | PRemoveAfter (t : Z) | PRemoveAt (t : Z).
Definition pstep (s : pfilt F) (o : pop) : outcome (pfilt F) :=
  match o with
  | PNew b t => let (h, p) := h_new b (p_heap s) in Ok (p_set_at p t (PF h (p_hist s)))
  | PPropagate Phi Q ta tb => omap fst (p_propagate Phi Q ta tb s)
  | PPrivate H R z t cfg => omap fst (p_private junk H R z t cfg s)
  | PCorrect dx Sg t => omap fst (p_correct_at dx Sg t s)
  | PRemoveAfter t => Ok (p_remove_after t s)
  | PRemoveAt t => Ok (p_remove_at t s)
  end.
Definition vstep (l : buf belief) (o : pop) : outcome (buf belief) :=
  match o with
  | PNew b t => Ok (hb_insert t b l)
  | PPropagate Phi Q ta tb => omap fst (kf_propagate Phi Q ta tb l)
  | PPrivate H R z t cfg => omap fst (kf_private junk H R z t cfg l)
  | PCorrect dx Sg t => omap fst (kf_correct_at dx Sg t l)
  | PRemoveAfter t => Ok (remove_after_t t l)
  | PRemoveAt t => Ok (remove_at_t t l)
  end.
Fixpoint prun (s : pfilt F) (ops : list pop) : outcome (pfilt F) :=
  match ops with nil => Ok s | o :: r => let! s' := pstep s o in prun s' r end.
Fixpoint vrun (l : buf belief) (ops : list pop) : outcome (buf belief) :=
  match ops with nil => Ok l | o :: r => let! l' := vstep l o in vrun l' r end.
Lemma pstep_refines s o : unaliased s -> omap (@values F) (pstep s o) = vstep (values s) o /\ (forall s', pstep s o = Ok s' -> unaliased s').
Proof.
move=> U; case: o => [b t|Phi Q ta tb|H R z t cfg|dx Sg t|t|t] /=.
- have Fr := next_fresh U.
  have Old q : (q < h_next (p_heap s))%coq_nat -> (if (q =? h_next (p_heap s))%nat then b else h_obj (p_heap s) q) = h_obj (p_heap s) q.
    by move=> L; case: Nat.eqb_spec => //; lia.
  split; last by move=> s' [<-]; apply: (@fresh_unaliased _ s t (h_next (p_heap s))) => //=; lia.
  by rewrite (@fresh_values _ s t _ _ U) //= Nat.eqb_refl.
- have [E W] := @refine_propagate F s Phi Q ta tb U; rewrite -E; case P: p_propagate => [[s' r]|e|e] //=.
  by split=> // s2 [<-]; exact: (W _ _ P).
- have [E W] := @refine_private F junk s H R z t cfg U; rewrite -E; case P: p_private => [[s' r]|e|e] //=.
  by split=> // s2 [<-]; exact: (W _ _ P).
- have [E W] := @refine_correct_at F s dx Sg t U; rewrite -E; case P: p_correct_at => [[s' r]|e|e] //=.
  by split=> // s2 [<-]; exact: (W _ _ P).
- by have [E W] := refine_remove_after t U; rewrite E; split=> // s' [<-].
- by have [E W] := refine_remove_at t U; rewrite E; split=> // s' [<-].
Qed.
(** for every sequence of these calls, what the stored pointers show is what a history of plain values would contain *)
Theorem C66_pointers_as_values : forall ops h, omap (@values F) (prun (PF h nil) ops) = vrun nil ops.
Proof.
move=> ops h.
have : unaliased (PF h nil) by split; [constructor|split; [constructor|]].
have -> : (nil : buf belief) = values (PF h nil) by [].
move: (PF h nil); elim: ops => [//|o ops IH] s U /=.
have [<- W] := pstep_refines o U; case E: pstep => [s'|e|e] //=.
by apply: IH; apply: W.
Qed.
(** storing the same object under a second time breaks this: correcting the belief at 20 changes the belief at 10 *)
Theorem C66_aliasing_hazard : forall n (x dx : 'cV[F]_n) Sg, dx <> 0 ->
  let b := Bel (DM x) Sg (Zpos 10%positive) false false true in
  let s := p_set_at 0 (Zpos 20%positive) (p_set_at 0 (Zpos 10%positive) (PF (Heap 1 (fun _ => b)) nil)) in
  exists s', p_correct_at (DM dx) Sg (Zpos 20%positive) s = Ok (s', true) /\ get_at_t (Zpos 10%positive) (values s') <> get_at_t (Zpos 10%positive) (values s).
Proof.
move=> n x dx Sg N b s; rewrite /p_correct_at /= /h_correct /= /bel_correct /bel_correct_mean /= dadd_ok /=.
eexists; split; first by []; rewrite /values /=.
move/(f_equal (fun o => match o with Some b => b_mean b | None => DM x end)) => /= /DM_inj /eqP.
by rewrite -subr_eq0 addrC addKr => /eqP E; exact: N.
Qed.
End Props.

Arguments PRemoveAfter {F} t. Arguments PRemoveAt {F} t.
(** a two-dimensional belief history over the rationals: initialise, propagate, correct, remove *)
Example C66_example : let b := Bel (DM (0 : 'cV[rat_realFieldType]_2)) (DM (1%:M : 'M[rat_realFieldType]_2)) Z0 false false true in
  exists l, vrun (fun n A => A) nil [:: PNew b Z0; PPropagate (DM (1%:M : 'M[rat_realFieldType]_2)) (DM (1%:M : 'M[rat_realFieldType]_2)) Z0 (Zpos 5%positive);
     PCorrect (DM (const_mx 1 : 'cV[rat_realFieldType]_2)) (DM (1%:M : 'M[rat_realFieldType]_2)) (Zpos 5%positive); PRemoveAfter (Zpos 7%positive)] = Ok l /\
  size l = 2%N /\ (exists b5, get_at_t (Zpos 5%positive) l = Some b5 /\ b_mean b5 = DM (const_mx 1 : 'cV[rat_realFieldType]_2)) /\ get_at_t Z0 l = Some b.
Proof.
move=> b; rewrite /=.
have S : ssorted [:: (Z0, b)] by constructor; constructor.
have [l [E [G W]]] := @C33_propagate_value rat_realFieldType 2 0 1%:M 1%:M 1%:M Z0 (Zpos 5%positive) Z0 false false true [:: (Z0, b)] S erefl.
rewrite E /= /kf_correct_at G /= C56_correct /=.
have El : l = [:: (Z0, b); ((Zpos 5%positive), Bel (DM (1%:M *m (0 : 'cV[rat_realFieldType]_2))) (DM ((1%:M : 'M[rat_realFieldType]_2) *m 1%:M *m 1%:M^T + 1%:M)) (Zpos 5%positive) false false true)].
  move: E; rewrite /kf_propagate /= /check_dim_mean /= ?eqxx /= dmul_ok /= /kf_propagate_bel /= /check_dim_phi_q /check_dim_phi /= ?eqxx /=.
  rewrite /covariance_propagation /check_dim_phi_q /check_dim_phi /= ?eqxx /= dmul_ok /= dmul_ok /= dadd_ok /=.
  by rewrite /bel_set /check_dim_mean /= => -[<-].
rewrite El /=; eexists; split; first by [].
split=> //; split=> //; eexists; split; first by [].
by rewrite /= mulmx0 add0r.
Qed.

Print Assumptions C56_correct. Print Assumptions C56_correct_shape. Print Assumptions C56_box. Print Assumptions C56_set.
Print Assumptions C56_clone. Print Assumptions C56_other_objects.
Print Assumptions C33_propagate_writes. Print Assumptions C33_propagate_value. Print Assumptions C33_propagate_total.
Print Assumptions C33_store_writes. Print Assumptions C33_private_writes. Print Assumptions C33_correct_writes.
Print Assumptions C66_pointers_as_values. Print Assumptions C66_aliasing_hazard.
