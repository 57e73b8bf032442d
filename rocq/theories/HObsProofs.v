(** Lemmas about the joint observation given by a measurement function. *)
From Coq Require Import ZArith List Bool Arith Lia.
From mathcomp Require Import all_ssreflect all_algebra.
From Verif Require Import Outcome DoubleModel BufModel BufProofs HorizonModel HorizonProofs MeasModel HandlerModel Spec_Handler DMat KFModel Spec_Mat KFProofs BeliefModel EigenModel EigenProofs IsoModel IsoProofs Spec_Joint JointProofs Props_Joint Props_Joint2 IsoTrace DPModel Spec_DP DPProofs HObsModel.
Set Implicit Arguments. Unset Strict Implicit. Unset Printing Implicit Defensive.
Import Order.Theory GRing.Theory Num.Theory.
Local Open Scope outcome_scope.
Local Open Scope ring_scope.

(** ** two loops in parallel *)
Lemma ofold_par {S A B} (f : S -> A -> outcome S) (g : S -> B -> outcome S) (Q : A -> B -> Prop) :
  (forall s a b, Q a b -> f s a = g s b) -> forall l l', List.Forall2 Q l l' -> forall s, ofold f s l = ofold g s l'.
Proof.
move=> H l l' Hl; elim: Hl => [//|a b r r' Hab _ IH] s /=; rewrite (H s a b Hab); case: (g s b) => //= s'; exact: IH.
Qed.

Lemma forall2_impl {A B} (P Q : A -> B -> Prop) l l' : (forall a b, P a b -> Q a b) -> List.Forall2 P l l' -> List.Forall2 Q l l'.
Proof. by move=> H; elim=> [|a b r r' Hab _ IH]; constructor=> //; exact: H. Qed.
Lemma forall2_nth {A B} (l : list A) : forall l' : list B, List.length l = List.length l' ->
  List.Forall2 (fun a b => exists k, List.nth_error l k = Some a /\ List.nth_error l' k = Some b) l l'.
Proof.
elim: l => [|a l IH] [|b l'] //= [E]; constructor; first by exists 0%N.
by apply: forall2_impl (IH _ E) => x y [k [K1 K2]]; exists k.+1.
Qed.

Section Move.
Variable F : realFieldType.
Notation dmat := (dmat F).
Notation belief := (belief F).
Variable us : list (nat * belief).
Notation ds := (dims us).
Notation N := (sumn ds).
(** the same beliefs with their means taken from the stacked vector x *)
Fixpoint at_mean (x : 'cV[F]_N) (k : nat) (l : list (nat * belief)) : list (nat * belief) :=
  match l with nil => nil | (i, b) :: r => (i, bel_set_mean (DM (sel F ds k *m x)) b) :: at_mean x k.+1 r end.
Lemma at_mean_ids x k l : List.map fst (at_mean x k l) = List.map fst l.
Proof. by elim: l k => [//|[i b] l IH] k /=; rewrite IH. Qed.
Lemma at_mean_dims x k l : dims (at_mean x k l) = dims l.
Proof. by rewrite /dims; elim: l k => [//|[i b] l IH] k /=; rewrite IH. Qed.
Lemma at_mean_cat x k l1 l2 : at_mean x k (l1 ++ l2) = at_mean x k l1 ++ at_mean x (k + seq.size l1) l2.
Proof. by elim: l1 k => [|[i b] l IH] k /=; rewrite ?addn0 // IH addSnnS. Qed.
Lemma at_mean_nth x k l j : List.nth_error (at_mean x k l) j =
  if List.nth_error l j is Some (i, b) then Some (i, bel_set_mean (DM (sel F ds (k + j) *m x)) b) else None.
Proof.
elim: l k j => [|[i b] l IH] k [|j] //=; first by rewrite addn0.
by rewrite IH addSnnS.
Qed.
Lemma at_mean_twice x y k l : at_mean x k (at_mean y k l) = at_mean x k l.
Proof. by elim: l k => [//|[i b] l IH] k /=; rewrite IH. Qed.
Lemma at_mean_self (mu : 'cV[F]_N) : stacked_mean us mu ds -> at_mean mu 0 us = us.
Proof.
move=> H; have G : forall l pre, us = pre ++ l -> at_mean mu (seq.size pre) l = l.
  elim=> [//|[i b] l IH] pre E /=.
  have En : List.nth_error us (seq.size pre) = Some (i, b) by rewrite E; elim: (pre).
  have [_ [_ [_ [_ Lk]]]] := dim_rows En; rewrite -(dims_size us) in Lk.
  have := H _ _ _ En; rewrite meanE // => e1; have {}e1 := Ok_inj e1; rewrite e1 /bel_set_mean; congr cons; first by case: (b).
  have := IH (rcons pre (i, b)); rewrite size_rcons cat_rcons; exact.
exact: (G us [::]).
Qed.
Lemma at_mean_stacked x : stacked_mean (at_mean x 0 us) x ds.
Proof.
move=> k i b; rewrite at_mean_nth; case En: (List.nth_error us k) => [[j c]|//] [_ <-] /=.
have [_ [_ [_ [_ Lk]]]] := dim_rows En; rewrite -(dims_size us) in Lk.
by rewrite add0n meanE.
Qed.
Lemma move_ok x dx : move_beliefs (at_mean x 0 us) (DM dx) = Ok (at_mean (x + dx) 0 us).
Proof.
rewrite /move_beliefs; set f := (fun s e => _).
have G : forall l pre acc, us = pre ++ l -> ofold f (acc, off ds (seq.size pre)) (at_mean x (seq.size pre) l) = Ok (acc ++ at_mean (x + dx) (seq.size pre) l, N).
  elim=> [|[i b] l IH] pre acc E.
    by rewrite /= cats0; congr (Ok (_, _)); rewrite E cats0 -dims_size off_end.
  have En : List.nth_error us (seq.size pre) = Some (i, b) by rewrite E; elim: (pre).
  have [D1 [D2 [_ [_ Lk]]]] := dim_rows En; rewrite -(dims_size us) in Lk.
  rewrite /= {1}/f /= -[bel_dim (bel_set_mean _ _)]/(bel_dim b) D2 meanE //= /bel_boxplus /bel_correct_mean /= dadd_ok /= -mulmxDr.
  have := IH (rcons pre (i, b)) (acc ++ [:: (i, bel_set_mean (DM (sel F ds (seq.size pre) *m (x + dx))) b)]).
  by rewrite size_rcons cat_rcons offS => -> //; rewrite -catA.
by have := G us [::] [::] erefl; rewrite off0 => ->.
Qed.
Lemma at_mean_unfixed x k l : unfixed l = l -> unfixed (at_mean x k l) = at_mean x k l.
Proof.
elim: l k => [//|[i b] l IH] k /=; rewrite /unfixed /=; case: (b_fixed b) => /= H.
  have := f_equal (@List.length _) H; rewrite /= => Hl.
  have : (List.length (List.filter (fun e : nat * belief => ~~ b_fixed (snd e)) l) <= List.length l)%coq_nat.
    by elim: (l) => [//|a r IHr] /=; case: ifP => _ /=; lia.
  by rewrite Hl; lia.
by case: H => /IH {}IH; congr cons; exact: IH.
Qed.
(** the state error *)
Definition err_body (bidx : list (nat * belief)) (s : dmat * nat) (e : nat * belief) : outcome (dmat * nat) :=
  match smap_find (fst e) bidx with
  | Some b => let! x := bel_boxminus b (snd e) in
              let! m := dset_block (fst s) (snd s) 0 (bel_dim (snd e)) 1 x in Ok (m, (snd s + bel_dim (snd e))%nat)
  | None => Abort OutOfRangeException
  end.
Definition jac_body (pj : belief -> dmat -> dmat) (ex : dmat) (s : dmat * nat) (e : nat * belief) : outcome (dmat * nat) :=
  let di := bel_dim (snd e) in
  let! x := dblock ex (snd s) 0 di 1 in
  let! J := dset_block (fst s) (snd s) (snd s) di di (pj (snd e) (dscale (-1)%R x)) in
  Ok (J, (snd s + di)%nat).
Lemma error_ok (bs : list (nat * belief)) (x mu : 'cV[F]_N) : unfixed bs = us -> List.NoDup (List.map fst us) -> stacked_mean us mu ds ->
  state_error bs (at_mean x 0 us) N = Ok (DM (x - mu)).
Proof.
move=> Eu ND Sm; rewrite /state_error; set g := err_body (at_mean x 0 us).
have E0 : ofold (fun s e => if ~~ b_fixed (snd e) then g s e else Ok s) (dzero F N 1, 0%N) bs = ofold g (dzero F N 1, 0%N) us.
  by rewrite -[X in _ = ofold _ _ X]Eu; exact: ofold_filter.
rewrite [ofold _ _ bs]E0 => {E0}.
have -> : ofold g (dzero F N 1, 0%N) us = ofold (@bodyM F) (dzero F N 1, 0%N) (at_mean (x - mu) 0 us).
  apply: (@ofold_par _ _ _ _ _ (fun e e' => exists k, List.nth_error us k = Some e /\ List.nth_error (at_mean (x - mu) 0 us) k = Some e')).
    move=> s e e' [k [Ek]]; rewrite at_mean_nth Ek; case: e Ek => i b Ek [<-]; rewrite /g /err_body /bodyM /=.
    have [D1 [D2 [_ [_ Lk]]]] := dim_rows Ek; rewrite -(dims_size us) in Lk.
    have Ex : List.nth_error (at_mean x 0 us) k = Some (i, bel_set_mean (DM (sel F ds k *m x)) b) by rewrite at_mean_nth Ek.
    rewrite (find_In _ (List.nth_error_In _ _ Ex)); last by rewrite at_mean_ids.
    rewrite /bel_boxminus /=; have := Sm _ _ _ Ek; rewrite meanE // => e1; have {}e1 := Ok_inj e1; rewrite -e1 dsub_ok /= -mulmxBr.
    by rewrite add0n.
  have : List.length us = List.length (at_mean (x - mu) 0 us) by rewrite -[RHS](List.map_length fst) at_mean_ids List.map_length.
  exact: forall2_nth.
have D id b : List.In (id, b) (at_mean (x - mu) 0 us) -> drows (b_mean b) = bel_dim b /\ dcols (b_mean b) = 1%N.
  move=> Hin; have [k Ek] := List.In_nth_error _ _ Hin; move: Ek; rewrite at_mean_nth; case En: (List.nth_error us k) => [[j c]|//] [_ <-] /=.
  by have [D1 _] := dim_rows En; rewrite /bel_dim /= D1 add0n.
have := @runM F (at_mean (x - mu) 0 us) D _ [::] (dzero F N 1) erefl; rewrite at_mean_dims => /(_ erefl erefl) [C [E [R [C1 [_ Q]]]]].
rewrite off0 in E; rewrite E /=; case: C R C1 E Q => p q C /= R C1; subst p q => E Q; congr (Ok (DM _)).
apply: mean_ext => k Hk; have Hk' := Hk; rewrite dims_size in Hk'; have [b Eb] := nth_idk Hk'.
have Ea : List.nth_error (at_mean (x - mu) 0 us) k = Some (idk us k, bel_set_mean (DM (sel F ds k *m (x - mu))) b) by rewrite at_mean_nth Eb.
have [pre [post [Ep Es]]] := (proj1 (nth_cut _ _ _)) Ea.
have := Q _ _ _ Ep (leq0n _); rewrite /mblk at_mean_dims Es meanE //= => e2; exact: (DM_inj (Ok_inj e2)).
Qed.
(** the Jacobian of a belief class whose tangent spaces all coincide *)
Lemma jacobian_ok (pj : belief -> dmat -> dmat) (bidx : list (nat * belief)) (e : 'cV[F]_N) : dims bidx = ds -> unfixed bidx = bidx ->
  (forall i b v, List.In (i, b) bidx -> pj b v = deye F (bel_dim b) (bel_dim b)) -> state_jacobian pj bidx (DM e) N = Ok (DM (1%:M : 'M[F]_N)).
Proof.
move=> Ed Eu Hp; rewrite /state_jacobian deye_square; set g := jac_body pj (DM e).
have E0 : ofold (fun s e => if ~~ b_fixed (snd e) then g s e else Ok s) (DM (1%:M : 'M[F]_N), 0%N) bidx = ofold g (DM (1%:M : 'M[F]_N), 0%N) bidx.
  by rewrite -[X in _ = ofold _ _ X]Eu; exact: ofold_filter.
rewrite [ofold _ _ bidx]E0 => {E0}.
have G : forall post pre, bidx = pre ++ post -> ofold g (DM (1%:M : 'M[F]_N), off ds (seq.size pre)) post = Ok (DM (1%:M : 'M[F]_N), N).
  elim=> [|[i b] l IH] pre E; first by rewrite /=; congr (Ok (_, _)); rewrite cats0 in E; rewrite -E -Ed -dims_size off_end.
  have En : List.nth_error bidx (seq.size pre) = Some (i, b) by rewrite E; elim: (pre).
  have [D1 [D2 [_ [_ Lk]]]] := dim_rows En; rewrite -(dims_size bidx) Ed in Lk; rewrite Ed in D1 D2.
  rewrite /= {1}/g /jac_body /= D2 meanE //= (Hp i b) ?D2; last exact: (List.nth_error_In _ _ En).
  have SA : sq ds (DM (1%:M : 'M[F]_N)) by [].
  have [C [E1 [S1 B1]]] := @set_grid F ds (DM (1%:M : 'M[F]_N)) (deye F (dim_k ds (seq.size pre)) (dim_k ds (seq.size pre))) _ _ SA Lk Lk erefl erefl.
  rewrite E1 /=; have -> : C = DM (1%:M : 'M[F]_N).
    apply: (blk_ext S1 SA) => k l0 Hk Hl; rewrite B1 //; case: ifP => // /andP [/eqP -> /eqP ->].
    by rewrite blkE // mulmx1 sel_id // deye_square.
  have := IH (rcons pre (i, b)); rewrite size_rcons cat_rcons offS; exact.
by have := G bidx [::] erefl; rewrite off0 => ->.
Qed.
End Move.

(** ** the beliefs handed to the measurement function *)
Section Full.
Variable F : realFieldType.
Notation dmat := (dmat F).
Notation belief := (belief F).
Lemma ascending_asc (l : list (nat * belief)) : ascending l -> asc l.
Proof.
elim: l => [//|[i b] l IH] A /=; split; last first.
  by apply: IH => k n i1 j1 bi bj Ek En L; exact: (A k.+1 n.+1 i1 j1 bi bj Ek En L).
move=> x w Hin; have [k Ek] := List.In_nth_error _ _ Hin; exact: (A 0%N k.+1 i x b w erefl Ek erefl).
Qed.
Lemma asc_nodup V (l : list (nat * V)) : asc l -> List.NoDup (List.map fst l).
Proof.
elim: l => [|[i b] l IH] /=; first by constructor.
move=> [B A]; constructor; last exact: IH.
case/List.in_map_iff=> [[x w] [/= Ex Hin]]; by have := B _ _ Hin; rewrite Ex ltnn.
Qed.
Lemma asc_filter V p (l : list (nat * V)) : asc l -> asc (List.filter p l).
Proof.
elim: l => [//|[i b] l IH] /= [B A]; case: (p _) => /=; last exact: IH.
by split; [move=> x w /List.filter_In [/B]|exact: IH].
Qed.
Lemma asc_ids V W (l : list (nat * V)) (l' : list (nat * W)) : List.map fst l = List.map fst l' -> asc l -> asc l'.
Proof.
elim: l l' => [|[i b] l IH] [|[j c] l'] //= [Ei El] [B A]; subst j; split; last exact: IH El A.
move=> x w Hin; have : List.In x (List.map fst l) by rewrite El; apply/List.in_map_iff; exists (x, w).
by case/List.in_map_iff=> [[y v] [/= <-]]; exact: B.
Qed.
Variable bs : list (nat * belief).
Hypothesis A : asc bs.
Notation us := (unfixed bs).
(** the beliefs of [bs] with the unfixed means taken from the stacked vector *)
Definition moved (x : 'cV[F]_(sumn (dims us))) : list (nat * belief) := set_means (at_mean x 0 us) bs.
Lemma nodup_bs : List.NoDup (List.map fst bs). Proof. exact: asc_nodup. Qed.
Lemma nodup_us : List.NoDup (List.map fst us). Proof. by apply: asc_nodup; exact: asc_filter. Qed.
Lemma moved_ids x : List.map fst (moved x) = List.map fst bs.
Proof. by rewrite /moved /set_means; move: (at_mean x 0 us) => q; elim: (bs) => [//|[i b] l IH] /=; rewrite IH; case: smap_find. Qed.
Lemma at_mean_find (x : 'cV[F]_(sumn (dims us))) i b : List.In (i, b) us -> exists k, List.nth_error us k = Some (i, b) /\ smap_find i (at_mean x 0 us) = Some (bel_set_mean (DM (sel F (dims us) k *m x)) b).
Proof.
move=> Hin; have [k Ek] := List.In_nth_error _ _ Hin; exists k; split=> //.
have Ea : List.nth_error (at_mean x 0 us) k = Some (i, bel_set_mean (DM (sel F (dims us) k *m x)) b) by rewrite at_mean_nth Ek.
by apply: (find_In _ (List.nth_error_In _ _ Ea)); rewrite at_mean_ids; exact: nodup_us.
Qed.
Lemma at_mean_none (x : 'cV[F]_(sumn (dims us))) i b : List.In (i, b) bs -> b_fixed b -> smap_find i (at_mean x 0 us) = None.
Proof.
move=> Hin Fb; apply: find_None; rewrite at_mean_ids => /List.in_map_iff [[j c] [/= Ej /List.filter_In [Hc Fc]]]; subst j.
by have := find_In nodup_bs Hin; rewrite (find_In nodup_bs Hc) => -[E]; rewrite E Fb in Fc.
Qed.
Lemma moved_In (x : 'cV[F]_(sumn (dims us))) i b : List.In (i, b) (moved x) <-> (List.In (i, b) bs /\ b_fixed b) \/ List.In (i, b) (at_mean x 0 us).
Proof.
rewrite /moved /set_means List.in_map_iff; split.
  case=> [[j c] [/= E Hin]]; case Fc: (b_fixed c).
    by move: E; rewrite (at_mean_none _ Hin) // => -[<- <-]; left.
  have Hu : List.In (j, c) us by apply/List.filter_In; rewrite /= Fc.
  have [k [Ek Ef]] := at_mean_find x Hu; rewrite Ef in E; case: E => <- <-; right.
  by apply: (@List.nth_error_In _ _ k); rewrite at_mean_nth Ek.
case=> [[Hin Fb]|Hin]; first by exists (i, b); rewrite /= (at_mean_none _ Hin).
have [k Ek] := List.In_nth_error _ _ Hin; move: Ek; rewrite at_mean_nth; case En: (List.nth_error us k) => [[j c]|//] [<- <-].
have Hu := List.nth_error_In _ _ En; have [k' [Ek' Ef]] := at_mean_find x Hu.
have Hb : List.In (j, c) bs by have /List.filter_In [] := Hu.
exists (j, c); split=> //; rewrite /= Ef; congr (_, _).
have Lk : (k < List.length us)%coq_nat by apply/List.nth_error_Some; rewrite En.
have Ei := (proj1 (List.NoDup_nth_error (List.map fst us)) nodup_us k k').
by rewrite Ei // ?List.map_length // !List.nth_error_map En Ek'.
Qed.
Lemma full_ok (x : 'cV[F]_(sumn (dims us)))  : full_beliefs (at_mean x 0 us) bs = moved x.
Proof.
rewrite /full_beliefs.
have -> : forall l acc, List.fold_left (fun m e => if b_fixed (snd e) then smap_insert (fst e) (snd e) m else m) l acc
   = List.fold_left (fun a e => smap_insert (fst e) (snd e) a) (List.filter (fun e : nat * belief => b_fixed (snd e)) l) acc.
  by elim=> [//|[i b] l IH] acc /=; case: (b_fixed b) => /=; rewrite IH.
have [] := @ins_all _ (List.filter (fun e : nat * belief => b_fixed (snd e)) bs) (at_mean x 0 us).
- by apply: asc_nodup; exact: asc_filter.
- move=> i /List.in_map_iff [[j b] [/= <- /List.filter_In [Hin Fb]]] H.
  have := at_mean_none x Hin Fb; move: H => /List.in_map_iff [[j' c] [/= Ej Hc]]; subst j'.
  by rewrite (find_In _ Hc) // at_mean_ids; exact: nodup_us.
- by apply: (@asc_ids _ _ us); [rewrite at_mean_ids|exact: asc_filter].
move=> A' E; apply: (asc_ext A') => [|i b]; first exact: (asc_ids (esym (moved_ids x)) A).
by rewrite E moved_In List.filter_In.
Qed.
Lemma moved_unfixed (x : 'cV[F]_(sumn (dims us)))  : unfixed (moved x) = at_mean x 0 us.
Proof.
apply: asc_ext.
- by apply: asc_filter; exact: (asc_ids (esym (moved_ids x)) A).
- by apply: (@asc_ids _ _ us); [rewrite at_mean_ids|exact: asc_filter].
have U : unfixed us = us.
  by rewrite /unfixed; elim: (bs) => [//|[i b] l IH] /=; case Fb: (b_fixed b) => //=; rewrite Fb /= IH.
have U' := @at_mean_unfixed F us x 0 us U.
move=> i b; rewrite /unfixed List.filter_In moved_In /=; split=> [[[[_ ->]|//] //]|Hin]; split; first by right.
by move: Hin; rewrite -U' => /List.filter_In [].
Qed.
Lemma moved_self (mu : 'cV[F]_(sumn (dims us))) : stacked_mean us mu (dims us) -> moved mu = bs.
Proof.
move=> Sm; apply: asc_ext => [||i b]; [exact: (asc_ids (esym (moved_ids mu)) A)|exact: A|].
rewrite moved_In at_mean_self // List.filter_In /=; split; first by case=> [[]|[]].
by move=> Hin; case Fb: (b_fixed b); [left|right].
Qed.
End Full.

(** ** dropping the Jacobians of fixed participants *)
Lemma drop_fixedE (F : realFieldType) (bs : list (nat * belief F)) dH :
  drop_fixed bs dH = List.filter (fun e => ~~ List.existsb (fun e' => b_fixed (snd e') && (fst e' =? fst e)%nat) bs) dH.
Proof.
rewrite /drop_fixed; elim: bs dH => [|[i b] l IH] dH /=; first by elim: dH => [//|a r /= {1}->].
rewrite IH; case: (b_fixed b) => //=; rewrite /smap_erase; elim: dH => [//|[j X] r IHr] /=.
rewrite [(i =? j)%nat]Nat.eqb_sym; case: (j =? i)%nat => /=; first exact: IHr.
by rewrite IHr.
Qed.

(** ** writing back the moved beliefs *)
Section Write.
Variable F : realFieldType.
Variable junk : forall n, 'M[F]_n -> 'M[F]_n.
Notation dmat := (dmat F).
Notation belief := (belief F).
Notation dict := (dict belief dmat).
Notation inst := (inst belief dmat).
Definition alike (e e' : nat * belief) : Prop := fst e = fst e' /\ b_Sigma (snd e) = b_Sigma (snd e') /\ b_fixed (snd e) = b_fixed (snd e').
Lemma corrections_alike S t l l' : List.Forall2 alike l l' -> forall d : dict, apply_corrections junk S l t d = apply_corrections junk S l' t d.
Proof.
move=> H d; rewrite /apply_corrections; congr (obind _ _).
by apply: (ofold_par _ H) => s a b [E1 [E2 E3]]; rewrite /bel_dim E1 E2 E3.
Qed.
Lemma filter_alike l l' : List.Forall2 alike l l' -> List.Forall2 alike (unfixed l) (unfixed l').
Proof. by rewrite /unfixed; elim=> [|a b r r' Hab _ IH] /=; [|have [_ [_ ->]] := Hab; case: (b_fixed _) => //=]; constructor. Qed.
Lemma split_row_alike S I di row t l l' : List.Forall2 alike l l' -> forall col (d : dict), split_row S I di row col l t d = split_row S I di row col l' t d.
Proof.
elim=> [//|[i b] [j c] r r' [/= E1 [E2 _]] _ IH] col d /=; rewrite /bel_dim E1 E2; case: dblock => //= X; case: set_Sigma_IJ => //= d'; exact: IH.
Qed.
Lemma split_rows_alike S t l l' : List.Forall2 alike l l' -> forall row (d : dict), split_rows S row l t d = split_rows S row l' t d.
Proof.
elim=> [//|[i b] [j c] r r' [/= E1 [E2 _]] Hr IH] row d; case: Hr IH => [//|x y r1 r1' Hxy Hr1] IH.
have HH : List.Forall2 alike (x :: r1) (y :: r1') by constructor.
rewrite /split_rows -/(split_rows) /bel_dim E1 E2 (split_row_alike _ _ _ _ _ HH).
by case: split_row => //= d'; exact: IH.
Qed.
Lemma alike_at us (x : 'cV[F]_(sumn (dims us))) k l : List.Forall2 alike (at_mean x k l) l.
Proof. by elim: l k => [|[i b] l IH] k; constructor. Qed.
Lemma unfixed_idem (bs : list (nat * belief)) : unfixed (unfixed bs) = unfixed bs.
Proof. by rewrite /unfixed; elim: bs => [//|[i b] l IH] /=; case Fb: (b_fixed b) => //=; rewrite Fb /= IH. Qed.
Lemma split_moved (bs : list (nat * belief)) (mu dx : 'cV[F]_(sumn (dims (unfixed bs)))) S t (d : dict) : asc bs -> split_right_upper S (moved (mu + dx)) t d = split_right_upper S (unfixed bs) t d.
Proof.
move=> A; have Eu := moved_unfixed A (mu + dx).
rewrite /split_right_upper -/(unfixed (moved (mu + dx))) -/(unfixed (unfixed bs)) Eu unfixed_idem; apply: split_rows_alike; exact: alike_at.
Qed.
Lemma beliefs_moved (bs : list (nat * belief)) (mu dx : 'cV[F]_(sumn (dims (unfixed bs)))) S t (d : dict) : asc bs -> stacked_mean (unfixed bs) mu (dims (unfixed bs)) ->
  correct_beliefs S (dzero F (sumn (dims (unfixed bs))) 1) (moved (mu + dx)) t d = correct_beliefs S (DM dx) (unfixed bs) t d.
Proof.
move=> A Sm; set us := unfixed bs; have Eu := moved_unfixed A (mu + dx); rewrite /correct_beliefs.
set f := fun s (e : nat * belief) => if ~~ b_fixed (snd e) then _ else _; set g := fun s (e : nat * belief) => if ~~ b_fixed (snd e) then _ else _.
have Ff s e : f s e = if ~~ b_fixed (snd e) then f s e else Ok s by rewrite /f; case: ifP.
have Fg s e : g s e = if ~~ b_fixed (snd e) then g s e else Ok s by rewrite /g; case: ifP.
rewrite (ofold_ext _ Ff) ofold_filter -/(unfixed (moved (mu + dx))) Eu.
have Es : at_mean mu 0 us = us := at_mean_self Sm.
congr (obind _ _); rewrite -[X in _ = ofold _ _ X]Es.
have G : forall l pre d0, us = pre ++ l -> ofold f (d0, off (dims us) (seq.size pre)) (at_mean (mu + dx) (seq.size pre) l) = ofold g (d0, off (dims us) (seq.size pre)) (at_mean mu (seq.size pre) l).
  elim=> [//|[i b] l IH] pre d0 E.
  have En : List.nth_error us (seq.size pre) = Some (i, b) by rewrite E; elim: (pre).
  have [D1 [D2 [_ [_ Lk]]]] := dim_rows En; rewrite -(dims_size us) in Lk.
  have /List.filter_In [_ /= /negbTE Fb] := List.nth_error_In _ _ En.
  rewrite /= [f _ (i, _)]/f [g _ (i, _)]/g /= Fb /=.
  rewrite -![bel_dim (bel_set_mean _ _)]/(bel_dim b) D2; case: dblock => //= Sii.
  rewrite !meanE //= /bel_correct /bel_correct_mean /= mulmx0 /us !dadd_ok /= addr0 -mulmxDr -/us.
  case: mod_inst => //= d3.
  have := IH (rcons pre (i, b)) d3; rewrite size_rcons cat_rcons offS; exact.
by have := G us [::] d erefl; rewrite off0.
Qed.
Lemma write_moved (bs : list (nat * belief)) (mu dx : 'cV[F]_(sumn (dims (unfixed bs)))) S t (d : dict) : asc bs -> stacked_mean (unfixed bs) mu (dims (unfixed bs)) ->
  write_joint junk S (dzero F (sumn (dims (unfixed bs))) 1) (moved (mu + dx)) t d = write_joint junk S (DM dx) (unfixed bs) t d.
Proof.
move=> A Sm; set us := unfixed bs; rewrite /write_joint.
have Eu := moved_unfixed A (mu + dx).
have E1 : apply_corrections junk S (moved (mu + dx)) t d = apply_corrections junk S us t d.
  rewrite (@apply_correctionsE F junk (at_mean (mu + dx) 0 us) t S (moved (mu + dx)) d Eu).
  rewrite -(@apply_correctionsE F junk (at_mean (mu + dx) 0 us) t S (at_mean (mu + dx) 0 us) d) -?Eu ?unfixed_idem //.
  by rewrite Eu; apply: corrections_alike; exact: alike_at.
rewrite E1; case: apply_corrections => //= d1.
rewrite split_moved //; case: split_right_upper => //= d2; exact: beliefs_moved.
Qed.
End Write.

(** ** collecting beliefs that all exist *)
Section Collect.
Variable F : realFieldType.
Notation dmat := (dmat F).
Notation belief := (belief F).
Notation dict := (dict belief dmat).
Notation inst := (inst belief dmat).
Variable predict : nat -> Z -> inst -> outcome (inst * bool).
Lemma ins_present V k (v : V) l : asc l -> List.In k (List.map fst l) -> smap_insert k v l = l.
Proof.
elim: l => [//|[x w] l IH] /= [B A] H.
case: H => [->|H]; first by rewrite Nat.ltb_irrefl Nat.eqb_refl.
have /ssrnat.ltP L : (x < k)%N by case/List.in_map_iff: H => [[y u] [/= <-]]; exact: B.
have -> : (k <? x)%nat = false by apply/Nat.ltb_ge; lia.
have -> : (k =? x)%nat = false by apply/Nat.eqb_neq; lia.
by rewrite IH.
Qed.
Lemma collect_loop t (d : dict) ids : forall acc, (forall i, List.In i ids -> bel_of d i t <> None) -> asc acc ->
  (forall i b, List.In (i, b) acc -> bel_of d i t = Some b) ->
  exists r, get_dict_bel_loop predict ids t d acc = Ok (d, r) /\ asc r /\
    forall i b, List.In (i, b) r <-> (List.In i ids \/ List.In i (List.map fst acc)) /\ bel_of d i t = Some b.
Proof.
elim: ids => [|i ids IH] acc Hi A Ha /=.
  exists acc; split=> //; split=> // j b; split; first by move=> H; split; [right; apply/List.in_map_iff; exists (j, b)|exact: Ha].
  by case=> [[//|/List.in_map_iff [[j' c] [/= -> Hc]]]]; rewrite (Ha _ _ Hc) => -[<-].
have := Hi i (or_introl erefl); rewrite {1}/bel_of /at_inst; case G: (d_find i d) => [ii|//] Gb.
case Gt: (bel_at t ii) Gb => [b|//] _.
have Ex : exist_at_t t (i_bel ii) = true by apply/exist_at_iff; exists b; exact: (get_at_In _ _ _ Gt).
rewrite /belief_or_predict Ex /= -/(bel_at t ii) Gt upd_same //.
have Eb : bel_of d i t = Some b by rewrite /bel_of G.
case: (List.in_dec Nat.eq_dec i (List.map fst acc)) => [Hin|Nin].
  rewrite ins_present //; have [|r [E [Ar Er]]] := IH acc _ A Ha; first by move=> j Hj; apply: Hi; right.
  exists r; split=> //; split=> // j c; rewrite Er; split=> [[[H|H] E1]|[[[E0|H]|H] E1]]; split=> //; try by [left; right|right|left].
  by right; rewrite -E0.
have [|||r [E [Ar Er]]] := IH (smap_insert i b acc).
- by move=> j Hj; apply: Hi; right.
- exact: ins_asc.
- by move=> j c /(ins_In _ _ _ Nin) [[-> ->]|/Ha].
have K j : List.In j (List.map fst (smap_insert i b acc)) <-> i = j \/ List.In j (List.map fst acc).
  rewrite !List.in_map_iff; split.
    by case=> [[x w] [/= <- /(ins_In _ _ _ Nin) [[-> _]|H]]]; [left|right; exists (x, w)].
  case=> [<-|[[x w] [/= <- H]]]; [exists (i, b)|exists (x, w)]; split=> //; apply/(ins_In _ _ _ Nin); [left|right]; by [].
exists r; split=> //; split=> // j c; rewrite Er K; tauto.
Qed.
Lemma collect_any t (d : dict) ids bs : asc bs -> (forall i, List.In i ids <-> List.In i (List.map fst bs)) ->
  (forall i b, List.In (i, b) bs -> bel_of d i t = Some b) -> get_dict_bel predict ids t d = Ok (d, bs).
Proof.
move=> A Hi Hb; have [|||r [E [Ar Er]]] := @collect_loop t d ids nil => //.
  by move=> i /Hi /List.in_map_iff [[j b] [/= <- /Hb ->]].
rewrite /get_dict_bel E; congr (Ok (_, _)); apply: asc_ext => // i b; rewrite Er /=; split.
  by case=> [[/Hi /List.in_map_iff [[j c] [/= -> Hc]]|//]]; rewrite (Hb _ _ Hc) => -[<-].
by move=> H; split; [left; apply/Hi/List.in_map_iff; exists (i, b)|exact: Hb].
Qed.
End Collect.
