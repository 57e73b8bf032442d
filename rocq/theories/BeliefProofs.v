(** Pointer-level and value-level histories agree as long as no object is stored twice. *)
From Coq Require Import ZArith List Bool Arith Lia.
From mathcomp Require Import all_ssreflect all_algebra.
From Verif Require Import Outcome DoubleModel BufModel BufProofs DMat KFModel BeliefModel.
Set Implicit Arguments. Unset Strict Implicit. Unset Printing Implicit Defensive.
Import GRing.Theory Num.Theory.
Local Open Scope outcome_scope.

(** ** buffers under a map of their values *)
Definition bmap {A B} (f : A -> B) (l : buf A) : buf B := List.map (fun e => (fst e, f (snd e))) l.
Section BMap.
Context {A B : Type}.
Variable f : A -> B.
Lemma bmap_find t (l : buf A) : find_pos t (bmap f l) = find_pos t l.
Proof. by elim: l => [//|[k v] l IH] /=; rewrite IH. Qed.
Lemma bmap_length (l : buf A) : length (bmap f l) = length l.
Proof. exact: List.map_length. Qed.
Lemma bmap_nth (l : buf A) n : nth_error (bmap f l) n = option_map (fun e => (fst e, f (snd e))) (nth_error l n).
Proof. by elim: l n => [|e l IH] [|n] /=. Qed.
Lemma bmap_get_at t (l : buf A) : get_at_t t (bmap f l) = option_map f (get_at_t t l).
Proof. by rewrite /get_at_t bmap_find bmap_length bmap_nth; case: negb => //; case: nth_error. Qed.
Lemma bmap_insert t v (l : buf A) : bmap f (hb_insert t v l) = hb_insert t (f v) (bmap f l).
Proof. by elim: l => [//|[k w] l IH] /=; case: Z.ltb => //; case: Z.eqb => //=; rewrite IH. Qed.
Lemma bmap_upper t (l : buf A) : upper_bound t (bmap f l) = upper_bound t l.
Proof. by elim: l => [//|[k v] l IH] /=; rewrite IH. Qed.
Lemma bmap_lower t (l : buf A) : lower_bound t (bmap f l) = lower_bound t l.
Proof. by elim: l => [//|[k v] l IH] /=; rewrite IH. Qed.
Lemma bmap_remove_after t (l : buf A) : bmap f (remove_after_t t l) = remove_after_t t (bmap f l).
Proof. by rewrite /remove_after_t bmap_upper bmap_length; case: negb => //; rewrite /bmap List.firstn_map. Qed.
Lemma bmap_remove_at t (l : buf A) : bmap f (remove_at_t t l) = remove_at_t t (bmap f l).
Proof. by rewrite /remove_at_t; elim: l => [//|[k v] l IH] /=; case: negb => //=; rewrite IH. Qed.
End BMap.
Lemma bmap_ext {A B} (f g : A -> B) (l : buf A) : (forall e, List.In e l -> f (snd e) = g (snd e)) -> bmap f l = bmap g l.
Proof. by move=> H; apply: List.map_ext_in => e He; rewrite H. Qed.

(** overwriting the value stored at t is mapping the single position *)
Lemma insert_at_map {A B} (f g : A -> B) (l : buf A) t p : ssorted l -> get_at_t t l = Some p ->
  (forall e, List.In e l -> fst e <> t -> g (snd e) = f (snd e)) -> bmap g l = hb_insert t (g p) (bmap f l).
Proof.
elim: l => [//|[k v] l IH] S G H.
have [Sl Fl] := ss_inv _ _ S.
rewrite /= in G *.
case: (Z.eqb_spec t k) => [E|N].
  subst k; rewrite Z.ltb_irrefl.
  have -> : p = v by move: G; rewrite get_at_first /= Z.eqb_refl /=; case.
  congr cons; apply: bmap_ext => e He; apply: H; first by right.
  by move: Fl; rewrite Forall_forall => /(_ _ He); rewrite /klt /=; lia.
have G' : get_at_t t l = Some p.
  by move: G; rewrite !get_at_first /=; case: (Z.eqb_spec k t) => // E; case: N.
have L : Z.lt k t.
  by move: Fl; rewrite Forall_forall => /(_ _ (get_at_In _ _ _ G')); rewrite /klt.
have -> : Z.ltb t k = false by apply/Z.ltb_ge; lia.
rewrite -IH // => [|e He]; last by apply: H; right.
by rewrite -(H (k, v)) //=; [left|lia].
Qed.

Section Refine.
Variable F : realFieldType.
Variable junk : forall n, 'M[F]_n -> 'M[F]_n.
Notation pfilt := (pfilt F).
Notation belief := (belief F).

(** what the pointers of the history point to *)
Definition values (s : pfilt) : buf belief := bmap (h_obj (p_heap s)) (p_hist s).
(** every stored pointer is allocated and no object is stored at two times *)
Definition unaliased (s : pfilt) : Prop :=
  ssorted (p_hist s) /\ NoDup (List.map snd (p_hist s)) /\ (forall e, List.In e (p_hist s) -> (snd e < h_next (p_heap s))%coq_nat).

Lemma nodup_same (l : buf nat) e e' : NoDup (List.map snd l) -> List.In e l -> List.In e' l -> snd e = snd e' -> e = e'.
Proof.
elim: l => [//|a l IH] /= N; inversion N as [|x r Hx Hr]; subst; case=> [<-|He] [<-|He'] E //.
- by case: Hx; rewrite E; apply: (List.in_map snd).
- by case: Hx; rewrite -E; apply: (List.in_map snd).
- exact: IH.
Qed.

(** in-place write through a stored pointer *)
Lemma write_values s t p b : unaliased s -> get_at_t t (p_hist s) = Some p ->
  values (PF (h_write p b (p_heap s)) (p_hist s)) = hb_insert t b (values s).
Proof.
move=> [S [N A]] G; rewrite /values /=.
rewrite (@insert_at_map _ _ (h_obj (p_heap s)) (fun q => if (q =? p)%nat then b else h_obj (p_heap s) q) (p_hist s) t p) //.
  by rewrite Nat.eqb_refl.
move=> e He Ne; case: Nat.eqb_spec => // E; case: Ne.
by have := @nodup_same _ _ _ N He (get_at_In _ _ _ G) E => ->.
Qed.
Lemma write_unaliased s p b : unaliased s -> unaliased (PF (h_write p b (p_heap s)) (p_hist s)).
Proof. by []. Qed.

Lemma insert_snd_In t (p q : nat) (l : buf nat) : List.In q (List.map snd (hb_insert t p l)) -> q = p \/ List.In q (List.map snd l).
Proof.
elim: l => [|[k v] l IH] /=; first by case=> [<-|//]; left.
case: Z.ltb => /=; first by case=> [<-|[<-|H]]; [left|right; left|right; right].
case: Z.eqb => /=; first by case=> [<-|H]; [left|right; right].
by case=> [<-|/IH [->|H]]; [right; left|left|right; right].
Qed.
Lemma insert_nodup t (p : nat) (l : buf nat) : NoDup (List.map snd l) -> ~ List.In p (List.map snd l) -> NoDup (List.map snd (hb_insert t p l)).
Proof.
elim: l => [|[k v] l IH] /= N Hp; first by constructor.
case: Z.ltb => /=; first by constructor.
inversion N as [|x r Hx Hr]; subst.
case: Z.eqb => /=; first by constructor => // H; apply: Hp; right.
constructor; last by apply: IH => // H; apply: Hp; right.
by move/insert_snd_In => [E|H]; [apply: Hp; left|apply: Hx].
Qed.
(** storing a fresh pointer *)
Lemma fresh_values s t p h : unaliased s -> (forall q, (q < h_next (p_heap s))%coq_nat -> h_obj h q = h_obj (p_heap s) q) ->
  ~ List.In p (List.map snd (p_hist s)) ->
  values (PF h (hb_insert t p (p_hist s))) = hb_insert t (h_obj h p) (values s).
Proof.
move=> [S [N A]] H Hp; rewrite /values /= bmap_insert; congr hb_insert.
by apply: bmap_ext => e He; rewrite H //; apply: A.
Qed.
Lemma fresh_unaliased s t p h : unaliased s -> (h_next (p_heap s) <= h_next h)%coq_nat -> (p < h_next h)%coq_nat ->
  ~ List.In p (List.map snd (p_hist s)) -> unaliased (PF h (hb_insert t p (p_hist s))).
Proof.
move=> [S [N A]] H1 H2 Hp; split; first exact: hb_insert_ssorted.
split; first exact: insert_nodup.
move=> e /= He; have /insert_snd_In [->|/List.in_map_iff [e' [<- He']]] := List.in_map snd _ _ He => //.
by have := A _ He'; lia.
Qed.
Lemma next_fresh s : unaliased s -> ~ List.In (h_next (p_heap s)) (List.map snd (p_hist s)).
Proof. by move=> [_ [_ A]] /List.in_map_iff [e [E He]]; have := A _ He; lia. Qed.
Lemma grow_unaliased s h : unaliased s -> (h_next (p_heap s) <= h_next h)%coq_nat -> unaliased (PF h (p_hist s)).
Proof. by move=> [S [N A]] H; split=> //; split=> // e He; have := A _ He => /= ?; lia. Qed.

Definition abst (x : pfilt * bool) : buf belief * bool := (values x.1, x.2).

Lemma get_values s t : get_at_t t (values s) = option_map (h_obj (p_heap s)) (get_at_t t (p_hist s)).
Proof. exact: bmap_get_at. Qed.

Lemma refine_propagate_bel s pa mb Phi Q tb : unaliased s -> (pa < h_next (p_heap s))%coq_nat ->
  omap abst (p_propagate_bel pa mb Phi Q tb s) = kf_propagate_bel (h_obj (p_heap s) pa) mb Phi Q tb (values s) /\
  (forall s' r, p_propagate_bel pa mb Phi Q tb s = Ok (s', r) -> unaliased s').
Proof.
move=> U Lp; rewrite /p_propagate_bel /kf_propagate_bel.
case: check_dim_phi_q; last by split=> // s' r [<- _].
case: covariance_propagation => [Sb|e|e] //=; try by split.
have Fr := next_fresh U.
have Old q : (q < h_next (p_heap s))%coq_nat -> (q =? h_next (p_heap s))%nat = false by move=> L; apply/Nat.eqb_neq; lia.
rewrite /h_set /= Nat.eqb_refl.
case C: check_dim_mean => /=; last first.
  split; last by move=> s' r [<- _]; apply: grow_unaliased => //=; lia.
  rewrite /abst /=; congr (Ok (_, _)); rewrite /values /=; apply: bmap_ext => e He; rewrite Old //; case: U => _ [_ A]; exact: A.
rewrite /bel_set C /=; split; last first.
  by move=> s' r [<- _]; apply: fresh_unaliased => //=; lia.
rewrite /abst /=; congr (Ok (_, _)).
rewrite (@fresh_values s tb _ _ U) //=; first by rewrite !Nat.eqb_refl.
by move=> q L; rewrite /h_write /= !Old.
Qed.
Lemma refine_propagate s Phi Q ta tb : unaliased s ->
  omap abst (p_propagate Phi Q ta tb s) = kf_propagate Phi Q ta tb (values s) /\
  (forall s' r, p_propagate Phi Q ta tb s = Ok (s', r) -> unaliased s').
Proof.
move=> U; rewrite /p_propagate /kf_propagate get_values.
case G: get_at_t => [pa|] /=; last by split=> // s' r [<- _].
case: check_dim_mean; last by split=> // s' r [<- _].
case: dmul => [mb|e|e] //=.
by apply: refine_propagate_bel => //; case: U => _ [_ A]; exact: (A _ (get_at_In _ _ _ G)).
Qed.
Lemma refine_correct_at s dx Sg t : unaliased s ->
  omap abst (p_correct_at dx Sg t s) = kf_correct_at dx Sg t (values s) /\
  (forall s' r, p_correct_at dx Sg t s = Ok (s', r) -> unaliased s').
Proof.
move=> U; rewrite /p_correct_at /kf_correct_at get_values.
case G: get_at_t => [p|] /=; last by split=> // s' r [<- _].
rewrite /h_correct; case: bel_correct => [b|e|e] //=; split=> //; last by move=> s' r [<- _].
by rewrite /abst /= (write_values _ U G).
Qed.
Lemma refine_private s H R z t cfg : unaliased s ->
  omap abst (p_private junk H R z t cfg s) = kf_private junk H R z t cfg (values s) /\
  (forall s' r, p_private junk H R z t cfg s = Ok (s', r) -> unaliased s').
Proof.
move=> U; rewrite /p_private /kf_private /kf_private_bel get_values.
case G: get_at_t => [p|] /=; last by split=> // s' r [<- _].
case: dmul => [hm|e|e] //=; case: dsub => [r|e|e] //=.
case: KFModel.correction_step => [res|e|e] //=; case: rejected => /=; first by split=> // s' r' [<- _].
rewrite /h_correct; case: bel_correct => [b|e|e] //=; split=> //; last by move=> s' r' [<- _].
by rewrite /abst /= (write_values _ U G).
Qed.
Lemma refine_store s pb Phi tb : unaliased s -> (pb < h_next (p_heap s))%coq_nat -> ~ List.In pb (List.map snd (p_hist s)) ->
  omap abst (p_propagate_store pb Phi tb s) = kf_propagate_store (h_obj (p_heap s) pb) Phi tb (values s) /\
  (forall s' r, p_propagate_store pb Phi tb s = Ok (s', r) -> unaliased s').
Proof.
move=> U L N; rewrite /p_propagate_store /kf_propagate_store; case: check_dim_phi; last by split=> // s' r [<- _].
split; last by move=> s' r [<- _]; apply: fresh_unaliased => //=; lia.
rewrite /abst /= /values /= bmap_insert /= Nat.eqb_refl; congr (Ok (hb_insert _ _ _, _)).
apply: bmap_ext => e He; case: Nat.eqb_spec => // E; case: N; rewrite -E; exact: (List.in_map snd).
Qed.
Lemma remove_after_In t (l : buf nat) e : ssorted l -> List.In e (remove_after_t t l) -> List.In e l.
Proof. by move=> S; rewrite remove_after_filter; [move/List.filter_In => []|exact: ssorted_w]. Qed.
Lemma nodup_filter (g : Z * nat -> bool) l : NoDup (List.map snd l) -> NoDup (List.map snd (List.filter g l)).
Proof.
elim: l => [//|a l IH] /= N; inversion N as [|x r Hx Hr]; subst; case: (g a) => /=; last exact: IH.
constructor; last exact: IH.
by move/List.in_map_iff => [e [E /List.filter_In [He _]]]; apply: Hx; rewrite -E; exact: (List.in_map snd).
Qed.
Lemma refine_remove_after s t : unaliased s -> values (p_remove_after t s) = remove_after_t t (values s) /\ unaliased (p_remove_after t s).
Proof.
move=> [S [N A]]; split; first by rewrite /values /= bmap_remove_after.
rewrite /unaliased /= remove_after_filter; last exact: ssorted_w.
split; first exact: ssorted_filter.
by split; [exact: nodup_filter|move=> e /List.filter_In [He _]; exact: A].
Qed.
Lemma refine_remove_at s t : unaliased s -> values (p_remove_at t s) = remove_at_t t (values s) /\ unaliased (p_remove_at t s).
Proof.
move=> [S [N A]]; split; first by rewrite /values /= bmap_remove_at.
rewrite /unaliased /= /remove_at_t.
split; first exact: ssorted_filter.
by split; [exact: nodup_filter|move=> e /List.filter_In [He _]; exact: A].
Qed.
End Refine.
