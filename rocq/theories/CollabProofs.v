(** Lemmas about the collaborative handler. *)
From Coq Require Import ZArith List Bool Arith Lia.
From mathcomp Require Import all_ssreflect all_algebra.
From Verif Require Import Outcome DoubleModel BufModel BufProofs HorizonModel HorizonProofs MeasModel HandlerModel Spec_Handler DMat KFModel Spec_Mat KFProofs BeliefModel EigenModel EigenProofs IsoModel IsoProofs Spec_Joint JointProofs Props_Joint Props_Joint2 IsoTrace DPModel Spec_DP DPProofs HObsModel HObsProofs AgentModel AgentProofs CollabModel.
Set Implicit Arguments. Unset Strict Implicit. Unset Printing Implicit Defensive.
Import Order.Theory GRing.Theory Num.Theory.
Local Open Scope outcome_scope.
Local Open Scope ring_scope.

Section Union.
Variable F : realFieldType.
Notation dmat := (dmat F).
Notation belief := (belief F).
Notation dict := (dict belief dmat).
Notation inst := (inst belief dmat).
Notation bels := (list (nat * belief)).
Notation fccs := (list (nat * list (nat * dmat))).
Notation keys m := (List.map fst m).
(** two registries side by side *)
Lemma find_cat (d dr : dict) id : d_find id (d ++ dr) = if d_find id d is Some i then Some i else d_find id dr.
Proof. by elim: d => [//|[k i] d IH] /=; case: ifP. Qed.
Lemma upd_cat (d dr : dict) id i : d_upd id i (d ++ dr) = if d_find id d is Some _ then d_upd id i d ++ dr else d ++ d_upd id i dr.
Proof.
elim: d => [//|[k x] d IH]; rewrite [LHS]/= [d_find _ _]/= [d_upd id i (_ :: d)]/=; case: Nat.eqb => //; rewrite IH; by case: d_find.
Qed.
Lemma find_keys_eq (d d' : dict) id : keys d' = keys d -> (d_find id d' = None <-> d_find id d = None).
Proof.
elim: d d' => [|[k x] d IH] [|[k' x'] d'] //= [-> E]; case: Nat.eqb => //; exact: IH.
Qed.
Lemma bel_cat (d dr : dict) id t : d_find id d <> None -> bel_of (d ++ dr) id t = bel_of d id t.
Proof. by rewrite /bel_of find_cat; case: d_find. Qed.
Lemma bel_cat' (d dr : dict) id t : d_find id d = None -> bel_of (d ++ dr) id t = bel_of dr id t.
Proof. by rewrite /bel_of find_cat => ->. Qed.
Lemma fac_cat (d dr : dict) id j t : d_find id d <> None -> fac_of (d ++ dr) id j t = fac_of d id j t.
Proof. by rewrite /fac_of find_cat; case: d_find. Qed.
Lemma fac_cat' (d dr : dict) id j t : d_find id d = None -> fac_of (d ++ dr) id j t = fac_of dr id j t.
Proof. by rewrite /fac_of find_cat => ->. Qed.
Lemma localE id (d : dict) : local id d = true <-> d_find id d <> None.
Proof. by rewrite /local; case: d_find. Qed.

(** a loop over participants of both registries, and its local half *)
Definition eachL {X} (prep : nat -> nat * belief -> outcome X) (step : X -> inst -> outcome inst) (s : dict * nat) (e : nat * belief) : outcome (dict * nat) :=
  let! x := prep (snd s) e in let! d := (if local (fst e) (fst s) then mod_inst (fst e) (step x) (fst s) else Ok (fst s)) in Ok (d, (snd s + bel_dim (snd e))%nat).
Lemma each_split {X} (prep : nat -> nat * belief -> outcome X) step : forall post row (d dr u : dict) n,
  ofold (each prep step) (d ++ dr, row) post = Ok (u, n) ->
  exists d1 dr1, u = d1 ++ dr1 /\ keys d1 = keys d /\ ofold (eachL prep step) (d, row) post = Ok (d1, n).
Proof.
elim=> [|e post IH] row d dr u n; first by case=> <- <-; exists d, dr.
rewrite -[ofold _ _ _]/(obind (each prep step (d ++ dr, row) e) (fun s => ofold (each prep step) s post)).
rewrite -[ofold (eachL _ _) _ _]/(obind (eachL prep step (d, row) e) (fun s => ofold (eachL prep step) s post)).
rewrite /each /eachL [snd _]/= [fst (_, _)]/= -/(each prep step) -/(eachL prep step); case: (prep row e) => [x|?|?] //; cbn [obind].
rewrite /mod_inst /at_inst /local find_cat; case G: (d_find (fst e) d) => [i|].
  case: (step x i) => [i'|?|?] //; cbn [obind]; rewrite upd_cat G => /IH [d1 [dr1 [-> [K E]]]].
  by exists d1, dr1; split=> //; split; [rewrite K upd_keys|exact: E].
case: (d_find (fst e) dr) => [i|] //=; case: (step x i) => [i'|?|?] //=; rewrite upd_cat G => /IH [d1 [dr1 [-> [K E]]]].
by exists d1, dr1.
Qed.
(** the same for the loop that also corrects the beliefs of the message *)
Definition eachP (lb : bels) (prep : nat -> nat * belief -> outcome belief) (step : belief -> inst -> outcome inst) (s : dict * bels * nat) (e : nat * belief) : outcome (dict * bels * nat) :=
  let! b' := prep (snd s) e in
  let! s' := (if smap_find (fst e) lb is Some _ then let! d := mod_inst (fst e) (step b') (fst (fst s)) in Ok (d, snd (fst s))
              else Ok (fst (fst s), List.map (fun x => if (fst x =? fst e)%nat then (fst x, b') else x) (snd (fst s)))) in
  Ok (s', (snd s + bel_dim (snd e))%nat).
Lemma map_find (rb : bels) k b' id : smap_find id (List.map (fun x => if (fst x =? k)%nat then (fst x, b') else x) rb) =
  if smap_find id rb is Some b then Some (if (id =? k)%nat then b' else b) else None.
Proof.
elim: rb => [//|[x b] rb IH] /=; case: (Nat.eqb_spec x k) => [->|N] /=; case: (Nat.eqb_spec _ id) => [E|_] //.
  by subst id; rewrite Nat.eqb_refl.
by subst id; have -> : (x =? k)%nat = false by apply/Nat.eqb_neq.
Qed.
Lemma map_keys (rb : bels) k b' : keys (List.map (fun x => if (fst x =? k)%nat then (fst x, b') else x) rb) = keys rb.
Proof. by elim: rb => [//|[x b] rb IH] /=; rewrite IH; case: Nat.eqb. Qed.
Variable us : bels.
Notation ds := (dims us).
Notation n := (seq.size us).
Hypothesis asc : forall k l, (k < l)%N -> (l < n)%N -> (idk us k < idk us l)%N.
Lemma each_split_P (lb : bels) prep step : forall post pre (d dr u : dict) (rb : bels), us = pre ++ post ->
  (forall e, List.In e post -> (smap_find (fst e) lb <> None <-> d_find (fst e) d <> None)) ->
  ofold (each prep step) (d ++ dr, off ds (seq.size pre)) post = Ok (u, off ds n) ->
  exists d1 dr1 rb1, u = d1 ++ dr1 /\ keys d1 = keys d /\ ofold (eachP lb prep step) (d, rb, off ds (seq.size pre)) post = Ok (d1, rb1, off ds n) /\
    keys rb1 = keys rb /\
    (forall id, (d_find id d <> None \/ forall k b, (seq.size pre <= k)%N -> List.nth_error us k <> Some (id, b)) -> smap_find id rb1 = smap_find id rb) /\
    (forall k id b b', (seq.size pre <= k)%N -> List.nth_error us k = Some (id, b) -> d_find id d = None -> smap_find id rb <> None ->
       prep (off ds k) (id, b) = Ok b' -> smap_find id rb1 = Some b').
Proof.
elim=> [|[id0 b0] post IH] pre d dr u rb Ee Hl.
  rewrite cats0 in Ee => -[<-] _; exists d, dr, rb; rewrite /= Ee; split=> //; split=> //; split=> //; split=> //; split=> //.
  move=> k id b b' Lk Ek; exfalso; have : (k < seq.size pre)%N by apply/ssrnat.ltP; apply/List.nth_error_Some; rewrite Ek.
  by rewrite ltnNge Lk.
have [Ie [_ Le]] := nth_pre Ee; have dc := dims_nth Ee; rewrite /= in Ie dc.
have Ex k id b : List.nth_error us k = Some (id, b) -> (seq.size pre <= k)%N -> k = seq.size pre /\ id = id0 /\ b = b0 \/ (seq.size pre < k)%N /\ id <> id0.
  move=> Ek; have [_ [_ [Ik [_ Lk]]]] := dim_rows Ek; case: (ltngtP (seq.size pre) k) => // [L _|E _].
    by right; split=> // Ei; move: (asc L Lk); rewrite Ie Ik Ei ltnn.
  left; split=> //; have : List.nth_error us (seq.size pre) = Some (id0, b0) by apply/nth_cut; exists pre, post.
  by rewrite E Ek => -[-> ->].
rewrite [ofold _ _ _]/= {1}/each /=; case Ep: (prep _ _) => [b'|?|?] //=.
have Ee2 : us = rcons pre (id0, b0) ++ post by rewrite cat_rcons.
have Sz : seq.size (rcons pre (id0, b0)) = (seq.size pre).+1 by rewrite size_rcons.
have Hl' e : List.In e post -> (smap_find (fst e) lb <> None <-> d_find (fst e) d <> None) by move=> He; apply: Hl; right.
have := Hl (id0, b0) (or_introl erefl) => /= Hl0.
rewrite /mod_inst /at_inst find_cat; case G: (d_find id0 d) => [i|].
  case Es: (step b' i) => [i'|?|?] //=; rewrite upd_cat G -dc -offS -Sz => E.
  have [|d1 [dr1 [rb1 [E1 [K [E2 [K2 [O P]]]]]]]] := IH _ _ _ _ rb Ee2 _ E.
    by move=> e He; rewrite Hl' // find_upd G; case: Nat.eqb_spec => [->|_] //; rewrite G.
  have FD id : d_find id (d_upd id0 i' d) = None <-> d_find id d = None by apply: find_keys_eq; exact: upd_keys.
  exists d1, dr1, rb1; split=> //; split; first by rewrite K upd_keys.
  split.
    rewrite /eachP /= Ep /=; have := proj2 Hl0; rewrite G => /(_ (fun e => ltac:(discriminate e))).
    by case: smap_find => // bb _; rewrite /mod_inst /at_inst G /= Es /= -dc -offS -Sz.
  split=> //; split.
    move=> id H; apply: O; case: H => [H|H]; [left|right]; first by move/FD.
    by move=> k b; rewrite Sz => Lk; apply: H; exact: ltnW.
  move=> k id b c Lk Ek Gk; case: (Ex _ _ _ Ek Lk) => [[_ [Ei _]]|[Lk' Ni]]; first by rewrite Ei G in Gk.
  by apply: P Ek _ => //; [rewrite Sz|apply/FD].
case Gr: (d_find id0 dr) => [i|//]; case Es: (step b' i) => [i'|?|?] //=; rewrite upd_cat G -dc -offS -Sz => E.
have [//|d1 [dr1 [rb1 [E1 [K [E2 [K2 [O P]]]]]]]] := IH _ _ _ _ (List.map (fun x => if (fst x =? id0)%nat then (fst x, b') else x) rb) Ee2 _ E.
exists d1, dr1, rb1; split=> //; split=> //; split.
  rewrite /eachP /= Ep /=; case El: (smap_find id0 lb) Hl0 => [bb|] Hl0; first by have := proj1 Hl0 ltac:(discriminate); rewrite G.
  by rewrite /= -dc -offS -Sz.
split; first by rewrite K2 map_keys.
split.
  move=> id H; rewrite O.
    rewrite map_find; case: smap_find => // b; case: Nat.eqb_spec => // E0; subst id; exfalso.
    case: H => [H|H]; first by rewrite G in H.
    by apply: (H (seq.size pre) b0 (leqnn _)); apply/nth_cut; exists pre, post.
  case: H => [H|H]; [by left|right] => k b; rewrite Sz => Lk; apply: H; exact: ltnW.
move=> k id b c Lk Ek Gk Nk Pk; case: (Ex _ _ _ Ek Lk) => [[E0 [Ei Eb]]|[Lk' Ni]].
  subst k id b; move: Pk; rewrite Ep => -[<-]; rewrite O.
    by rewrite map_find Nat.eqb_refl; case: smap_find Nk.
  right=> k b; rewrite Sz => Lk2 Ek2; case: (Ex _ _ _ Ek2 (ltnW Lk2)) => [[E0 _]|[_ //]]; by rewrite E0 ltnn in Lk2.
apply: P Ek Gk _ Pk; first by rewrite Sz.
by rewrite map_find; case: smap_find Nk.
Qed.
End Union.

(** ** storing the rows of the local estimators *)
Section Rows.
Variable F : realFieldType.
Notation dmat := (dmat F).
Notation belief := (belief F).
Notation dict := (dict belief dmat).
Notation inst := (inst belief dmat).
Notation bels := (list (nat * belief)).
Notation fccs := (list (nat * list (nat * dmat))).
Notation keys m := (List.map fst m).
Variables (keep : nat -> bool) (t : Z).
Definition store_one (id : nat) (d : dict) (e : nat * dmat) : outcome dict :=
  if keep (fst e) then mod_inst id (fun i => Ok (with_ccf (ccf_set (fst e) t (snd e) (i_ccf i)) i)) d else Ok d.
(** only factors at t of registered instances differ *)
Definition same_else (d d' : dict) : Prop := keys d' = keys d /\ (forall id s, bel_of d' id s = bel_of d id s) /\
  (forall id i, d_find id d = Some i -> exists i', d_find id d' = Some i' /\ i_enabled i' = i_enabled i) .
Lemma same_else_refl d : same_else d d.
Proof. by split=> //; split=> // id i ->; exists i. Qed.
Lemma same_else_trans d1 d2 d3 : same_else d1 d2 -> same_else d2 d3 -> same_else d1 d3.
Proof.
move=> [A1 [B1 C1]] [A2 [B2 C2]]; split; first by rewrite A2.
split; first by move=> id s; rewrite B2.
by move=> id i /C1 [i1 [/C2 [i2 [G E]] E1]]; exists i2; rewrite G E E1.
Qed.
Lemma store_row id : forall row (d : dict), d_find id d <> None -> List.NoDup (keys row) ->
  exists d', ofold (store_one id) d row = Ok d' /\ same_else d d' /\ (forall x, x <> id -> d_find x d' = d_find x d) /\
    forall j s, fac_of d' id j s = if keep j && Z.eqb s t then (if smap_find j row is Some X then Some X else fac_of d id j s) else fac_of d id j s.
Proof.
elim=> [|[k X] row IH] d G ND /=.
  exists d; split=> //; split; first exact: same_else_refl.
  by split=> // j s; case: ifP.
inversion ND as [|? ? Nk ND']; subst.
rewrite {1}/store_one /=; case Ek: (keep k).
  case Gi: (d_find id d) G => [i|//] _; rewrite /mod_inst /at_inst Gi /=; set d1 := d_upd _ _ _.
  have FD x : d_find x d1 = if (x =? id)%nat then Some (with_ccf (ccf_set k t X (i_ccf i)) i) else d_find x d by rewrite find_upd Gi.
  have G1 : d_find id d1 <> None by rewrite FD Nat.eqb_refl.
  have [d' [E [S [N Fc]]]] := IH d1 G1 ND'; exists d'; split=> //; split; last split.
  - apply: (same_else_trans _ S); split; first exact: upd_keys.
    split; first by move=> x s; rewrite /bel_of FD; case: Nat.eqb_spec => [->|_] //; rewrite Gi.
    by move=> x ix Gx; rewrite FD; case: Nat.eqb_spec => [Ex|_]; [eexists; split=> //; subst x; move: Gx; rewrite Gi => -[<-]|exists ix].
  - by move=> x Nx; rewrite N // FD; case: Nat.eqb_spec.
  move=> j s; rewrite Fc /fac_of FD Nat.eqb_refl Gi -fac_ccf_at /= fac_set -fac_ccf_at.
  case: (Nat.eqb_spec j k) => [->|Nj] /=.
    rewrite Nat.eqb_refl Ek /=; case: Z.eqb => //; by rewrite (find_None Nk).
  by rewrite (introF (Nat.eqb_spec k j)) // => E0; apply: Nj.
have [d' [E [S [N Fc]]]] := IH d G ND'; exists d'; split=> //; split=> //; split=> // j s; rewrite Fc.
case: (Nat.eqb_spec k j) => [<-|//]; by rewrite Ek.
Qed.
Lemma store_rows (m : fccs) : (forall id row, smap_find id m = Some row -> List.NoDup (keys row)) ->
  forall ids (d : dict), (forall id, List.In id ids -> d_find id d <> None /\ (keep id -> smap_find id m <> None)) ->
  exists d', c_store_rows keep ids m t d = Ok d' /\ same_else d d' /\ (forall x, ~ List.In x ids \/ keep x = false -> d_find x d' = d_find x d) /\
    forall id j s, fac_of d' id j s = if ina id ids && keep id && keep j && Z.eqb s t then (if fget id j m is Some X then Some X else fac_of d id j s) else fac_of d id j s.
Proof.
move=> ND; elim=> [|a ids IH] d H.
  exists d; split=> //; split; first exact: same_else_refl.
  by split.
rewrite /c_store_rows /=.
have [G Kp] := H a (or_introl erefl); have {}H id : List.In id ids -> d_find id d <> None /\ (keep id -> smap_find id m <> None) by move=> Hid; apply: H; right.
case Ek: (keep a); last first.
  have [d' [E [S [N Fc]]]] := IH d H; exists d'; split=> //; split=> //; split.
    by move=> x Hx; apply: N; case: Hx => Hx; [left=> Hx'; apply: Hx; right|right].
  move=> id j s; rewrite Fc /ina /=; case: (Nat.eqb_spec id a) => [->|_] //=; by rewrite Ek /= !andbF.
have := Kp Ek; case Er: (smap_find a m) => [row|//] _.
have [d1 [E1 [S1 [N1 F1]]]] := @store_row a row d G (ND _ _ Er).
rewrite (_ : ofold _ d row = ofold (store_one a) d row) // E1 /=.
have [|d' [E [S [N Fc]]]] := IH d1.
  move=> id Hid; have [Gi Ki] := H id Hid; split=> //; have [K _] := S1; by move/(find_keys_eq _ K).
exists d'; split=> //; split; first exact: same_else_trans S.
split.
  move=> x Hx; rewrite N; last by case: Hx => Hx; [left=> Hx'; apply: Hx; right|right].
  rewrite N1 // => Ex; subst x; case: Hx => Hx; first by apply: Hx; left.
  by rewrite Ek in Hx.
move=> id j s; rewrite Fc /ina /= -/(ina id ids); case: (Nat.eqb_spec id a) => [->|Na] /=.
  rewrite Ek /= F1 /fget Er; case: (ina a ids) => /=; case: (keep j && Z.eqb s t) => //; by case: smap_find.
by rewrite /fac_of N1.
Qed.
End Rows.

(** ** the write phases *)
Section Write.
Variable F : realFieldType.
Variable junk : forall n, 'M[F]_n -> 'M[F]_n.
Notation dmat := (dmat F).
Notation belief := (belief F).
Notation dict := (dict belief dmat).
Notation inst := (inst belief dmat).
Notation bels := (list (nat * belief)).
Notation fccs := (list (nat * list (nat * dmat))).
Notation keys m := (List.map fst m).
Variables (us lb rb : bels) (lI rI : list nat) (t : Z) (d dr : dict) (keep : nat -> bool).
Variables (Sg dx : dmat).
Notation ds := (dims us).
Notation n := (seq.size us).
Hypothesis SS : sq ds Sg.
Hypothesis Rdx : drows dx = sumn ds.
Hypothesis Cdx : dcols dx = 1%N.
Hypothesis asc : forall k l, (k < l)%N -> (l < n)%N -> (idk us k < idk us l)%N.
Hypothesis free_us : unfixed us = us.
Hypothesis two : (1 < n)%N.
Hypothesis part : part_ok us t (d ++ dr).
Hypothesis here : forall i, List.In i lI -> d_find i d <> None.
Hypothesis side : forall i b, List.In (i, b) us ->
  List.In i lI /\ smap_find i lb <> None \/ List.In i rI /\ d_find i d = None /\ smap_find i lb = None /\ smap_find i rb <> None.
Hypothesis keepE : forall i, List.In i lI \/ List.In i rI \/ List.In i (keys us) -> keep i = ina i (keys us).

Lemma c_correctionsE (d0 : dict) : c_corrections junk Sg us t d0 = let! (d1, _) := ofold (eachL (prep_corr Sg) (step_corr junk t)) (d0, 0%N) us in Ok d1.
Proof.
rewrite /c_corrections; congr (obind _ _); apply: ofold_ext => s e; rewrite /eachL /prep_corr; by case: dblock.
Qed.
Lemma c_correctE (d0 : dict) : c_correct lb Sg dx us t d0 rb =
  let! (s, _) := ofold (eachP lb (prep_bel Sg dx) (fun b' i => Ok (with_bel (hb_insert t b' (i_bel i)) i))) (d0, rb, 0%N) us in Ok s.
Proof.
rewrite /c_correct -{2}free_us /unfixed -(ofold_filter _ (eachP _ _ _)); congr (obind _ _); apply: ofold_ext => s e.
by case: ifP => // _; rewrite /eachP /prep_bel; case: dblock => //= A; case: dblock => //= v; case: bel_correct.
Qed.
Lemma in_us k i b : List.nth_error us k = Some (i, b) -> List.In i (keys us).
Proof. by move=> Ek; apply/List.in_map_iff; exists (i, b); split=> //; exact: (List.nth_error_In _ _ Ek). Qed.
Lemma us_nth i : List.In i (keys us) -> exists k b, List.nth_error us k = Some (i, b).
Proof. by move=> /List.in_map_iff [[j b] [/= -> Hin]]; have [k Ek] := List.In_nth_error _ _ Hin; exists k, b. Qed.
Lemma lb_here i b : List.In (i, b) us -> (smap_find i lb <> None <-> d_find i d <> None).
Proof. by move=> /side [[H1 H2]|[_ [-> [-> _]]]] //; split=> // _; exact: here. Qed.
Lemma sent_find (ids : list nat) (m : fccs) i : smap_find i (c_sent_rows keep ids m) =
  if ina i ids && keep i then Some (match smap_find i m with Some r => r | None => nil end) else None.
Proof.
rewrite /c_sent_rows; set body := fun r id => _.
have G : forall ids acc, smap_find i (List.fold_left body ids acc) = if ina i ids && keep i then Some (match smap_find i m with Some r => r | None => nil end) else smap_find i acc.
  elim=> [//|a l IH] acc /=; rewrite IH /body /ina /= -/(ina i l).
  case: (Nat.eqb_spec i a) => [->|Na] /=.
    by case: (ina a l) => //=; case E: (keep a) => //=; rewrite find_smap_set Nat.eqb_refl.
  case: (ina i l && keep i) => //; case: (keep a) => //; rewrite find_smap_set.
  by rewrite (introF (Nat.eqb_spec a i)) // => E; apply: Na.
exact: G.
Qed.
Lemma write_spec : exists d' rb' m, c_write junk keep Sg dx us lb rb lI rI t d = Ok (d', (rb', c_sent_rows keep rI m)) /\ split_Sigma_locally Sg us = Ok m /\
  keys d' = keys d /\ keys rb' = keys rb /\
  (forall id i, d_find id d = Some i -> exists i', d_find id d' = Some i' /\ i_enabled i' = i_enabled i) /\
  (* not involved *)
  (forall id, ~ List.In id (keys us) -> d_find id d' = d_find id d /\ smap_find id rb' = smap_find id rb) /\
  (* beliefs *)
  (forall k id b, List.nth_error us k = Some (id, b) -> exists B v b', blk ds Sg k k = Ok B /\ dblock dx (off ds k) 0 (dim_k ds k) 1 = Ok v /\
     bel_correct v B b = Ok b' /\ (d_find id d <> None -> bel_of d' id t = Some b' /\ forall s, s <> t -> bel_of d' id s = bel_of d id s) /\
     (d_find id d = None -> smap_find id rb' = Some b')) /\
  (* the split factors *)
  (forall k l ik il bk bl, List.nth_error us k = Some (ik, bk) -> List.nth_error us l = Some (il, bl) -> (k < l)%N ->
     exists B, blk ds Sg k l = Ok B /\ fget ik il m = Some B /\ fget il ik m = Some (eyeI F (dcols B))) /\
  (forall i j, fget i j m <> None -> List.In i (keys us) /\ List.In j (keys us) /\ i <> j) /\
  (forall id j, List.In id (keys us) -> d_find id d <> None -> fget id j m <> None -> fac_of d' id j t = fget id j m) /\
  (* the other factors *)
  (forall k id b j, List.nth_error us k = Some (id, b) -> d_find id d <> None -> fget id j m = None ->
     exists L, Lam junk us Sg k b L /\ match fac_of d id j t with
       | Some X => exists p, dmul L X = Ok p /\ fac_of d' id j t = Some p
       | None => fac_of d' id j t = None end) /\
  (forall id j s, s <> t -> fac_of d' id j s = fac_of d id j s).
Proof.
have Nu : us <> nil by move=> E; move: two; rewrite E.
(* phase 1 *)
have [|u1 [E1 [K1 [N1 P1]]]] := @each_spec _ us asc _ (prep_corr Sg) (step_corr junk t) us nil (d ++ dr) erefl.
  move=> pre [id b] post Ee _; have En : List.nth_error us (seq.size pre) = Some (id, b) by apply/nth_cut; exists pre, post.
  have [i [L [c' [_ [G [_ [_ [_ S]]]]]]]] := correct_ok junk SS part En; have [_ [Db [Ik [_ Lk]]]] := dim_rows En.
  have Lk' : (seq.size pre < seq.size ds)%N by rewrite dims_size.
  move: S; rewrite (blk_ok SS Lk' Lk') => S; eexists; exists i, (with_ccf c' i); split; last by split; [exact: G|exact: S].
  by rewrite /prep_corr /= Db -/(blk ds Sg _ _) (blk_ok SS Lk' Lk').
have {}N1 id : ~ List.In id (keys us) -> d_find id u1 = d_find id (d ++ dr).
  move=> H; apply: N1 => k _ Lk E; have [b Eb] := nth_idk Lk; apply: H; rewrite E; exact: in_us Eb.
have {}P1 k id b : List.nth_error us k = Some (id, b) -> exists i L c', Lam junk us Sg k b L /\ d_find id (d ++ dr) = Some i /\
   ccf_scale t t L (i_ccf i) = Ok c' /\ d_find id u1 = Some (with_ccf c' i).
  move=> En; have [i [L [c' [HL [G [CL [RL [S1 S2]]]]]]]] := correct_ok junk SS part En; have [_ [Db [Ik [_ Lk]]]] := dim_rows En.
  have /nth_cut [pre [post [Ee Sz]]] := En.
  have [x [i2 [i' [Px [G2 [S3 G3]]]]]] := P1 _ _ _ Ee (leq0n _); rewrite /= in Px G2 G3.
  have Lk' : (k < seq.size ds)%N by rewrite dims_size.
  move: Px; rewrite /prep_corr /= Sz Db -/(blk ds Sg _ _) (blk_ok SS Lk' Lk') /= => -[Ex]; subst x.
  move: S2; rewrite (blk_ok SS Lk' Lk') /odflt /oapp => S2.
  move: G2; rewrite G => -[Ei]; subst i2; move: S3; rewrite S2 => -[Ei']; subst i'.
  by exists i, L, c'.
rewrite off0 in E1; have [d1 [dr1 [Eu1 [Kd1 EL1]]]] := each_split E1.
have F1 id : d_find id d <> None -> d_find id d1 = d_find id u1.
  by move=> H; rewrite Eu1 find_cat; case G: (d_find id d1) => [//|]; move/(find_keys_eq _ Kd1): G.
have B1 id s : bel_of d1 id s = bel_of d id s.
  case G: (d_find id d) => [i|]; last by rewrite /bel_of G; have /(find_keys_eq _ Kd1) -> := G.
  rewrite /bel_of F1 ?G //; case: (List.in_dec Nat.eq_dec id (keys us)) => [/us_nth [k [b Ek]]|Ni].
    have [i0 [L [c' [_ [G0 [_ ->]]]]]] := P1 _ _ _ Ek; rewrite find_cat G in G0; by case: G0 => ->.
  by rewrite N1 // find_cat G.
(* phase 2: the split *)
have [//|m [Em [Fm [Pm [Om Km]]]]] := lrows_spec SS asc (erefl : us = [::] ++ us) Nu (@fok_nil F).
rewrite off0 in Em; rewrite /= in Pm Om Km.
have um k l ik il bk bl : List.nth_error us k = Some (ik, bk) -> List.nth_error us l = Some (il, bl) -> (k < l)%N ->
     exists B, blk ds Sg k l = Ok B /\ fget ik il m = Some B /\ fget il ik m = Some (eyeI F (dcols B)).
  move=> Ek El L; have [_ [_ [<- _]]] := dim_rows Ek; have [_ [_ [<- [_ Ll]]]] := dim_rows El; exact: Pm.
have om i j : fget i j m <> None -> List.In i (keys us) /\ List.In j (keys us) /\ i <> j.
  move=> H; case: (List.in_dec Nat.eq_dec i (keys us)) => [Hi|Ni]; last first.
    case: H; rewrite Om // => -[p [q [_ [Hp [_ [_ [_ [Ei _]]]]]]]]; apply: Ni; rewrite Ei; have [b Eb] := nth_idk Hp; exact: in_us Eb.
  case: (List.in_dec Nat.eq_dec j (keys us)) => [Hj|Nj]; last first.
    case: H; rewrite Om // => -[p [q [_ [_ [_ [Hq [_ [_ Ej]]]]]]]]; apply: Nj; rewrite Ej; have [b Eb] := nth_idk Hq; exact: in_us Eb.
  split=> //; split=> // Eij; case: H; rewrite Om // => -[p [q [_ [Hp [_ [Hq [Npq [Ei Ej]]]]]]]]; apply: Npq; apply: (idk_inj asc Hp Hq); by rewrite -Ei -Ej.
(* phase 2: the local rows *)
have [|d2 [E2 [[K2 [B2 En2]] [N2 F2]]]] := @store_rows F keep t m (fun id row Er => asc_nodup (proj2 Fm _ _ Er)) lI d1.
  move=> id Hid; split; first by move=> G; apply: (here Hid); apply/(find_keys_eq _ Kd1).
  rewrite keepE; last by left.
  move=> /inaP Hu; have : List.In id (keys m).
    apply/Km; right; split=> //; have [k [b Ek]] := us_nth Hu; exists k; have [_ [_ [<- [_ Lk]]]] := dim_rows Ek; by [].
  by move=> /find_keys [v ->].
(* phase 3 *)
have Tot k id b : List.nth_error us k = Some (id, b) -> exists B v b', blk ds Sg k k = Ok B /\ dblock dx (off ds k) 0 (dim_k ds k) 1 = Ok v /\ bel_correct v B b = Ok b' /\ prep_bel Sg dx (off ds k) (id, b) = Ok b'.
  move=> En; have [_ [Rm [Cm _]]] := part En; have [_ [Db [Ik [_ Lk]]]] := dim_rows En.
  have Lk' : (k < seq.size ds)%N by rewrite dims_size.
  have EB := blk_ok SS Lk' Lk'; set B := DM _ in EB.
  have EV : dblock dx (off ds k) 0 (dim_k ds k) 1 = Ok (DM (\matrix_(a < dim_k ds k, b < 1) entry dx (off ds k + a) (0 + b))).
    by rewrite dblock_ok // ?Rdx ?Cdx //; exact: off_fit.
  set V := DM _ in EV.
  have [b' Eb] : exists b', bel_correct V B b = Ok b'.
    rewrite /bel_correct /bel_correct_mean; case: (b_mean b) Rm Cm => p q mm /= Rm Cm; subst p q.
    by rewrite dadd_ok /=; eexists.
  exists B, V, b'; split=> //; split=> //; split=> //; by rewrite /prep_bel /= Db -/(blk ds Sg k k) EB /= EV /= Eb.
have Kd2 : keys d2 = keys d by rewrite K2.
have [|u3 [E3 [K3 [N3 P3]]]] := @each_spec _ us asc _ (prep_bel Sg dx) (fun b' (i : inst) => Ok (with_bel (hb_insert t b' (i_bel i)) i)) us nil (d2 ++ dr) erefl.
  move=> pre [id b] post Ee _; have En : List.nth_error us (seq.size pre) = Some (id, b) by apply/nth_cut; exists pre, post.
  have [B [v [b' [_ [_ [_ Eb]]]]]] := Tot _ _ _ En; have [_ [_ [_ [i [G _]]]]] := part En.
  have [i2 G2] : exists i2, d_find id (d2 ++ dr) = Some i2.
    move: G; rewrite !find_cat; case G2: (d_find id d2) => [i2|]; first by exists i2.
    by have /(find_keys_eq _ Kd2) -> := G2; exists i.
  by exists b', i2; eexists; split=> //; split.
rewrite off0 in E3.
have HL e : List.In e us -> (smap_find (fst e) lb <> None <-> d_find (fst e) d2 <> None).
  by case: e => i b Hin; rewrite (lb_here Hin) /=; split=> H G; apply: H; apply/(find_keys_eq _ Kd2).
have [d3 [dr3 [rb3 [Eu3 [Kd3 [EP3 [Krb [Or Pr]]]]]]]] := @each_split_P F us asc lb (prep_bel Sg dx) _ us nil d2 dr u3 rb erefl HL ltac:(rewrite off0; exact: E3).
have Kd3' : keys d3 = keys d by rewrite Kd3.
have F3 id : d_find id d <> None -> d_find id d3 = d_find id u3.
  by move=> H; rewrite Eu3 find_cat; case G: (d_find id d3) => [//|]; move/(find_keys_eq _ Kd3'): G.
have None_eq (e1 e2 : dict) id : keys e1 = keys e2 -> d_find id e2 <> None -> d_find id e1 <> None by move=> K H /(find_keys_eq _ K).
have Step3 k id b : List.nth_error us k = Some (id, b) -> d_find id d <> None -> exists i2 b', prep_bel Sg dx (off ds k) (id, b) = Ok b' /\
   d_find id d2 = Some i2 /\ d_find id d3 = Some (with_bel (hb_insert t b' (i_bel i2)) i2).
  move=> En H; have /nth_cut [pre [post [Ee Sz]]] := En.
  have [x [i [i' [Px [G [Si G3]]]]]] := P3 _ _ _ Ee (leq0n _); rewrite /= in Px G G3; rewrite Sz in Px.
  case: Si => Ei; subst i'; move: G; rewrite find_cat; case G2: (d_find id d2) (None_eq _ _ _ Kd2 H) => [i2|//] _ [E0]; subst i.
  by exists i2, x; rewrite F3.
have Out3 id : ~ List.In id (keys us) -> d_find id d3 = d_find id d2.
  move=> Ni; case G: (d_find id d) => [i|].
    have Hd : d_find id d <> None by rewrite G.
    rewrite F3 // N3; last first.
      by move=> k _ Lk E; have [b Eb] := nth_idk Lk; apply: Ni; rewrite E; exact: in_us Eb.
    by rewrite find_cat; case: (d_find id d2) (None_eq _ _ _ Kd2 Hd).
  by have /(find_keys_eq _ Kd3') -> := G; have /(find_keys_eq _ Kd2) -> := G.
have Fac3 id j s : fac_of d3 id j s = fac_of d2 id j s.
  case: (List.in_dec Nat.eq_dec id (keys us)) => [/us_nth [k [b Ek]]|Ni]; last by rewrite /fac_of Out3.
  case G: (d_find id d) => [i|]; last by rewrite /fac_of; have /(find_keys_eq _ Kd3') -> := G; have /(find_keys_eq _ Kd2) -> := G.
  have Hd : d_find id d <> None by rewrite G.
  by have [i2 [b' [_ [G2 G3]]]] := Step3 _ _ _ Ek Hd; rewrite /fac_of G2 G3.
have Loc k id b : List.nth_error us k = Some (id, b) -> d_find id d <> None -> List.In id lI.
  by move=> Ek H; case: (side (List.nth_error_In _ _ Ek)) => [[]//|[_ [H2 _]]].
exists d3, rb3, m; split.
  by rewrite /c_write c_correctionsE EL1 /= /split_Sigma_locally Em /= E2 /= c_correctE -[X in ofold _ (d2, rb, X) us](off0 ds) EP3.
split; first exact: Em.
split=> //; split=> //; split.
  move=> id i G; have Hd : d_find id d <> None by rewrite G.
  have [i1 [G1 e1]] : exists i1, d_find id d1 = Some i1 /\ i_enabled i1 = i_enabled i.
    rewrite F1 //; case: (List.in_dec Nat.eq_dec id (keys us)) => [/us_nth [k [b Ek]]|Ni].
      have [i0 [L [c' [_ [G0 [_ ->]]]]]] := P1 _ _ _ Ek; rewrite find_cat G in G0; by case: G0 => <-; eexists.
    by exists i; rewrite N1 // find_cat G.
  have [i2 [G2 e2]] := En2 _ _ G1.
  case: (List.in_dec Nat.eq_dec id (keys us)) => [/us_nth [k [b Ek]]|Ni]; last by exists i2; rewrite Out3 // e2.
  have [i2' [b' [_ [G2' ->]]]] := Step3 _ _ _ Ek Hd; eexists; split=> //=; by move: G2'; rewrite G2 => -[<-]; rewrite e2.
split.
  move=> id Ni; split.
    rewrite Out3 // N2; last by case: (List.in_dec Nat.eq_dec id lI) => [H|H]; [right; rewrite keepE; [apply/negP => /inaP|left]|left].
    case G: (d_find id d) => [i|]; last by have /(find_keys_eq _ Kd1) -> := G.
    by rewrite F1 ?G // N1 // find_cat G.
  by apply: Or; right=> k b _ Ek; apply: Ni; exact: in_us Ek.
split.
  move=> k id b Ek; have [B [v [b' [H1 [H2 [H3 H4]]]]]] := Tot _ _ _ Ek; exists B, v, b'; split=> //; split=> //; split=> //; split.
    move=> Hd; have [i2 [b2 [Eb [G2 G3]]]] := Step3 _ _ _ Ek Hd; move: Eb; rewrite H4 => -[Eb]; subst b2.
    have Bo s : bel_of d3 id s = if Z.eqb s t then Some b' else bel_of d id s.
      rewrite -B1 -B2 /bel_of G3 G2 /bel_at /= get_ins; by case: Z.eqb.
    rewrite Bo Z.eqb_refl; split=> // s Ns; rewrite Bo; by case: Z.eqb_spec.
  move=> G; apply: (Pr k id b) => //; first by apply/(find_keys_eq _ Kd2).
  case: (side (List.nth_error_In _ _ Ek)) => [[H _]|[_ [_ [_ //]]]]; by case: (here H).
split; first exact: um.
split; first exact: om.
split.
  move=> id j Hu Hd Hf; rewrite Fac3 F2; have [k [b Ek]] := us_nth Hu; have [_ [Hj _]] := om _ _ Hf.
  rewrite (introT (inaP _ _) (Loc _ _ _ Ek Hd)) !keepE; [|by right; right|by right; right].
  by rewrite (introT (inaP _ _) Hu) (introT (inaP _ _) Hj) Z.eqb_refl /=; case: fget Hf.
split.
  move=> k id b j Ek Hd Nf; have [i [L [c' [HLam [G [Sc G1]]]]]] := P1 _ _ _ Ek; exists L; split=> //.
  have Gd : d_find id d = Some i by move: G; rewrite find_cat; case: d_find Hd.
  have -> : fac_of d3 id j t = fac_of d1 id j t by rewrite Fac3 F2 Nf; case: ifP.
  have -> : fac_of d1 id j t = ccf_at j t (with_ccf c' i) by rewrite /fac_of F1 // G1.
  rewrite /fac_of Gd -!fac_ccf_at /=; have [_ [S2 S3]] := fac_scale Sc j t.
  by case E: (fac j t (i_ccf i)) => [X|]; [exact: S3|rewrite S2].
move=> id j s Ns; rewrite Fac3 F2; have -> : Z.eqb s t = false by case: Z.eqb_spec.
rewrite andbF; case G: (d_find id d) => [i|]; last by rewrite /fac_of G; have /(find_keys_eq _ Kd1) -> := G.
rewrite /fac_of F1 ?G //; case: (List.in_dec Nat.eq_dec id (keys us)) => [/us_nth [k [b Ek]]|Ni]; last by rewrite N1 // find_cat G.
have [i0 [L [c' [_ [G0 [Sc ->]]]]]] := P1 _ _ _ Ek; rewrite find_cat G in G0; case: G0 => E0; subst i0.
by rewrite -!fac_ccf_at /=; have [-> //] := fac_scale Sc j s.
Qed.
End Write.

(** ** the two agents' factors together are those of the two registries side by side *)
Section Join.
Variable F : realFieldType.
Notation dmat := (dmat F).
Notation belief := (belief F).
Notation dict := (dict belief dmat).
Notation keys m := (List.map fst m).
Variables (lI rI parts : list nat) (t : Z) (d dr : dict).
Hypothesis Hl : forall i, List.In i lI -> d_find i d <> None.
Hypothesis Hr : forall i, List.In i rI -> d_find i d = None.
Lemma join_fcc : c_join (local_fcc lI parts t d) (local_fcc rI parts t dr) = local_fcc (rI ++ lI)%list parts t (d ++ dr).
Proof.
have [[Al Rl] [Gl Kl]] := local_fcc_spec t d lI parts; set ml := local_fcc lI _ _ _ in Al Rl Gl Kl *.
have [[Ar Rr] [Gr Kr]] := local_fcc_spec t dr rI parts; set mr := local_fcc rI _ _ _ in Ar Rr Gr Kr *.
have [[Au Ru] [Gu Ku]] := local_fcc_spec t (d ++ dr) (rI ++ lI)%list parts; set mu := local_fcc _ _ _ (d ++ dr) in Au Ru Gu Ku *.
have [Aj Fj] := join_find mr Al.
have ina_app x : ina x (rI ++ lI)%list = ina x rI || ina x lI by rewrite /ina List.existsb_app.
apply: asc_unique => // k; rewrite Fj.
case El: (smap_find k ml) => [row|].
  have Hk : List.In k (keys ml) by apply/List.in_map_iff; exists (k, row); split=> //; exact: find_Some El.
  have [HlI [Hd Hp]] := proj1 (Kl k) Hk.
  have /find_keys [row' Eu] : List.In k (keys mu).
    by apply/Ku; split; [apply/List.in_or_app; right|split=> //; rewrite find_cat; case: d_find Hd].
  rewrite Eu; congr Some; apply: asc_unique; [exact: Rl El|exact: Ru Eu|move=> j].
  have := Gl k j; rewrite {1}/fget El => ->; have := Gu k j; rewrite {1}/fget Eu => ->.
  rewrite ina_app (introT (inaP _ _) HlI) orbT /= /fac_here find_cat; by case: (d_find k d) Hd.
have Nl : List.In k lI -> ~ exists j, List.In j parts /\ j <> k.
  move=> HlI He; have /find_keys [r E] : List.In k (keys ml) by apply/Kl; split=> //; split=> //; exact: Hl.
  by rewrite El in E.
case Er: (smap_find k mr) => [row|].
  have Hk : List.In k (keys mr) by apply/List.in_map_iff; exists (k, row); split=> //; exact: find_Some Er.
  have [HrI [Hd Hp]] := proj1 (Kr k) Hk.
  have /find_keys [row' Eu] : List.In k (keys mu).
    by apply/Ku; split; [apply/List.in_or_app; left|split=> //; rewrite find_cat Hr].
  rewrite Eu; congr Some; apply: asc_unique; [exact: Rr Er|exact: Ru Eu|move=> j].
  have := Gr k j; rewrite {1}/fget Er => ->; have := Gu k j; rewrite {1}/fget Eu => ->.
  by rewrite ina_app (introT (inaP _ _) HrI) /= /fac_here find_cat Hr.
case Eu: (smap_find k mu) => [row|//]; exfalso.
have Hk : List.In k (keys mu) by apply/List.in_map_iff; exists (k, row); split=> //; exact: find_Some Eu.
have [Hin [Hd Hp]] := proj1 (Ku k) Hk; case: (List.in_app_or _ _ _ Hin) => [HrI|HlI]; last exact: Nl.
have /find_keys [r E] : List.In k (keys mr) by apply/Kr; split=> //; split=> //; move: Hd; rewrite find_cat Hr.
by rewrite Er in E.
Qed.
End Join.
