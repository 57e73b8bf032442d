(** Lemmas about the multi-agent handlers. *)
From Coq Require Import ZArith List Bool Arith Lia.
From mathcomp Require Import all_ssreflect all_algebra.
From Verif Require Import Outcome DoubleModel BufModel BufProofs HorizonModel HorizonProofs MeasModel HandlerModel Spec_Handler DMat KFModel Spec_Mat KFProofs BeliefModel EigenModel EigenProofs IsoModel IsoProofs Spec_Joint JointProofs Props_Joint Props_Joint2 IsoTrace DPModel Spec_DP DPProofs HObsModel HObsProofs AgentModel.
Set Implicit Arguments. Unset Strict Implicit. Unset Printing Implicit Defensive.
Import Order.Theory GRing.Theory Num.Theory.
Local Open Scope outcome_scope.
Local Open Scope ring_scope.

(** ** sorted maps and sets *)
Section Maps.
Variable V : Type.
Lemma find_smap_set k v (l : list (nat * V)) k' : smap_find k' (smap_set k v l) = if (k =? k')%nat then Some v else smap_find k' l.
Proof.
elim: l => [|[x w] l IH] //=.
case: Nat.ltb_spec => Lx /=; first by [].
case: (Nat.eqb_spec k x) => [<-|Nx] /=; first by case: Nat.eqb.
rewrite IH; case: (Nat.eqb_spec x k') => [Ex|_] //; case: Nat.eqb_spec => [Ek|//]; by case: Nx; rewrite Ek.
Qed.
Lemma set_keys k v (l : list (nat * V)) x : List.In x (List.map fst (smap_set k v l)) <-> k = x \/ List.In x (List.map fst l).
Proof.
elim: l => [|[y w] l IH] //=; case: Nat.ltb => //=; case: Nat.eqb_spec => [->|_] /=; last by rewrite IH; tauto.
by tauto.
Qed.
Lemma below_keys (k : nat) (l : list (nat * V)) : (forall x w, List.In (x, w) l -> (k < x)%N) <-> (forall x, List.In x (List.map fst l) -> (k < x)%N).
Proof.
split=> H; first by move=> x /List.in_map_iff [[y w] [<- Hy]]; exact: H Hy.
by move=> x w Hx; apply: H; apply/List.in_map_iff; exists (x, w).
Qed.
Lemma set_asc k v (l : list (nat * V)) : asc l -> asc (smap_set k v l).
Proof.
elim: l => [|[y w] l IH] /=; first by split.
case=> B A; case: Nat.ltb_spec => L /=; first split=> //=.
  by move=> x u [[<- _]|/B H]; [apply/ssrnat.ltP|apply: ltn_trans H; apply/ssrnat.ltP].
case: Nat.eqb_spec => [E|Ne] /=; first by subst y.
split; last exact: IH.
apply/below_keys => x /set_keys [<-|]; first by apply/ssrnat.ltP; lia.
by apply/below_keys: x.
Qed.
Lemma ins_old k v (l : list (nat * V)) : asc l -> List.In k (List.map fst l) -> smap_insert k v l = l.
Proof.
elim: l => [//|[x w] l IH] /= [B A] H.
case: H => [->|H]; first by rewrite Nat.ltb_irrefl Nat.eqb_refl.
have /ssrnat.ltP L : (x < k)%N by case/List.in_map_iff: H => [[y u] [/= <-]]; exact: B.
have -> : (k <? x)%nat = false by apply/Nat.ltb_ge; lia.
have -> : (k =? x)%nat = false by apply/Nat.eqb_neq; lia.
by rewrite IH.
Qed.
Lemma asc_ins k v (l : list (nat * V)) : asc l -> asc (smap_insert k v l).
Proof.
move=> A; case: (List.in_dec Nat.eq_dec k (List.map fst l)) => [H|H]; first by rewrite ins_old.
exact: ins_asc.
Qed.
Lemma find_keys k (l : list (nat * V)) : List.In k (List.map fst l) <-> exists v, smap_find k l = Some v.
Proof.
elim: l => [|[x w] l IH] /=; first by split=> // -[].
case: Nat.eqb_spec => [->|Ne]; first by split=> _; [exists w|left].
by rewrite IH; split; [case|right].
Qed.
Lemma find_ins k v (l : list (nat * V)) k' : asc l ->
  smap_find k' (smap_insert k v l) = if (k =? k')%nat then (if smap_find k l is Some w then Some w else Some v) else smap_find k' l.
Proof.
move=> A; case: (List.in_dec Nat.eq_dec k (List.map fst l)) => [H|H].
  rewrite ins_old //; case: Nat.eqb_spec => // <-; by have [w ->] := proj1 (find_keys k l) H.
rewrite (find_None H); have A' := ins_asc v H A.
case: Nat.eqb_spec => [<-|Ne].
  by apply: find_In; [exact: asc_nodup|apply/(ins_In _ _ _ H); left].
case E: (smap_find k' l) => [w|].
  by apply: find_In; [exact: asc_nodup|apply/(ins_In _ _ _ H); right; exact: find_Some].
case E': smap_find => [w|//]; have := find_Some E' => /(ins_In _ _ _ H) [[Ek _]|Hin]; first by case: Ne.
by rewrite (find_In (asc_nodup A) Hin) in E.
Qed.
End Maps.

Definition sasc (l : list nat) : Prop := asc (List.map (fun x => (x, tt)) l).
Lemma sset_map k l : List.map (fun x => (x, tt)) (sset_insert k l) = smap_insert k tt (List.map (fun x => (x, tt)) l).
Proof. by elim: l => [//|x l IH] /=; case: Nat.ltb => //=; case: Nat.eqb => //=; rewrite IH. Qed.
Lemma sset_asc k l : sasc l -> sasc (sset_insert k l).
Proof. by rewrite /sasc sset_map; exact: asc_ins. Qed.
Lemma sset_In k l x : List.In x (sset_insert k l) <-> k = x \/ List.In x l.
Proof. by elim: l => [//|y l IH] /=; case: Nat.ltb => //=; case: Nat.eqb_spec => [->|_] /=; rewrite ?IH; tauto. Qed.

(** ** maps of maps *)
Section Fcc.
Variable F : realFieldType.
Notation dmat := (dmat F).
Notation fccs := (list (nat * list (nat * dmat))).
Definition fget (i j : nat) (m : fccs) : option dmat := match smap_find i m with Some r => smap_find j r | None => None end.
Definition fok (m : fccs) : Prop := asc m /\ forall i r, smap_find i m = Some r -> asc r.
Lemma fok_nil : fok nil. Proof. by []. Qed.
Lemma fok_add i j X m : fok m -> fok (fcc_add i j X m).
Proof.
case=> A B; split; first exact: set_asc.
move=> k r; rewrite find_smap_set; case: Nat.eqb => [[<-]|]; last exact: B.
by apply: asc_ins; case E: (smap_find i m) => [r'|//]; exact: B E.
Qed.
Lemma fget_add i j X m a b : fok m -> fget a b (fcc_add i j X m) =
  if (i =? a)%nat && (j =? b)%nat then (if fget i j m is Some Y then Some Y else Some X) else fget a b m.
Proof.
case=> A B; rewrite /fget /fcc_add find_smap_set; case: Nat.eqb_spec => [->|_] //=.
case E: (smap_find a m) => [r|]; last by rewrite /=; case: Nat.eqb.
by rewrite find_ins //; exact: B E.
Qed.
Lemma keys_add i j (X : dmat) (m : fccs) x : List.In x (List.map fst (fcc_add i j X m)) <-> i = x \/ List.In x (List.map fst m).
Proof. exact: set_keys. Qed.
Lemma fcc_atE i j (m : fccs) : fcc_at i j m = if fget i j m is Some X then Ok X else Abort OutOfRangeException.
Proof. by rewrite /fcc_at /fget; case: smap_find => // r; case: smap_find. Qed.
End Fcc.

(** ** stacking with given factors: the handler's stacking on a registry made of them *)
Section StackLocal.
Variable F : realFieldType.
Notation dmat := (dmat F).
Notation belief := (belief F).
Notation dict := (dict belief dmat).
Notation fccs := (list (nat * list (nat * dmat))).
Notation bels := (list (nat * belief)).
Definition fake (t : Z) (m : fccs) : dict :=
  List.map (fun e => (fst e, Inst true nil (List.map (fun f => (fst f, [:: (t, snd f)])) (snd e)))) m.
Lemma fake_find t m i : d_find i (fake t m) = match smap_find i m with Some r => Some (Inst true nil (List.map (fun f => (fst f, [:: (t, snd f)])) r)) | None => None end.
Proof. by elim: m => [//|[k r] m IH] /=; case: Nat.eqb. Qed.
Lemma fake_ccf t (r : list (nat * dmat)) j : ccf_get j t (List.map (fun f => (fst f, [:: (t, snd f)])) r) = match smap_find j r with Some X => X | None => dempty F end.
Proof.
elim: r => [//|[k X] r IH]; move: IH; rewrite /ccf_get /=; case: Nat.eqb => //= _.
by rewrite /get_at_t /= Z.eqb_refl.
Qed.
Lemma fake_Sigma t m i j X Y : (i < j)%N -> fget i j m = Some X -> fget j i m = Some Y ->
  get_Sigma_IJ i j t (fake t m) = if (dsize X != 0%N) && (dsize Y != 0%N) then dmul X (dtr Y) else Ok (dempty F).
Proof.
rewrite /fget => L; case Ei: (smap_find i m) => [ri|//] EX; case Ej: (smap_find j m) => [rj|//] EY.
rewrite /get_Sigma_IJ /at_inst !fake_find Ei Ej /= !fake_ccf EX EY.
by have -> : (i <? j)%nat = true by apply/Nat.ltb_lt/ssrnat.ltP.
Qed.
Variables (bs : bels) (m : fccs).
Hypothesis A : ascending bs.
Hypothesis L : List.length m = List.length bs.
Hypothesis C : forall i j, List.In i (List.map fst bs) -> List.In j (List.map fst bs) -> i <> j -> fget i j m <> None.
Lemma row_len i : List.In i (List.map fst bs) -> (List.length bs - 1 <=? match smap_find i m with Some r => List.length r | None => 0%nat end)%nat.
Proof.
move=> Hi; have Nb := asc_nodup (ascending_asc A); have [l1 [l2 E]] := List.in_split _ _ Hi.
rewrite E in Nb; have [N1 N2] := List.NoDup_remove _ _ _ Nb.
pose ks := match smap_find i m with Some r => List.map fst r | None => nil end.
have I : List.incl (l1 ++ l2)%list ks.
  move=> j Hj; have Ne : i <> j by move=> Ej; apply: N2; rewrite Ej.
  have Hj' : List.In j (List.map fst bs) by rewrite E; apply/List.in_or_app; case: (List.in_app_or _ _ _ Hj) => H; [left|right; right].
  have := C Hi Hj' Ne; rewrite /fget /ks; case: smap_find => // r; case Ej: smap_find => [X|//] _.
  by apply/List.in_map_iff; exists (j, X); split=> //; exact: find_Some.
have Le := List.NoDup_incl_length N1 I.
have -> : List.length bs = S (List.length (l1 ++ l2)%list) by have := f_equal (@List.length nat) E; rewrite List.map_length !List.app_length /= => ->; rewrite Nat.add_succ_r.
apply/Nat.leb_le; move: Le; rewrite /ks; case: smap_find => [r|] /=; rewrite ?List.map_length subn1 /= => H; exact: H.
Qed.
Notation ds := (dims bs).
Notation n := (seq.size bs).
Definition cross_of (X Y : dmat) : outcome dmat := if (dsize X != 0%N) && (dsize Y != 0%N) then dmul X (dtr Y) else Ok (dempty F).
Hypothesis Sq : forall i b, List.In (i, b) bs -> dcols (b_Sigma b) = drows (b_Sigma b).
Hypothesis D : forall k l i j bi bj X Y, List.nth_error bs k = Some (i, bi) -> List.nth_error bs l = Some (j, bj) -> (k < l)%N ->
  fget i j m = Some X -> fget j i m = Some Y -> exists Z, cross_of X Y = Ok Z /\ (dsize Z = 0%N \/ drows Z = dim_k ds k /\ dcols Z = dim_k ds l).
Lemma dimE : List.fold_left (fun s (e : nat * belief) => (s + bel_dim (snd e))%nat) bs 0%nat = sumn ds.
Proof.
have G : forall l n, List.fold_left (fun n (e : nat * belief) => (n + bel_dim (snd e))%nat) l n = (n + sumn (dims l))%N.
  by elim=> [|e l IH] k /=; rewrite ?addn0 // IH addnA.
by rewrite G.
Qed.
Lemma key_In e : List.In e bs -> List.In (fst e) (List.map fst bs).
Proof. exact: List.in_map. Qed.
Lemma ofold_in S T (f g : S -> T -> outcome S) (l : list T) : (forall s e, List.In e l -> f s e = g s e) -> forall s, ofold f s l = ofold g s l.
Proof.
elim: l => [//|e l IH] H s /=; rewrite H; last by left.
case: (g s e) => //= s'; apply: IH => s0 e0 He; apply: H; by right.
Qed.
Lemma local_fake t : stack_Sigma_locally bs m = let! (Sg, _) := ofold (outer bs t (fake t m)) (dzero F (sumn ds) (sumn ds), 0%N) bs in Ok Sg.
Proof.
rewrite /stack_Sigma_locally dimE L Nat.eqb_refl /=; congr (obind _ _).
apply: ofold_in => s ei Hi; rewrite (row_len (key_In Hi)) /= /outer; congr (obind _ _).
apply: ofold_in => s' ej Hj; rewrite /inner.
case: Nat.eqb_spec => // Ne; case: Nat.ltb_spec => // Lt.
have Ci := C (key_In Hi) (key_In Hj) Ne; have Cj := C (key_In Hj) (key_In Hi) (fun E => Ne (esym E)).
rewrite !fcc_atE; case EX: (fget _ _ m) Ci => [X|//] _; case EY: (fget _ _ m) Cj => [Y|//] _.
rewrite (fake_Sigma _ _ EX EY) //=; exact/ssrnat.ltP.
Qed.
Lemma stack_local_ok : exists B : 'M[F]_(sumn ds), stack_Sigma_locally bs m = Ok (DM B) /\
  (forall k i b, List.nth_error bs k = Some (i, b) -> blk ds (DM B) k k = Ok (b_Sigma b)) /\
  (forall k l i j bi bj X Y Z, List.nth_error bs k = Some (i, bi) -> List.nth_error bs l = Some (j, bj) -> (k < l)%N ->
     fget i j m = Some X -> fget j i m = Some Y -> cross_of X Y = Ok Z ->
     let W := zero_if_none (dim_k ds k) (dim_k ds l) Z in blk ds (DM B) k l = Ok W /\ blk ds (DM B) l k = Ok (dtr W)).
Proof.
have asc := asc_idk A.
have sqr k : (k < n)%N -> dcols (dblk bs k) = dim_k ds k.
  move=> Hk; have [b Ek] := nth_idk Hk; have [R1 [_ [_ [Dk _]]]] := dim_rows Ek.
  by rewrite Dk (Sq (List.nth_error_In _ _ Ek)) R1.
have fnd k l bk bl : (k < l)%N -> List.nth_error bs k = Some (idk bs k, bk) -> List.nth_error bs l = Some (idk bs l, bl) ->
   exists X Y, fget (idk bs k) (idk bs l) m = Some X /\ fget (idk bs l) (idk bs k) m = Some Y.
  move=> Lt Ek El; have Hk := key_In (List.nth_error_In _ _ Ek); have Hl := key_In (List.nth_error_In _ _ El).
  have Lkl := A Ek El Lt; have Ne : idk bs k <> idk bs l by move=> E; rewrite E ltnn in Lkl.
  have := C Hk Hl Ne; have := C Hl Hk (fun E => Ne (esym E)); case EY: (fget _ _ m) => [Y|//] _; case EX: (fget _ _ m) => [X|//] _.
  by exists X, Y.
have cross k l : (k < l)%N -> (l < n)%N -> exists X, get_Sigma_IJ (idk bs k) (idk bs l) Z0 (fake Z0 m) = Ok X /\ (dsize X = 0%N \/ drows X = dim_k ds k /\ dcols X = dim_k ds l).
  move=> Lt Hl; have [bl El] := nth_idk Hl; have [bk Ek] := nth_idk (ltn_trans Lt Hl).
  have [X [Y [EX EY]]] := fnd _ _ _ _ Lt Ek El.
  rewrite (fake_Sigma _ _ EX EY); last exact: asc.
  exact: (D Ek El Lt EX EY).
have [B [E T]] := stack_run asc sqr cross.
exists B; rewrite (local_fake Z0) E /=; split=> //; split.
  move=> k i b Ek; have [_ [_ [_ [Dk Lk]]]] := dim_rows Ek; by rewrite T // /tblk eqxx Dk.
move=> k l i j bi bj X Y Z Ek El Lt EX EY EZ; set W := zero_if_none _ _ _.
have [_ [_ [Ik [_ Lk]]]] := dim_rows Ek; have [_ [_ [Il [_ Ll]]]] := dim_rows El.
have EW : xblk bs Z0 (fake Z0 m) k l = W.
  by rewrite /xblk Ik Il (fake_Sigma _ _ EX EY); [rewrite -/(cross_of X Y) EZ|exact: A Ek El Lt].
rewrite (T _ _ Lk Ll) (T _ _ Ll Lk) /tblk Lt [l == k]eq_sym (ltn_eqF Lt) [(l < k)%N]ltnNge (ltnW Lt) /= EW.
by split.
Qed.
End StackLocal.

(** ** splitting *)
Section SplitLocal.
Variable F : realFieldType.
Notation dmat := (dmat F).
Notation belief := (belief F).
Notation fccs := (list (nat * list (nat * dmat))).
Notation bels := (list (nat * belief)).
Variable us : bels.
Variable Sg : dmat.
Notation ds := (dims us).
Notation n := (seq.size us).
Notation keys m := (List.map fst m).
Hypothesis SS : sq ds Sg.
Hypothesis asc : forall k l, (k < l)%N -> (l < n)%N -> (idk us k < idk us l)%N.
Notation eyeI := (eyeI F).
Lemma lrow_spec r er pr pr' : us = pr ++ er :: pr' -> seq.size pr = r -> forall post pre (m : fccs), us = pre ++ post -> (r < seq.size pre)%N -> fok m ->
  (forall l, (seq.size pre <= l)%N -> (l < n)%N -> fget (idk us r) (idk us l) m = None /\ fget (idk us l) (idk us r) m = None) ->
  exists m', split_row_locally Sg (idk us r) (dim_k ds r) (off ds r) (off ds (seq.size pre)) post m = Ok m' /\ fok m' /\
    (forall l, (seq.size pre <= l)%N -> (l < n)%N -> exists B, blk ds Sg r l = Ok B /\
       fget (idk us r) (idk us l) m' = Some B /\ fget (idk us l) (idk us r) m' = Some (eyeI (dcols B))) /\
    (forall i j, ~ (exists l, (seq.size pre <= l)%N /\ (l < n)%N /\ (i = idk us r /\ j = idk us l \/ i = idk us l /\ j = idk us r)) ->
       fget i j m' = fget i j m) /\
    (forall x, List.In x (keys m') <-> List.In x (keys m) \/ exists l, (seq.size pre <= l)%N /\ (l < n)%N /\ (x = idk us r \/ x = idk us l)).
Proof.
move=> Er Sr; elim=> [|[J b] post IH] pre m Ee Hr Fm Nm.
  rewrite cats0 in Ee; exists m; split=> //; split=> //; split; last split=> //.
    by move=> l; rewrite -Ee => H1 H2; move: (leq_trans H2 H1); rewrite ltnn.
  by move=> x; split; [left|case=> // -[l [H1 [H2 _]]]; move: H1; rewrite -Ee => H1; move: (leq_trans H2 H1); rewrite ltnn].
have [Ie [_ Le]] := nth_pre Ee; have [_ [_ Lr]] := nth_pre Er; rewrite Sr in Lr; have dc := dims_nth Ee.
rewrite /= -dc; set c := seq.size pre in Ie Le Hr dc Nm *.
have Lr' : (r < seq.size ds)%N by rewrite dims_size.
have Lc' : (c < seq.size ds)%N by rewrite dims_size.
have EB := blk_ok SS Lr' Lc'; set B := DM _ in EB; rewrite -/(blk ds Sg r c) EB /=.
have Lrc : (idk us r < idk us c)%N by exact: asc.
have Nrc : idk us r <> idk us c by move=> E; rewrite E ltnn in Lrc.
have EJ : J = idk us c by rewrite Ie.
rewrite EJ; have Lt : (idk us r <? idk us c)%nat = true by apply/Nat.ltb_lt; apply/ssrnat.ltP.
rewrite Lt; rewrite -[deye F _ _]/(eyeI (dcols B)); set m1 := fcc_add _ _ _ _.
have F1 := fok_add (idk us r) (idk us c) B Fm; have F2 : fok m1 by exact: fok_add.
have [Nm1 Nm2] := Nm c (leqnn _) Le.
have G1 : fget (idk us r) (idk us c) m1 = Some B.
  rewrite fget_add //; have -> : (idk us c =? idk us r)%nat = false by apply/Nat.eqb_neq => E; apply: Nrc.
  by rewrite /= fget_add // !Nat.eqb_refl Nm1.
have G2 : fget (idk us c) (idk us r) m1 = Some (eyeI (dcols B)).
  rewrite fget_add // !Nat.eqb_refl /= fget_add //; have -> : (idk us r =? idk us c)%nat = false by apply/Nat.eqb_neq.
  by rewrite Nm2.
have G3 i j : ~ (i = idk us r /\ j = idk us c) -> ~ (i = idk us c /\ j = idk us r) -> fget i j m1 = fget i j m.
  move=> H1 H2; rewrite fget_add //.
  case E: (_ && _); first by case/andP: E => /Nat.eqb_eq E1 /Nat.eqb_eq E2; case: H2.
  by rewrite fget_add //; case E': (_ && _) => //; case/andP: E' => /Nat.eqb_eq E1 /Nat.eqb_eq E2; case: H1.
have X l : (c < l)%N -> (l < n)%N -> idk us c <> idk us l by move=> H1 H2 E; rewrite -(idk_inj asc Le H2 E) ltnn in H1.
have := IH (rcons pre (J, b)) m1; rewrite size_rcons cat_rcons -/c offS.
case=> //; first exact: (ltn_trans Hr).
  move=> l H1 H2; have [N1 N2] := Nm l (ltnW H1) H2; have Xl := X l H1 H2.
  by rewrite !G3 // => -[E1 E2]; congruence.
move=> m' [E' [S' [P' [F' K']]]]; exists m'; split=> //; split=> //; split; last split.
- move=> l Hl Ln; case: (ltngtP c l) Hl => // [L _|El _]; first exact: P'.
  subst l; exists B; split=> //; rewrite !F' ?G1 ?G2 //; move=> [l [H1 [H2 H3]]]; have := X _ H1 H2;
    case: H3 => [[H3 H4]|[H3 H4]]; congruence.
- move=> i j H; rewrite F' ?G3 //.
  + by move=> [? ?]; apply: H; exists c; split=> //; split=> //; left.
  + by move=> [? ?]; apply: H; exists c; split=> //; split=> //; right.
  + by move=> [l [H1 [H2 H3]]]; apply: H; exists l; split; [exact: ltnW|].
move=> x; rewrite K' !keys_add; split.
  case=> [[<-|[<-|H]]|[l [H1 [H2 H3]]]].
  - by right; exists c; split=> //; split=> //; right.
  - by right; exists c; split=> //; split=> //; left.
  - by left.
  - by right; exists l; split; [exact: ltnW|].
case=> [H|[l [H1 [H2 H3]]]]; first by left; tauto.
case: (ltngtP c l) H1 => // [L _|El _]; first by right; exists l.
by subst l; case: H3 => ->; left; tauto.
Qed.
Lemma lrows_spec : forall post pre (m : fccs), us = pre ++ post -> post <> nil -> fok m ->
  (forall k l, (seq.size pre <= k)%N -> (k < n)%N -> (seq.size pre <= l)%N -> (l < n)%N -> fget (idk us k) (idk us l) m = None) ->
  exists m', split_rows_locally Sg (off ds (seq.size pre)) post m = Ok m' /\ fok m' /\
    (forall k l, (seq.size pre <= k)%N -> (k < l)%N -> (l < n)%N -> exists B, blk ds Sg k l = Ok B /\
       fget (idk us k) (idk us l) m' = Some B /\ fget (idk us l) (idk us k) m' = Some (eyeI (dcols B))) /\
    (forall i j, ~ (exists p q, (seq.size pre <= p)%N /\ (p < n)%N /\ (seq.size pre <= q)%N /\ (q < n)%N /\ p <> q /\ i = idk us p /\ j = idk us q) ->
       fget i j m' = fget i j m) /\
    (forall x, List.In x (keys m') <-> List.In x (keys m) \/ (1 < seq.size post)%N /\ exists k, (seq.size pre <= k)%N /\ (k < n)%N /\ x = idk us k).
Proof.
elim=> [//|[J b] post IH] pre m Ee _ Fm Nm.
have [Ie [_ Le]] := nth_pre Ee; have dc := dims_nth Ee.
case: post IH Ee => [|e2 post] IH Ee.
  exists m; split=> //; split=> //; split; last by split=> // x; split; [left|case=> // -[]].
  move=> k l Hk L Hl; exfalso; have En : n = (seq.size pre).+1 by rewrite Ee size_cat /= addn1.
  by move: (leq_ltn_trans Hk L); rewrite ltnNge -ltnS -En Hl.
have Ee2 : us = rcons pre (J, b) ++ e2 :: post by rewrite cat_rcons.
have Sz : seq.size (rcons pre (J, b)) = (seq.size pre).+1 by rewrite size_rcons.
have [|//||m1 [E1 [S1 [P1 [F1 K1]]]]] := lrow_spec Ee (erefl _) (m := m) Ee2; first by rewrite Sz.
  by rewrite Sz => l H1 H2; rewrite !Nm // ltnW.
rewrite Sz in P1 F1 K1.
have [//||m' [E' [S' [P' [F' K']]]]] := IH (rcons pre (J, b)) m1 Ee2 _ S1.
  rewrite Sz => k l H1 H2 H3 H4; rewrite F1; first by apply: Nm => //; exact: ltnW.
  by case=> q [H5 [H6 [[H7 H8]|[H7 H8]]]]; [have E := idk_inj asc Le H2 (esym H7)|have E := idk_inj asc Le H4 (esym H8)];
    [rewrite E ltnn in H1|rewrite E ltnn in H3].
exists m'; split.
  have dc' : dim_k ds (seq.size pre) = bel_dim b := dc.
  have Ie' : idk us (seq.size pre) = J := Ie.
  rewrite Sz offS dc' Ie' in E1; rewrite Sz offS dc' in E'.
  by rewrite -[split_rows_locally _ _ _ _]/(let! d := split_row_locally Sg J (bel_dim b) (off ds (seq.size pre)) (off ds (seq.size pre) + bel_dim b) (e2 :: post) m in split_rows_locally Sg (off ds (seq.size pre) + bel_dim b) (e2 :: post) d) E1.
split=> //; rewrite Sz in P' F' K'; split; last split.
- move=> k l Hk L Hl; case: (ltngtP (seq.size pre) k) Hk => // [Lk _|Ek _]; first exact: P'.
  subst k; have [B [EB [FB1 FB2]]] := P1 l L Hl; exists B; split=> //.
  by rewrite !F' ?FB1 ?FB2 //; move=> [p [q [H1 [H2 [H3 [H4 [_ [H5 H6]]]]]]]];
    [rewrite -(idk_inj asc Le H4 H6) ltnn in H3|rewrite -(idk_inj asc Le H2 H5) ltnn in H1].
- move=> i j H; rewrite F'; last first.
    by move=> [p [q [H1 [H2 [H3 [H4 [H7 [H5 H6]]]]]]]]; apply: H; exists p, q; do !split=> //; exact: ltnW.
  apply: F1 => -[l [H1 [H2 H3]]]; apply: H.
  have Nl : seq.size pre <> l by move=> E; rewrite E ltnn in H1.
  have Ll : (seq.size pre <= l)%N by exact: ltnW.
  by case: H3 => [[-> ->]|[-> ->]]; [exists (seq.size pre), l|exists l, (seq.size pre)]; do !split=> //; move=> E; apply: Nl.
have En : n = ((seq.size pre).+1 + (seq.size post).+1)%N by rewrite Ee size_cat /= addnS addSn.
move=> x; rewrite K' K1; split.
- case=> [[H|[l [H1 [H2 H3]]]]|[H1 [k [H2 [H3 H4]]]]]; [by left|right|right]; split=> //.
    by case: H3 => ->; [exists (seq.size pre)|exists l; split=> //; exact: ltnW].
  by exists k; split=> //; exact: ltnW.
- case=> [H|[_ [k [H1 [H2 H3]]]]]; first by left; left.
  left; right; case: (ltngtP (seq.size pre) k) H1 => // [L _|E _]; first by exists k; split=> //; split=> //; right.
  exists (seq.size pre).+1; split=> //; split; last by left; rewrite E.
  by rewrite En -addn1 leq_add2l.
Qed.
End SplitLocal.

(** ** the local factors *)
Section LocalFcc.
Variable F : realFieldType.
Notation dmat := (dmat F).
Notation belief := (belief F).
Notation dict := (dict belief dmat).
Notation inst := (inst belief dmat).
Notation fccs := (list (nat * list (nat * dmat))).
Notation bels := (list (nat * belief)).
Notation keys m := (List.map fst m).
Variables (t : Z) (d : dict).
Definition fac_here (a b : nat) : option dmat := match d_find a d with Some i => Some (ccf_get b t (i_ccf i)) | None => None end.
Definition addrow (id : nat) (parts : list nat) (m : fccs) : fccs := List.fold_left (fun m j =>
      if (id =? j)%nat then m else match d_find id d with Some i => fcc_add id j (ccf_get j t (i_ccf i)) m | None => m end) parts m.
Definition ina (x : nat) (l : list nat) : bool := List.existsb (Nat.eqb x) l.
Lemma inaP x l : reflect (List.In x l) (ina x l).
Proof.
apply: (iffP idP); first by move/List.existsb_exists => [y [H /Nat.eqb_eq ->]].
by move=> H; apply/List.existsb_exists; exists x; split=> //; exact/Nat.eqb_eq.
Qed.
Lemma addrow_spec id parts : forall m, fok m -> fok (addrow id parts m) /\
  (forall a b, fget a b (addrow id parts m) = if fget a b m is Some Y then Some Y else if (id =? a)%nat && ina b parts && ~~ (id =? b)%nat then fac_here a b else None) /\
  (forall x, List.In x (keys (addrow id parts m)) <-> List.In x (keys m) \/ x = id /\ d_find id d <> None /\ exists j, List.In j parts /\ j <> id).
Proof.
elim: parts => [|j parts IH] m Fm.
  split=> //; split; last by move=> x; split; [left|case=> // -[_ [_ [j [[]]]]]].
  by move=> a b /=; rewrite andbF; case: fget.
rewrite [addrow _ _ _]/=; rewrite -/(addrow id parts _).
set m1 := (if (id =? j)%nat then m else _).
have F1 : fok m1 by rewrite /m1; case: Nat.eqb => //; case: d_find => // i; exact: fok_add.
have G1 a b : fget a b m1 = if fget a b m is Some Y then Some Y else if (id =? a)%nat && (b =? j)%nat && ~~ (id =? b)%nat then fac_here a b else None.
  rewrite /m1; case: (Nat.eqb_spec id j) => [<-|Ne].
    by case: (Nat.eqb_spec b id) => [->|_]; rewrite ?Nat.eqb_refl ?andbF //=; case: fget.
  case G: (d_find id d) => [i|].
    rewrite fget_add //; case: (Nat.eqb_spec id a) => [<-|_] /=; last by case: fget.
    case: (Nat.eqb_spec j b) => [<-|Nb]; last first.
      have -> : (b =? j)%nat = false by apply/Nat.eqb_neq => E; apply: Nb.
      by case: fget.
    rewrite Nat.eqb_refl /=; have -> : (id =? j)%nat = false by apply/Nat.eqb_neq.
    by rewrite /fac_here G.
  case: fget => //; case: (Nat.eqb_spec id a) => [<-|_] //=; rewrite /fac_here G; by case: andb.
have K1 x : List.In x (keys m1) <-> List.In x (keys m) \/ x = id /\ d_find id d <> None /\ j <> id.
  rewrite /m1; case: (Nat.eqb_spec id j) => [E|Ne]; first by split; [left|case=> // -[_ [_ H]]; case: H].
  case G: (d_find id d) => [i|]; last by split; [left|case=> // -[_ [[]]]].
  by rewrite keys_add; split; case=> H; [right; split=> //; split=> // E; apply: Ne|left|right|left; case: H].
have [F2 [G2 K2]] := IH m1 F1; split=> //; split.
  move=> a b; rewrite G2 G1; case: fget => // /=; case: Nat.eqb => //=; rewrite /ina /= -/(ina b parts).
  by case: (b =? j)%nat; case: (id =? b)%nat; case: (ina b parts); case: (fac_here a b).
move=> x; rewrite K2 K1; split.
  case=> [[H|[H1 [H2 H3]]]|[H1 [H2 [j' [H3 H4]]]]]; first by left.
    by right; split=> //; split=> //; exists j; split=> //; left.
  by right; split=> //; split=> //; exists j'; split=> //; right.
case=> [H|[H1 [H2 [j' [[<-|H3] H4]]]]]; first by left; left.
  by left; right.
by right; split=> //; split=> //; exists j'.
Qed.
Lemma local_fcc_spec ids parts : fok (local_fcc ids parts t d) /\
  (forall a b, fget a b (local_fcc ids parts t d) = if ina a ids && ina b parts && ~~ (a =? b)%nat then fac_here a b else None) /\
  (forall x, List.In x (keys (local_fcc ids parts t d)) <-> List.In x ids /\ d_find x d <> None /\ exists j, List.In j parts /\ j <> x).
Proof.
have G : forall m, fok m -> let m' := List.fold_left (fun m id => addrow id parts m) ids m in fok m' /\
  (forall a b, fget a b m' = if fget a b m is Some Y then Some Y else if ina a ids && ina b parts && ~~ (a =? b)%nat then fac_here a b else None) /\
  (forall x, List.In x (keys m') <-> List.In x (keys m) \/ List.In x ids /\ d_find x d <> None /\ exists j, List.In j parts /\ j <> x).
  elim: ids => [|id ids IH] m Fm /=.
    split=> //; split; first by move=> a b; case: fget.
    by move=> x; split; [left|case=> // -[[]]].
  have [F1 [G1 K1]] := addrow_spec id parts Fm; have [F2 [G2 K2]] := IH _ F1; split=> //; split.
    move=> a b; rewrite G2 G1; case: fget => //; rewrite /ina /= -/(ina a ids) [(a =? id)%nat]Nat.eqb_sym.
    case: (Nat.eqb_spec id a) => [<-|_] //=.
    by rewrite -/(ina b parts); case: (ina b parts); case: (id =? b)%nat; case: (fac_here id b); case: (ina id ids).
  move=> x; rewrite K2 K1; split.
    case=> [[H|[-> H]]|[H1 H2]]; first by left.
      by right; split; [left|].
    by right; split=> //; right.
  by case=> [H|[[<-|H1] H2]]; [left; left|left; right|right].
have [F1 [G1 K1]] := G nil (@fok_nil F); split=> //; split=> //.
by move=> x; have := K1 x => /=; rewrite -/(local_fcc ids parts t d); tauto.
Qed.
End LocalFcc.

(** ** collecting the local beliefs *)
Section LocalBel.
Variable F : realFieldType.
Notation dmat := (dmat F).
Notation belief := (belief F).
Notation dict := (dict belief dmat).
Notation inst := (inst belief dmat).
Notation fccs := (list (nat * list (nat * dmat))).
Notation bels := (list (nat * belief)).
Notation keys m := (List.map fst m).
Variable predict : nat -> Z -> inst -> outcome (inst * bool).
Lemma stored_read i t (ii : inst) b : bel_at t ii = Some b -> belief_or_predict predict i t ii = Ok (ii, Some b).
Proof.
move=> Gt; rewrite /belief_or_predict; have -> : exist_at_t t (i_bel ii) = true by apply/exist_at_iff; exists b; exact: (get_at_In _ _ _ Gt).
by rewrite -/(bel_at t ii) Gt.
Qed.
Lemma local_collect t (d : dict) ids : (forall i, List.In i ids -> bel_of d i t <> None) -> forall acc,
  local_beliefs predict ids t d acc = let! (d', bs) := get_dict_bel_loop predict ids t d acc in Ok (d', Some bs).
Proof.
elim: ids => [//|i ids IH] H acc /=; have := H i (or_introl erefl); rewrite /bel_of /at_inst; case G: (d_find i d) => [ii|//].
case Gb: (bel_at t ii) => [b|//] _; rewrite (stored_read i Gb) /= upd_same // IH //.
by move=> j Hj; apply: H; right.
Qed.
Lemma local_any t (d : dict) ids bs : asc bs -> (forall i, List.In i ids <-> List.In i (keys bs)) ->
  (forall i b, List.In (i, b) bs -> bel_of d i t = Some b) -> local_beliefs predict ids t d nil = Ok (d, Some bs).
Proof.
move=> A Hi Hb; rewrite local_collect; first by rewrite -/(get_dict_bel predict ids t d) (collect_any predict A Hi Hb).
by move=> i /Hi /List.in_map_iff [[j b] [/= <- /Hb ->]].
Qed.
Lemma keys_ins V k (v : V) l x : List.In x (keys (smap_insert k v l)) -> x = k \/ List.In x (keys l).
Proof.
elim: l => [|[a w] l IHl] /=; first by case=> [->|//]; left.
case: ifP => _ /=; first by case=> [->|[->|H]]; [left|right; left|right; right].
by case: ifP => _ /= [->|H]; [right; left|right; right|right; left|case: (IHl H) => ?; [left|right; right]].
Qed.
Lemma local_frame t ids : forall (d d' : dict) acc ob, local_beliefs predict ids t d acc = Ok (d', ob) ->
  (forall id, ~ List.In id ids -> d_find id d' = d_find id d) /\
  (forall id i, d_find id d = Some i -> bel_at t i <> None -> d_find id d' = Some i) /\
  (forall bs id, ob = Some bs -> List.In id (keys bs) -> List.In id ids \/ List.In id (keys acc)).
Proof.
elim: ids => [|x ids IH] d d' acc ob /=; first by case=> <- <-; split=> //; split=> // bs id [<-]; right.
case G: (d_find x d) => [ix|]; last by case=> <- <-.
case E: belief_or_predict => [[i' ob']|e|e] //=.
have K : bel_at t ix <> None -> i' = ix.
  by case Gt: (bel_at t ix) => [b|//] _; move: E; rewrite (stored_read x Gt) => -[].
have FD id : d_find id (d_upd x i' d) = if (id =? x)%nat then Some i' else d_find id d by rewrite find_upd G.
case: ob' E => [b|] E.
  move=> /IH [A [B C]]; split; last split.
  - by move=> id H; rewrite A ?FD; [case: Nat.eqb_spec => // E'; case: H; left|move=> H'; apply: H; right].
  - move=> id i Gi Hi; apply: B => //; rewrite FD; case: Nat.eqb_spec => // E'; subst id.
    by move: Gi; rewrite G => -[E']; subst i; rewrite K.
  - move=> bs id Eo Hin; case: (C _ _ Eo Hin) => [H|H]; first by left; right.
    by case: (keys_ins H) => [->|H']; [left; left|right].
case=> <- <-; split; last split=> //.
- by move=> id H; rewrite FD; case: Nat.eqb_spec => // E'; case: H; left.
- move=> id i Gi Hi; rewrite FD; case: Nat.eqb_spec => // E'; subst id.
  by move: Gi; rewrite G => -[E']; subst i; rewrite K.
Qed.
(** erasing rows, selecting Jacobians, joining two dictionaries *)
Lemma drop_rowsE (bs : bels) (m : fccs) : drop_rows bs m = List.filter (fun e => ~~ List.existsb (fun e' => b_fixed (snd e') && (fst e' =? fst e)%nat) bs) m.
Proof.
rewrite /drop_rows; elim: bs m => [|[i b] l IH] m /=; first by elim: m => [//|a r /= {1}->].
rewrite IH; case: (b_fixed b) => //=; rewrite /smap_erase; elim: m => [//|[j X] r IHr] /=.
rewrite [(i =? j)%nat]Nat.eqb_sym; case: (j =? i)%nat => /=; first exact: IHr.
by rewrite IHr.
Qed.
Lemma find_filter V (p : nat -> bool) (l : list (nat * V)) k : smap_find k (List.filter (fun e => p (fst e)) l) = if p k then smap_find k l else None.
Proof.
elim: l => [|[x v] l IH] /=; first by case: ifP.
case E: (p x) => /=; rewrite IH; case: (Nat.eqb_spec x k) => [<-|_] //; by rewrite E.
Qed.
Lemma asc_unique V (l l' : list (nat * V)) : asc l -> asc l' -> (forall k, smap_find k l = smap_find k l') -> l = l'.
Proof.
move=> A A' H; apply: asc_ext => // k v; split=> X; have Y := H k.
- by rewrite (find_In (asc_nodup A) X) in Y; exact: find_Some (esym Y).
- by rewrite (find_In (asc_nodup A') X) in Y; exact: find_Some Y.
Qed.
Lemma pick_HE ids (dH : list (nat * dmat)) : asc dH -> pick_H ids dH = List.filter (fun e => ina (fst e) ids) dH.
Proof.
move=> A; rewrite /pick_H.
have G : forall m, asc m -> asc (List.fold_left (fun m id => match smap_find id dH with Some X => smap_set id X m | None => m end) ids m) /\
  forall k, smap_find k (List.fold_left (fun m id => match smap_find id dH with Some X => smap_set id X m | None => m end) ids m) =
    if ina k ids then (if smap_find k dH is Some X then Some X else smap_find k m) else smap_find k m.
  elim: ids => [//|i ids IH] m Am /=.
  have Am' : asc (match smap_find i dH with Some X => smap_set i X m | None => m end) by case: smap_find => // X; exact: set_asc.
  have [A1 F1] := IH _ Am'; split=> // k; rewrite F1 /ina /= -/(ina k ids).
  case: (Nat.eqb_spec k i) => [->|Ne] /=.
    by case: ina; case E: (smap_find i dH) => [X|] //; rewrite find_smap_set Nat.eqb_refl.
  have -> : smap_find k (match smap_find i dH with Some X => smap_set i X m | None => m end) = smap_find k m.
    case: (smap_find i dH) => // X; rewrite find_smap_set; have -> // : (i =? k)%nat = false by apply/Nat.eqb_neq => E; apply: Ne.
  by [].
have [A1 F1] := G nil I; apply: asc_unique => //; first exact: asc_filter.
by move=> k; rewrite F1 (find_filter (fun i => ina i ids)); case: ina => //; case: smap_find.
Qed.
Lemma join_find V (rb lb : list (nat * V)) : asc lb -> asc (List.fold_left (fun m e => smap_insert (fst e) (snd e) m) rb lb) /\
  forall k, smap_find k (List.fold_left (fun m e => smap_insert (fst e) (snd e) m) rb lb) = if smap_find k lb is Some v then Some v else smap_find k rb.
Proof.
elim: rb lb => [|[i b] rb IH] lb A /=; first by split=> // k; case: smap_find.
have [A1 F1] := IH _ (asc_ins i b A); split=> // k; rewrite F1 find_ins //.
case: (Nat.eqb_spec i k) => [->|_]; first by case: smap_find.
by case: smap_find.
Qed.
(** the stacked covariance of the local participants from their collected factors *)
Lemma cross_here (d : dict) t i j : (i < j)%N -> d_find i d <> None -> d_find j d <> None -> forall X Y, fac_here t d i j = Some X -> fac_here t d j i = Some Y ->
  get_Sigma_IJ i j t d = cross_of X Y.
Proof.
move=> L; rewrite /get_Sigma_IJ /at_inst /fac_here; case: (d_find i d) => [ii|//] _; case: (d_find j d) => [jj|//] _ X Y [<-] [<-] /=.
by have -> : (i <? j)%nat = true by apply/Nat.ltb_lt/ssrnat.ltP.
Qed.
Lemma local_cov (dH : list (nat * dmat)) (bs : bels) ids m t (d : dict) : participants dH (free bs) m t d -> ascending bs ->
  (forall i, List.In i ids <-> List.In i (keys bs)) -> (forall i b, List.In (i, b) bs -> bel_of d i t = Some b) ->
  (exists i j, List.In i ids /\ List.In j ids /\ i <> j) ->
  exists B : 'M[F]_(sumn (sizes (free bs))), stack_Sigma_locally (unfix bs) (drop_rows bs (local_fcc ids ids t d)) = Ok (DM B) /\ stacked_cov (free bs) t d B (sizes (free bs)).
Proof.
move=> P Ab Hi Hb [i0 [j0 [I0 [J0 N0]]]]; set us := free bs; have A := p_asc P.
have [FF [GF KF]] := local_fcc_spec t d ids ids; set m0 := local_fcc _ _ _ _ in FF GF KF *.
pose p i := ~~ List.existsb (fun e' : nat * belief => b_fixed (snd e') && (fst e' =? i)%nat) bs.
have Em : drop_rows bs m0 = List.filter (fun e => p (fst e)) m0 by rewrite drop_rowsE.
have Nb := asc_nodup (ascending_asc Ab).
have inu i : List.In i (keys us) <-> List.In i ids /\ p i.
  rewrite Hi; split.
    move=> /List.in_map_iff [[k b] [/= E /List.filter_In [Hin Fb]]]; subst k.
    split; first by apply/List.in_map_iff; exists (i, b).
    rewrite /p; apply/negP => /List.existsb_exists [[k c] [Hc /andP [/= Fc /Nat.eqb_eq Ek]]]; subst k.
    by have := find_In Nb Hin; rewrite (find_In Nb Hc) => -[E]; rewrite /= -E Fc in Fb.
  case=> /List.in_map_iff [[k b] [/= E Hin]] Pi; subst k; apply/List.in_map_iff; exists (i, b); split=> //; apply/List.filter_In; split=> //=.
  apply/negP => Fb; move/negP: Pi; apply; apply/List.existsb_exists; exists (i, b); split=> //=; by rewrite Fb Nat.eqb_refl.
have reg i : List.In i ids -> d_find i d <> None.
  by move=> /Hi /List.in_map_iff [[k b] [/= -> /Hb]]; rewrite /bel_of; case: d_find.
have fin i : List.In i (keys us) -> p i by move=> /inu [].
set m' := List.filter (fun e => p (fst e)) m0.
have gm' i j : List.In i (keys us) -> fget i j m' = fget i j m0.
  by move=> /fin Pi; rewrite /fget /m' (find_filter p) Pi.
have ids_us i : List.In i (keys us) -> ina i ids by move=> /inu [H _]; exact/inaP.
have fh i j : List.In i (keys us) -> List.In j (keys us) -> i <> j -> fget i j m' = fac_here t d i j.
  move=> Hii Hjj Ne; rewrite gm' // GF (ids_us i) // (ids_us j) //=; have -> // : (i =? j)%nat = false by apply/Nat.eqb_neq.
have reg' i : List.In i (keys us) -> d_find i d <> None by move=> /inu [/reg].
have L : List.length m' = List.length us.
  rewrite -(List.map_length fst m') -(List.map_length fst us); apply: Nat.le_antisymm; apply: List.NoDup_incl_length.
  - by apply: asc_nodup; apply: asc_filter; case: FF.
  - move=> x /List.in_map_iff [[k r] [/= E /List.filter_In [Hin Pk]]]; subst k; apply/inu; split=> //.
    by have [] := proj1 (KF x) (List.in_map fst _ _ Hin).
  - by apply: asc_nodup; exact: ascending_asc.
  - move=> x Hx; have [Xi Px] := proj1 (inu x) Hx.
    have [v Ev] : exists v, smap_find x m0 = Some v.
      apply/find_keys/KF; split=> //; split; first exact: reg.
      by case: (Nat.eq_dec i0 x) => [E|Ne]; [exists j0; split=> // E'; apply: N0; rewrite E|exists i0].
    apply/List.in_map_iff; exists (x, v); split=> //; apply/List.filter_In; split=> //; exact: find_Some.
have C i j : List.In i (keys us) -> List.In j (keys us) -> i <> j -> fget i j m' <> None.
  by move=> Hii Hjj Ne; rewrite fh // /fac_here; have := reg' i Hii; case: d_find.
have Sq i b : List.In (i, b) us -> dcols (b_Sigma b) = drows (b_Sigma b).
  by move=> /(p_sym P) [E _]; rewrite -{2}E.
have sig k l i j bi bj X Y : List.nth_error us k = Some (i, bi) -> List.nth_error us l = Some (j, bj) -> (k < l)%N ->
    fget i j m' = Some X -> fget j i m' = Some Y -> get_Sigma_IJ i j t d = cross_of X Y.
  move=> Ek El Lt EX EY; have Hk : List.In i (keys us) := List.in_map fst _ _ (List.nth_error_In _ _ Ek); have Hl : List.In j (keys us) := List.in_map fst _ _ (List.nth_error_In _ _ El).
  have Lij := A _ _ _ _ _ _ Ek El Lt; have Ne : i <> j by move=> E; rewrite E ltnn in Lij.
  rewrite fh // in EX; rewrite fh // in EY; last by move=> E; apply: Ne.
  by apply: cross_here => //; exact: reg'.
have D k l i j bi bj X Y : List.nth_error us k = Some (i, bi) -> List.nth_error us l = Some (j, bj) -> (k < l)%N ->
  fget i j m' = Some X -> fget j i m' = Some Y -> exists Z, cross_of X Y = Ok Z /\ (dsize Z = 0%N \/ drows Z = dim_k (dims us) k /\ dcols Z = dim_k (dims us) l).
  move=> Ek El Lt EX EY; rewrite -(sig _ _ _ _ _ _ _ _ Ek El Lt EX EY).
  have [_ [Dk _]] := dim_rows Ek; have [_ [Dl _]] := dim_rows El; rewrite -Dk -Dl.
  exact: (p_cross P (List.nth_error_In _ _ Ek) (List.nth_error_In _ _ El) (A _ _ _ _ _ _ Ek El Lt)).
have [B [E [BD BX]]] := stack_local_ok A L C Sq D.
exists B; rewrite -[unfix bs]/us Em; split=> //.
have X0 k l i j bi bj X : List.nth_error us k = Some (i, bi) -> List.nth_error us l = Some (j, bj) -> (k < l)%N ->
     get_Sigma_IJ i j t d = Ok X -> let W := zero_if_none (dim_k (dims us) k) (dim_k (dims us) l) X in blk (dims us) (DM B) k l = Ok W /\ blk (dims us) (DM B) l k = Ok (dtr W).
  move=> Ek El Lt EX; have Hk : List.In i (keys us) := List.in_map fst _ _ (List.nth_error_In _ _ Ek); have Hl : List.In j (keys us) := List.in_map fst _ _ (List.nth_error_In _ _ El).
  have Lij := A _ _ _ _ _ _ Ek El Lt; have Ne : i <> j by move=> E0; rewrite E0 ltnn in Lij.
  have := C i j Hk Hl Ne; case EFX: (fget i j m') => [U|//] _; have := C j i Hl Hk (fun E0 => Ne (esym E0)); case EFY: (fget j i m') => [V|//] _.
  by apply: (BX _ _ _ _ _ _ _ _ _ Ek El Lt EFX EFY); rewrite -(sig _ _ _ _ _ _ _ _ Ek El Lt EFX EFY).
split; last split=> //; last by move=> k l i j bi bj X Ek El Lt EX; have [] := X0 _ _ _ _ _ _ _ Ek El Lt EX.
apply: DM_inj; apply: (@blk_ext _ (dims us)) => // k l Hk Hl.
have Sb : sq (dims us) (DM B) by []; have St : sq (dims us) (DM B^T) by [].
have tr k' l' W : (k' < seq.size (dims us))%N -> (l' < seq.size (dims us))%N -> blk (dims us) (DM B) l' k' = Ok W -> blk (dims us) (DM B^T) k' l' = Ok (dtr W).
  move=> Hk' Hl' EW; have [R1 [C1 E1]] := blk_entry Sb Hl' Hk' EW; apply: blk_eq => //= a b Ha Hy.
  have La : (off (dims us) k' + a < sumn (dims us))%N by apply: leq_trans (off_fit Hk'); rewrite ltn_add2l.
  have Lb : (off (dims us) l' + b < sumn (dims us))%N by apply: leq_trans (off_fit Hl'); rewrite ltn_add2l.
  have := E1 _ _ Hy Ha; rewrite (@entry_in _ _ _ B _ _ Lb La) (@entry_in _ _ _ B^T _ _ La Lb) mxE => ->.
  by case: (W) R1 C1 => p1 q1 M /= R1 C1; subst p1 q1; rewrite /dtr /= (@entry_in _ _ _ M _ _ Hy Ha) (@entry_in _ _ _ M^T _ _ Ha Hy) mxE.
rewrite dims_size in Hk; rewrite dims_size in Hl.
have [bk Ek] := nth_idk Hk; have [bl El] := nth_idk Hl.
rewrite -(dims_size us) in Hk; rewrite -(dims_size us) in Hl.
case: (ltngtP k l) => [Lt|Lt|Ekl].
- have [X [EX _]] := p_cross P (List.nth_error_In _ _ Ek) (List.nth_error_In _ _ El) (A _ _ _ _ _ _ Ek El Lt).
  have [Y1 Y2] := X0 _ _ _ _ _ _ _ Ek El Lt EX; rewrite (tr _ _ _ Hk Hl Y2) Y1; by rewrite dtrK.
- have [X [EX _]] := p_cross P (List.nth_error_In _ _ El) (List.nth_error_In _ _ Ek) (A _ _ _ _ _ _ El Ek Lt).
  have [Y1 Y2] := X0 _ _ _ _ _ _ _ El Ek Lt EX; by rewrite (tr _ _ _ Hk Hl Y1) Y2.
- subst l; have Y := BD _ _ _ Ek; rewrite (tr _ _ _ Hk Hk Y) Y; by have [-> _] := p_sym P (List.nth_error_In _ _ Ek).
Qed.
End LocalBel.
