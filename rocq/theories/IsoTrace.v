(** Sequences of local calls (propagations, private updates) on isolated instances: calls on different instances commute, and
    the newest factor of an instance is the product of its local factors. *)
From Coq Require Import ZArith List Bool Arith Lia.
From mathcomp Require Import all_ssreflect all_algebra.
From Verif Require Import Outcome DoubleModel BufModel BufProofs HorizonModel HorizonProofs MeasModel HandlerModel Spec_Handler DMat KFModel Spec_Mat KFProofs BeliefModel EigenModel EigenProofs IsoModel IsoProofs.
Set Implicit Arguments. Unset Strict Implicit. Unset Printing Implicit Defensive.
Import GRing.Theory Num.Theory.
Local Open Scope outcome_scope.
Local Open Scope ring_scope.

Section Trace.
Variable F : realFieldType.
Variable junk : forall n, 'M[F]_n -> 'M[F]_n.
Variable hor : double.
Notation dmat := (dmat F).
Notation belief := (belief F).
Notation inst := (inst belief dmat).
Notation dict := (dict belief dmat).
Notation ccfs := (list (nat * buf dmat)).

(** ** calls on one instance *)
Inductive lcall :=
| CProp (Phi Q : dmat) (ta tb : Z)                                  (* apply_propagation(Phi, Q, t_a, t_b) *)
| CPropBel (ba : belief) (mean Phi Q : dmat) (ta tb : Z)            (* apply_propagation(bel_a, mean_b, Phi, Q, t_a, t_b) *)
| CStore (bb : belief) (Phi : dmat) (ta tb : Z)                     (* apply_propagation(bel_b, Phi, t_a, t_b) *)
| CPriv (H R z : dmat) (t : Z) (cfg : corr_cfg F).                  (* apply_private_observation(H, R, z, t, cfg) *)
Definition lexec (c : lcall) (i : inst) : outcome (inst * bool) :=
  match c with
  | CProp Phi Q ta tb => iso_propagate hor Phi Q ta tb i
  | CPropBel ba mean Phi Q ta tb => iso_propagate_bel hor ba mean Phi Q ta tb i
  | CStore bb Phi ta tb => iso_propagate_store hor bb Phi ta tb i
  | CPriv H R z t cfg => iso_private junk H R z t cfg i
  end.
Fixpoint lrun (i : inst) (cs : list lcall) : outcome inst :=
  match cs with nil => Ok i | c :: r => let! (i', _) := lexec c i in lrun i' r end.
(** calls on the instances of a registry *)
Fixpoint drun (d : dict) (ops : list (nat * lcall)) : outcome dict :=
  match ops with
  | nil => Ok d
  | (id, c) :: r => let! d' := mod_inst id (fun i => omap fst (lexec c i)) d in drun d' r
  end.
Definition calls_of (id : nat) (ops : list (nat * lcall)) : list lcall := [seq e.2 | e <- ops & e.1 == id].

Lemma drun_find ops : forall (d d' : dict), drun d ops = Ok d' -> forall id,
  match d_find id d with
  | Some i => exists i', lrun i (calls_of id ops) = Ok i' /\ d_find id d' = Some i'
  | None => calls_of id ops = nil /\ d_find id d' = None
  end.
Proof.
elim: ops => [|[k c] ops IH] d d' /=.
  by case=> <- id; case: d_find => // i; exists i.
case E: mod_inst => [d1|e|e] //= R id.
have [i0 [i1 [G0 [E1 ED]]]] := mod_inst_ok E.
have := IH _ _ R id; rewrite ED find_upd G0 /calls_of /=.
case: (Nat.eqb_spec id k) => [->|N].
  rewrite eqxx G0 /=; move: E1; case: lexec => [[x y]|e|e] //= [->]; exact.
have -> : (k == id) = false by apply/eqP => EE; apply: N.
exact.
Qed.
Lemma drun_ok ops : forall (d : dict), (forall id c, List.In (id, c) ops -> d_find id d <> None) ->
  (forall id i, d_find id d = Some i -> exists i', lrun i (calls_of id ops) = Ok i') -> exists d', drun d ops = Ok d'.
Proof.
elim: ops => [|[k c] ops IH] d HR HL /=; first by exists d.
case G: (d_find k d) => [i|]; last by case: (HR k c); [left|].
have [i' Hi] := HL _ _ G; move: Hi; rewrite /calls_of /= eqxx /=.
case X: (lexec c i) => [[i1 b]|e|e] //= Hi.
rewrite /mod_inst /at_inst G X /=.
apply: IH => [id c' Hin|id ii].
  rewrite find_upd G; case: Nat.eqb => //; apply: (HR id c'); by right.
rewrite find_upd G; case: (Nat.eqb_spec id k) => [->|N]; first by case=> <-; exists i'.
move=> /HL [x]; rewrite /calls_of /=.
have -> : (k == id) = false by apply/eqP => EE; apply: N.
by exists x.
Qed.

(** ** the newest factor *)
(** the buffer towards j is in time order and its newest element is m at t *)
Definition newest (j : nat) (t : Z) (m : dmat) (c : ccfs) : Prop :=
  exists b, ccf_find j c = Some b /\ ssorted b /\ get_latest b = Some (t, m).
Lemma latest_get_at {T} (b : buf T) t m : ssorted b -> get_latest b = Some (t, m) -> get_at_t t b = Some m.
Proof. by move=> S /(get_latest_spec b t m (ssorted_w b S)) [H _]; rewrite get_at_iff. Qed.
Lemma newest_fac j t m (c : ccfs) : newest j t m c -> fac j t c = Some m.
Proof. by case=> b [G [S L]]; rewrite /fac G; exact: latest_get_at. Qed.
Lemma latest_unique {T} (b : buf T) t m : ssorted b -> get_at_t t b = Some m -> (forall e, List.In e b -> Z.le e.1 t) ->
  get_latest b = Some (t, m).
Proof.
move=> S G H; have I := get_at_In _ _ _ G.
case L: (get_latest b) => [[k v]|]; last by move/get_latest_none: L I => ->.
have [I' M'] := get_latest_spec b k v (ssorted_w b S) L.
have E : k = t by move: (M' _ I) (H _ I') => /=; lia.
by subst k; move: G; rewrite get_at_iff // => I2; move: I'; rewrite -get_at_iff // => I3; move: I2; rewrite -get_at_iff // I3 => -[->].
Qed.
Lemma insert_newest {T} (b : buf T) t t' m v : ssorted b -> get_latest b = Some (t, m) -> Z.le t t' ->
  get_latest (hb_insert t' v b) = Some (t', v).
Proof.
move=> S L Le; have [_ M'] := get_latest_spec b t m (ssorted_w b S) L.
apply: latest_unique; [exact: hb_insert_ssorted|by rewrite get_ins Z.eqb_refl|].
by move=> e /hb_insert_In -/(_ S) [->|[/M' /= H _]] /=; lia.
Qed.
Lemma newest_scale j ta tb (M m p : dmat) (c c' : ccfs) : ccf_scale ta tb M c = Ok c' -> newest j ta m c -> Z.le ta tb ->
  dmul M m = Ok p -> newest j tb p c'.
Proof.
elim: c c' => [|[x b] c IH] c' /=; first by move=> _ [b []].
move=> E [b0 [/= G [S L]]] Le P.
case: (Nat.eqb_spec x j) G => [xj|N] G.
  case: G => E0; subst b0; move: E; rewrite (latest_get_at S L) P /=.
  case: ccf_scale => [r|e|e] //= [<-]; exists (hb_insert tb p b).
  split; first by rewrite /= xj Nat.eqb_refl.
  by split; [exact: hb_insert_ssorted|exact: (insert_newest _ S L)].
case EE: (match _ with Some _ => _ | None => _ end) E => [b'|e|e] //=.
case ES: ccf_scale => [r|e|e] //= [<-].
have [b1 [G1 H1]] := IH _ ES (ex_intro _ b0 (conj G (conj S L))) Le P.
by exists b1; split=> //=; case: Nat.eqb_spec.
Qed.
(** scaling from a time without an element, or re-scaling the same source, keeps what is newest *)
Lemma newest_rescale j ta tb (M p : dmat) (c c' : ccfs) : ccf_scale ta tb M c = Ok c' -> newest j tb p c ->
  (fac j ta c = None \/ exists m, fac j ta c = Some m /\ dmul M m = Ok p) -> newest j tb p c'.
Proof.
elim: c c' => [|[x b] c IH] c' /=; first by move=> _ [b []].
rewrite /fac /= => E [b0 [/= G [S L]]].
case: (Nat.eqb_spec x j) G => [xj|N] G.
  case: G => E0; subst b0; move: E; case GA: (get_at_t ta b) => [q|] /=.
    move=> E [//|[m' [[EQ] EP]]]; subst m'; move: E; rewrite EP /=; case: ccf_scale => [r|e|e] //= [<-].
    exists (hb_insert tb p b); split; first by rewrite /= xj Nat.eqb_refl.
    by split; [exact: hb_insert_ssorted|apply: (insert_newest _ S L); lia].
  case: ccf_scale => [r|e|e] //= [<-] _; exists b; by rewrite /= xj Nat.eqb_refl.
case EE: (match _ with Some _ => _ | None => _ end) E => [b'|e|e] //=.
case ES: ccf_scale => [r|e|e] //= [<-] HF.
have [b1 [G1 H1]] := IH _ ES (ex_intro _ b0 (conj G (conj S L))) HF.
by exists b1; split=> //=; case: Nat.eqb_spec.
Qed.
(** trimming keeps the newest element and only removes others *)
Lemma trim_find (c c' : ccfs) : ccf_trim hor c = Ok c' -> forall j,
  match ccf_find j c with
  | Some b => exists b', ccf_find j c' = Some b' /\ check_horizon_restricted hor 4 b = Ok b'
  | None => ccf_find j c' = None
  end.
Proof.
elim: c c' => [|[x b] c IH] c' /=; first by case=> <-.
case E: check_horizon_restricted => [b'|e|e] //=; case E2: ccf_trim => [r|e|e] //= [<-] j /=.
by case: Nat.eqb; [exists b'|exact: IH].
Qed.
Lemma suffix_ssorted {T} (l l' : buf T) : is_suffix l' l -> ssorted l -> ssorted l'.
Proof. by case=> p ->; elim: p => [//|a p IH] /= /ss_inv [H _]; exact: IH. Qed.
Lemma suffix_get {T} (l l' : buf T) t v : is_suffix l' l -> ssorted l -> get_at_t t l' = Some v -> get_at_t t l = Some v.
Proof.
move=> X S; rewrite get_at_iff; last exact: (suffix_ssorted X).
by rewrite get_at_iff //; case: X => p ->; rewrite List.in_app_iff; right.
Qed.
Lemma newest_trim j t m (c c' : ccfs) : ccf_trim hor c = Ok c' -> newest j t m c -> newest j t m c'.
Proof.
move=> /trim_find /(_ j) H [b [G [S L]]]; move: H; rewrite G => -[b' [G' E]].
have [X [EL _]] := check_restricted_suffix hor 4 b b' E.
by exists b'; split=> //; rewrite EL; split=> //; exact: (suffix_ssorted X).
Qed.
Lemma fac_trim j t (c c' : ccfs) m : ccf_trim hor c = Ok c' -> (forall b, ccf_find j c = Some b -> ssorted b) ->
  fac j t c' = Some m -> fac j t c = Some m.
Proof.
move=> /trim_find /(_ j); rewrite /fac; case G: (ccf_find j c) => [b|]; last by move=> ->.
case=> b' [-> E] S; have [X _] := check_restricted_suffix hor 4 b b' E.
by apply: suffix_get => //; exact: S.
Qed.
Lemma check_horizon_ccf (i i' : inst) : iso_check_horizon hor i = Ok i' -> ccf_trim hor (i_ccf i) = Ok (i_ccf i').
Proof.
by rewrite /iso_check_horizon; case: check_horizon_restricted => [l|e|e] //=; case: ccf_trim => [c|e|e] //= [<-].
Qed.
Lemma factors_newest j ta tb (Phi m p : dmat) (i i' : inst) : iso_factors hor Phi ta tb i = Ok i' -> newest j ta m (i_ccf i) ->
  Z.le ta tb -> dmul Phi m = Ok p -> newest j tb p (i_ccf i').
Proof.
rewrite /iso_factors; case E: ccf_scale => [c|e|e] //= /check_horizon_ccf X N Le P.
by apply: (newest_trim X); apply: (newest_scale E N).
Qed.
(** doing it a second time changes nothing when t_a < t_b *)
Lemma factors_again j ta tb (Phi m p : dmat) (i i1 i2 : inst) : iso_factors hor Phi ta tb i = Ok i1 -> iso_factors hor Phi ta tb i1 = Ok i2 ->
  newest j ta m (i_ccf i) -> Z.lt ta tb -> dmul Phi m = Ok p -> newest j tb p (i_ccf i2).
Proof.
move=> E1 E2 N L P.
have N1 := factors_newest E1 N (Z.lt_le_incl _ _ L) P.
move: E1 E2; rewrite /iso_factors; case E1: ccf_scale => [c1|e|e] //= /check_horizon_ccf X1.
case E2: ccf_scale => [c2|e|e] //= /check_horizon_ccf X2.
apply: (newest_trim X2); apply: (newest_rescale E2 N1).
case G: (fac j ta (i_ccf i1)) => [q|]; last by left.
right; exists q; split=> //.
have G1 : fac j ta c1 = Some q.
  apply: (fac_trim X1) G => b Gb.
  have [b' [Gb' [S _]]] := newest_scale E1 N (Z.lt_le_incl _ _ L) P.
  by move: Gb; rewrite /= Gb' => -[<-].
have [K _] := fac_scale E1 j ta.
have := K ltac:(lia); rewrite G1 => K'; move: (newest_fac N); by rewrite -K' => -[->].
Qed.

(** ** local calls and the newest factor *)
Lemma call_prop_bel j ba mean Phi Q ta tb (i i' : inst) m p : iso_propagate_bel hor ba mean Phi Q ta tb i = Ok (i', true) ->
  newest j ta m (i_ccf i) -> Z.le ta tb -> dmul Phi m = Ok p -> newest j tb p (i_ccf i').
Proof.
rewrite /iso_propagate_bel; case: kf_propagate_bel => [[l []]|e|e] //=.
case E: iso_factors => [x|e|e] //= [<-] N L P; exact: (factors_newest E N L P).
Qed.
Lemma call_store j bb Phi ta tb (i i' : inst) m p : iso_propagate_store hor bb Phi ta tb i = Ok (i', true) ->
  newest j ta m (i_ccf i) -> Z.le ta tb -> dmul Phi m = Ok p -> newest j tb p (i_ccf i').
Proof.
rewrite /iso_propagate_store; case: kf_propagate_store => [[l []]|e|e] //=.
case E: iso_factors => [x|e|e] //= [<-] N L P; exact: (factors_newest E N L P).
Qed.
Lemma call_prop j Phi Q ta tb (i i' : inst) m p : iso_propagate hor Phi Q ta tb i = Ok (i', true) ->
  newest j ta m (i_ccf i) -> Z.lt ta tb -> dmul Phi m = Ok p -> newest j tb p (i_ccf i').
Proof.
rewrite /iso_propagate; case: get_at_t => [ba|] //; case: check_dim_mean => //.
case: dmul => [mb|e|e] //=; rewrite /iso_propagate_bel; case: kf_propagate_bel => [[l []]|e|e] //=.
case E1: iso_factors => [x|e|e] //=; case E2: iso_factors => [y|e|e] //= [<-] N L P.
exact: (factors_again E1 E2 N L P).
Qed.
Lemma call_priv j (n k : nat) (H : 'M[F]_(k, n)) (R : 'M[F]_k) z t cfg (i i' : inst) b (Sg : 'M[F]_n) m p :
  get_at_t t (i_bel i) = Some b -> b_t b = t -> b_Sigma b = DM Sg ->
  iso_private junk (DM H) (DM R) z t cfg i = Ok (i', true) -> newest j t m (i_ccf i) ->
  dmul (DM (step_U junk H R Sg cfg)) m = Ok p -> newest j t p (i_ccf i').
Proof.
move=> G T ES; rewrite /iso_private G; case: dmul => [hm|e|e] //=; case: dsub => [r|e|e] //=.
rewrite /iso_private_bel ES T.
case CS: correction_step => [res|e|e] //=; case Hr: (rejected res) => //=.
case SC: ccf_scale => [c|e|e] //=; case: bel_correct => [b'|e|e] //= [<-] N P /=.
have U : res_U res = DM (step_U junk H R Sg cfg).
  move: CS; rewrite /correction_step; case D: check_dim_meas; last by case=> E; move: Hr; rewrite -E.
  have Dr : drows r = k /\ dcols r = 1%N.
    by move: D; rewrite /check_dim_meas /= => /and4P [_ _ /norP [/negbNE/eqP -> /negbNE/eqP ->] _].
  case: Dr; case: r {D} => rr rc r /= E1 E2; subst rr rc => CS.
  have := correction_step_ok junk H R r Sg cfg; rewrite /correction_step /check_dim_meas /= !eqxx /= CS.
  by case: step_gate => [g|e|e] //= [->].
by move: SC; rewrite U => SC; apply: (newest_scale SC N _ P); lia.
Qed.
End Trace.
