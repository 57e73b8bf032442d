(** Facts about the unbuffered estimators: reading a state, writing one object, scaling factors. *)
From Coq Require Import ZArith List Bool Arith Lia.
From Flocq Require Import IEEE754.BinarySingleNaN.
From mathcomp Require Import all_ssreflect all_algebra.
From Verif Require Import Outcome DoubleModel Chi2Model Props_Chi2 DMat KFModel BeliefModel EigenModel EigenProofs Props_Eigen CatModel Props_Cat Spec_Mat KFProofs Props_KF StdModel Spec_Std.
Set Implicit Arguments. Unset Strict Implicit. Unset Printing Implicit Defensive.
Import GRing.Theory Num.Theory.
Local Open Scope ring_scope.
Local Open Scope outcome_scope.

Section Read.
Variable F : realFieldType.
Notation dmat := (dmat F).
Notation belief := (belief F).
Notation std := (std F).
Notation sobj := (sobj F).

(** a run-time matrix read at given dimensions; entries outside are zero *)
Definition rd (m n : nat) (A : dmat) : 'M[F]_(m, n) := \matrix_(i < m, j < n) entry A i j.
Lemma rdE m n (A : 'M[F]_(m, n)) : rd m n (DM A) = A.
Proof. by apply/matrixP => i j; rewrite mxE entryE. Qed.
Lemma entry_empty i j : entry (dempty F) i j = 0.
Proof. by rewrite /entry /=; case: insub => // -[]. Qed.
Lemma rd0 m n : rd m n (dempty F) = 0.
Proof. by apply/matrixP => i j; rewrite !mxE entry_empty. Qed.

Variable dim : nat -> nat.
Hypothesis dim_pos : forall i, (0 < dim i)%N.

(** the object registered under an ID *)
Definition obj_in (s : std) (i : nat) : option sobj := option_map (st_obj s) (st_get i s).
Definition bel_in (s : std) (i : nat) : option belief := if obj_in s i is Some o then so_bel o else None.
(** the network a state of the code stands for: beliefs as get(ID)->get_belief() returns them, cross-covariances as get_Sigma_IJ
    does (none: zero) *)
Definition net_of (s : std) : net F dim :=
  Net (fun i => st_get i s <> None)
      (fun i => if bel_in s i is Some b then b_t b else Z0)
      (fun i => if bel_in s i is Some b then rd (dim i) 1 (b_mean b) else 0)
      (fun i j => if i == j then (if bel_in s i is Some b then rd (dim i) (dim j) (b_Sigma b) else 0)
                  else if st_get_Sigma i j s is Ok A then rd (dim i) (dim j) A else 0).

(** ** well-formed objects and states *)
Definition shaped (i : nat) (l : list (nat * dmat)) : Prop :=
  forall k m, List.In (k, m) l -> exists A : 'M[F]_(dim i, dim (maxn i k)), m = DM A.
Definition bel_good (i : nat) (b : belief) : Prop :=
  exists (x : 'cV[F]_(dim i)) (P : 'M[F]_(dim i)) t f1 f2 f3, b = Bel (DM x) (DM P) t f1 f2 f3 /\ symmetric P.
Definition good (i : nat) (o : sobj) : Prop :=
  so_id o = i /\ (exists b, so_bel o = Some b /\ bel_good i b) /\ shaped i (so_fac o).
Definition wf (s : std) : Prop := forall i a, st_get i s = Some a -> (a < st_next s)%N /\ good i (st_obj s a).

Lemma wf_inj s i j a : wf s -> st_get i s = Some a -> st_get j s = Some a -> i = j.
Proof. by move=> W gi gj; case: (W _ _ gi) => _ [<- _]; case: (W _ _ gj) => _ [<- _]. Qed.

Lemma obj_write s i a o k : wf s -> st_get i s = Some a -> obj_in (st_write a o s) k = if k == i then Some o else obj_in s k.
Proof.
move=> W gi; case: (eqVneq k i) => [->|/eqP N]; first by rewrite /obj_in /st_get /= -/(st_get i s) gi /= Nat.eqb_refl.
rewrite /obj_in /st_get /= -/(st_get k s); case gk: (st_get k s) => [ak|] //=.
by case: Nat.eqb_spec => // E; subst; case: N; apply: wf_inj W gk gi.
Qed.
Lemma wf_write s i a o : wf s -> st_get i s = Some a -> good i o -> wf (st_write a o s).
Proof.
move=> W gi G k b; rewrite /st_get /= => gk; case: (W _ _ gk) => L Gk; split=> //.
case: Nat.eqb_spec => // E; subst b; rewrite (wf_inj W gk gi) //.
Qed.
Lemma get_write (s : std) a (o : sobj) k : st_get k (st_write a o s) = st_get k s. Proof. by []. Qed.

(** ** factors *)
Lemma sf_get_shaped i l k : shaped i l -> sf_get k l = dempty F \/ exists A : 'M[F]_(dim i, dim (maxn i k)), sf_get k l = DM A.
Proof.
elim: l => [|[x m] l IH] S /=; first by left.
case: Nat.eqb_spec => [E|_]; last by apply: IH => k' m' I; apply: S; right.
by subst; right; apply: S; left.
Qed.
Lemma sf_get_set k j m (l : list (nat * dmat)) : sf_get k (sf_set j m l) = if k == j then m else sf_get k l.
Proof.
elim: l => [|[x y] l IH] /=.
  by rewrite eq_sym; case: Nat.eqb_spec => [->|N]; rewrite ?eqxx //; case: eqP.
case: (Nat.eqb_spec x j) => [E|N] /=.
  by subst; case: (Nat.eqb_spec j k) => [->|N]; rewrite ?eqxx //; case: eqP => // E; case: N.
rewrite IH; case: (Nat.eqb_spec x k) => [E|N2] //.
by case: eqP => // E2; case: N; rewrite E.
Qed.
Lemma sf_set_In k m' j m (l : list (nat * dmat)) : List.In (k, m') (sf_set j m l) -> (k = j /\ m' = m) \/ List.In (k, m') l.
Proof.
elim: l => [|[x y] l IH] /=; first by case=> // -[<- <-]; left.
case: Nat.eqb_spec => [E|N] /=.
  by case=> [[<- <-]|I]; [left|right; right].
by case=> [E|/IH [?|?]]; [right; left|left|right; right].
Qed.
Lemma shaped_set i j l (A : 'M[F]_(dim i, dim (maxn i j))) : shaped i l -> shaped i (sf_set j (DM A) l).
Proof. by move=> S k m /sf_set_In [[-> ->]|/S //]; exists A. Qed.
Lemma sf_scale_ok i (L : 'M[F]_(dim i)) l : shaped i l ->
  exists l', sf_scale (DM L) l = Ok l' /\ shaped i l' /\
    forall k, rd (dim i) (dim (maxn i k)) (sf_get k l') = L *m rd (dim i) (dim (maxn i k)) (sf_get k l).
Proof.
elim: l => [|[x m] l IH] S.
  by exists nil; split=> //; split=> // k; rewrite /= rd0 mulmx0.
have [A EA] := S x m (or_introl erefl).
have [l' [E [S' R]]] : exists l', sf_scale (DM L) l = Ok l' /\ shaped i l' /\
    forall k, rd (dim i) (dim (maxn i k)) (sf_get k l') = L *m rd (dim i) (dim (maxn i k)) (sf_get k l).
  by apply: IH => k' m' I; apply: S; right.
exists ((x, DM (L *m A)) :: l'); rewrite /= EA dmul_ok /= E; split=> //; split.
  by move=> k m' [[<- <-]|I]; [exists (L *m A)|apply: S'].
by move=> k; case: Nat.eqb_spec => [<-|_]; rewrite ?rdE ?R.
Qed.

(** ** reading cross-covariances *)
Lemma st_get_facE (s : std) i k a : st_get i s = Some a -> st_get_fac i k s = Ok (sf_get k (so_fac (st_obj s a))).
Proof. by rewrite /st_get_fac /at_id => ->. Qed.
Definition fmx (s : std) (i k q : nat) : 'M[F]_(dim i, q) :=
  if obj_in s i is Some o then rd (dim i) q (sf_get k (so_fac o)) else 0.

Lemma size_pos i j (A : 'M[F]_(dim i, dim j)) : dsize (DM A) != 0%N.
Proof. by rewrite /dsize /= muln_eq0 !eqn0Ngt !dim_pos. Qed.
Lemma dsize_empty : dsize (dempty F) = 0%N. Proof. by []. Qed.

(** what get_Sigma_IJ returns for two registered filters: nothing when either factor is missing, else the product *)
Lemma get_Sigma_cases s i j ai aj : wf s -> st_get i s = Some ai -> st_get j s = Some aj ->
  let q := dim (maxn i j) in
  (st_get_Sigma i j s = Ok (dempty F) /\ fmx s i j q *m (fmx s j i q)^T = 0) \/
  st_get_Sigma i j s = Ok (DM (fmx s i j q *m (fmx s j i q)^T)).
Proof.
move=> W gi gj q; rewrite /st_get_Sigma (st_get_facE _ gi) (st_get_facE _ gj) /= /fmx /obj_in gi gj /=.
case: (W _ _ gi) => _ [_ [_ Si]]; case: (W _ _ gj) => _ [_ [_ Sj]].
case: (sf_get_shaped j Si) => [->|[A EA]].
  by left; rewrite dsize_empty /= rd0 mul0mx.
case: (sf_get_shaped i Sj) => [->|[B EB]].
  by left; rewrite dsize_empty andbF rd0 trmx0 mulmx0.
right; rewrite EA EB !size_pos /=.
rewrite maxnC -/q in B EB *; rewrite -/q in A EA *.
rewrite !rdE /dtr /=; case: Nat.ltb; rewrite dmul_ok //=.
by rewrite /dtr /= trmx_mul trmxK.
Qed.

Lemma covE s i j : wf s -> st_get i s <> None -> st_get j s <> None -> i <> j ->
  cov (net_of s) i j = fmx s i j (dim (maxn i j)) *m (fmx s j i (dim (maxn i j)))^T.
Proof.
move=> W; case gi: (st_get i s) => [ai|] // _; case gj: (st_get j s) => [aj|] // _ /eqP/negPf N.
rewrite /= N; case: (get_Sigma_cases W gi gj) => /=; last by move=> ->; rewrite rdE.
by case=> -> ->; rewrite rd0.
Qed.
Lemma cov_sym s i j : wf s -> st_get i s <> None -> st_get j s <> None -> cov (net_of s) j i = (cov (net_of s) i j)^T.
Proof.
move=> W gi gj; case: (eqVneq i j) => [E|/eqP N].
  subst j; rewrite /= eqxx /bel_in /obj_in; case E: (st_get i s) gi => [a|] //= _.
  by case: (W _ _ E) => _ [_ [[b [-> [x [P [t [f1 [f2 [f3 [-> Sy]]]]]]]]] _]]; rewrite /= rdE Sy.
by rewrite covE // ?covE //; [rewrite trmx_mul trmxK maxnC|exact/nesym].
Qed.

Lemma belE s i o b : obj_in s i = Some o -> so_bel o = Some b -> bel_in s i = Some b.
Proof. by rewrite /bel_in => -> . Qed.
Lemma get_obj s i o : obj_in s i = Some o -> exists a, st_get i s = Some a /\ st_obj s a = o.
Proof. by rewrite /obj_in; case: st_get => [a|] //= [<-]; exists a. Qed.
Lemma obj_get s i a : st_get i s = Some a -> obj_in s i = Some (st_obj s a).
Proof. by rewrite /obj_in => ->. Qed.
Lemma same_of (A : nat -> Prop) s s' : wf s -> wf s' -> (forall k, A k -> st_get k s <> None /\ obj_in s' k = obj_in s k) ->
  same A (net_of s) (net_of s').
Proof.
move=> W W' H.
have L k : A k -> st_get k s <> None /\ st_get k s' <> None.
  by case/H => N E; split=> // N'; move: E; rewrite /obj_in N'; case: st_get N.
split=> [k /H [_ E]|k l Ak Al]; first by rewrite /= /bel_in E.
have [Lk Lk'] := L _ Ak; have [Ll Ll'] := L _ Al; have [_ Ek] := H _ Ak; have [_ El] := H _ Al.
case: (eqVneq k l) => [E|/eqP N]; first by subst l; rewrite /= eqxx /bel_in Ek.
by rewrite !covE // /fmx Ek El.
Qed.
(** scaling one side *)
Lemma carried_of (A : nat -> Prop) i (L : 'M[F]_(dim i)) s s' o o' : wf s -> wf s' -> obj_in s i = Some o -> obj_in s' i = Some o' ->
  (forall k, A k -> k <> i /\ st_get k s <> None /\ st_get k s' <> None /\ fmx s' k i (dim (maxn i k)) = fmx s k i (dim (maxn i k)) /\
     rd (dim i) (dim (maxn i k)) (sf_get k (so_fac o')) = L *m rd (dim i) (dim (maxn i k)) (sf_get k (so_fac o))) ->
  carried A L (net_of s) (net_of s').
Proof.
move=> W W' E E' H k /H [N [gk [gk' [Ek Ei]]]].
have gi : st_get i s <> None by move: E; rewrite /obj_in; case: st_get.
have gi' : st_get i s' <> None by move: E'; rewrite /obj_in; case: st_get.
have C : cov (net_of s') i k = L *m cov (net_of s) i k.
  by rewrite !covE //; try exact/nesym; rewrite Ek {1 3}/fmx E E' Ei mulmxA.
by split=> //; rewrite (cov_sym W' gi' gk') C trmx_mul (cov_sym W gi gk).
Qed.
(** one object is replaced, its factors scaled *)
Lemma one_object s i a o' (L : 'M[F]_(dim i)) : wf s -> st_get i s = Some a -> good i o' ->
  (forall k, rd (dim i) (dim (maxn i k)) (sf_get k (so_fac o')) = L *m rd (dim i) (dim (maxn i k)) (sf_get k (so_fac (st_obj s a)))) ->
  let s' := st_write a o' s in let n := net_of s in let n' := net_of s' in
  wf s' /\ obj_in s' i = Some o' /\ same_live n n' /\ carried (but n i) L n n' /\ same (but n i) n n'.
Proof.
move=> W g G Hf s' n n'.
have W' : wf s' by exact: wf_write W g G.
have O k : obj_in s' k = if k == i then Some o' else obj_in s k by exact: obj_write.
have Oi : obj_in s' i = Some o' by rewrite O eqxx.
split=> //; split=> //; split; first by [].
split.
  apply: (carried_of W W' (obj_get g) Oi) => k [Lk Nk].
  by rewrite /fmx O; have /eqP/negPf -> := Nk.
by apply: same_of => // k [Lk Nk]; rewrite O; have /eqP/negPf -> := Nk.
Qed.
End Read.

Section Update.
Variable F : realFieldType.
Variable junk : forall n, 'M[F]_n -> 'M[F]_n.
Variable eps : F.
Notation inv := (@inv_or_junk F junk _).

Lemma innov_symm m n (H : 'M[F]_(m, n)) R P : symmetric P -> symmetric R -> symmetric (innov H R P).
Proof. by move=> sP sR; apply: symD => //; apply: sym_congr. Qed.
Lemma gain_symm m n (H : 'M[F]_(m, n)) R P K : symmetric P -> symmetric R -> symmetric (gain_cov H R P K).
Proof. by move=> sP sR; apply: symD; apply: sym_congr. Qed.
Lemma threshold997 df : threshold F (confidence_interval (default_cfg eps)) df = Ok (table_threshold F (Zpos 997) df).
Proof.
have M : means_permille (confidence_interval (default_cfg eps)) (Zpos 997) by vm_compute.
have I : List.In (Zpos 997) tabulated by right; right; right; right; left.
case: (ltnP df 50) => L; first exact: threshold_tab.
case: (C24_lookup _ _ df M I) => _ /(_ (elimT ssrnat.leP L)) E.
rewrite /threshold E /=; rewrite /table_threshold List.nth_overflow // (column_length _ I); exact/ssrnat.leP.
Qed.
Lemma default_update m n (H : 'M[F]_(m, n)) R (z : 'cV[F]_m) (x : 'cV[F]_n) P : symmetric P -> symmetric R ->
  exists K U rej, correction_step junk (DM H) (DM R) (DM (z - H *m x)) (DM P) (default_cfg eps)
       = Ok (CorrRes (DM (gain_cov H R P K + eps%:M)) (DM (K *m (z - H *m x))) U rej) /\
     measured eps H R z x P (x + K *m (z - H *m x)) (gain_cov H R P K + eps%:M) /\
     gate eps (table_threshold F (Zpos 997)) H R z x P (~~ rej).
Proof.
move=> sP sR; rewrite correction_step_ok /step_gate /= check_NIS_ok threshold997.
have -> : Bltb (d_of_Z 0) (confidence_interval (default_cfg eps)) = true by vm_compute.
have ES : step_S H R P (default_cfg eps) = innov H R P + eps%:M by rewrite /step_S symm_id //; apply: innov_symm.
set K := step_K junk H R P _.
have EF : step_final junk H R P (default_cfg eps) = gain_cov H R P K + eps%:M.
  have sG : symmetric (gain_cov H R P K) by exact: gain_symm.
  rewrite /step_final /step_P /= -/K (symm_id sG) symm_id //; apply: symD => //; exact: sym_scalar.
exists K, (DM (step_U junk H R P (default_cfg eps))), (~~ (quad (inv (step_S H R P (default_cfg eps))) (z - H *m x) <= table_threshold F (Zpos 997) m)).
rewrite EF; split=> //; split.
  by exists K; split=> // u; rewrite /K /step_K ES /inv_or_junk u.
by move=> u; rewrite negbK ES /inv_or_junk u.
Qed.
End Update.
