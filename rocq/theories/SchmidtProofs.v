(** Proofs about the Schmidt handler. *)
From Coq Require Import ZArith List Bool Arith Lia.
From mathcomp Require Import all_ssreflect all_algebra.
From Verif Require Import Outcome DoubleModel BufModel BufProofs HorizonModel MeasModel HandlerModel Spec_Handler DMat KFModel Spec_Mat KFProofs BeliefModel EigenModel EigenProofs IsoModel IsoProofs Spec_Joint JointProofs Props_Joint Props_Joint2 SchmidtModel Spec_Schmidt.
Set Implicit Arguments. Unset Strict Implicit. Unset Printing Implicit Defensive.
Import GRing.Theory Num.Theory.
Local Open Scope outcome_scope.
Local Open Scope ring_scope.

Section Gain.
Variable F : realFieldType.
Notation dmat := (dmat F).
Notation belief := (belief F).
Variable bs : list (nat * belief).
Notation ds := (sizes bs).
Lemma ess_row_pre : forall pre e post a, bs = pre ++ e :: post -> (a < bel_dim e.2)%N -> ess_row bs (off ds (seq.size pre) + a) = b_ess e.2.
Proof.
elim: (bs) => [|[i b] l IH] pre e post a; first by case: pre.
case: pre => [|p pre] /= [Ee El] L.
  by rewrite -Ee /off /= add0n; rewrite -Ee in L; rewrite /bel_dim in L *; rewrite L.
rewrite /off /= -/(sizes l) -/(off (sizes l) (seq.size pre)) -addnA.
rewrite /= -ltn_subRL subnn ltn0 addKn; exact: IH El L.
Qed.
Variables (m : nat) (K : 'M[F]_(sumn ds, m)).
Let body (s : dmat * nat) (e : nat * belief) : outcome (dmat * nat) :=
  let dim := bel_dim (snd e) in
  let! KS := (if b_ess (snd e) then let! B := dblock (DM K) (snd s) 0 dim m in dset_block (fst s) (snd s) 0 dim m B else Ok (fst s)) in
  Ok (KS, (snd s + dim)%nat).
Definition part (c : nat) : 'M[F]_(sumn ds, m) := \matrix_(i, j) if (i < c)%N && ess_row bs i then K i j else 0.
Lemma runK : forall post pre, bs = pre ++ post -> ofold body (DM (part (off ds (seq.size pre))), off ds (seq.size pre)) post = Ok (DM (part (sumn ds)), sumn ds).
Proof.
have szs l : seq.size (sizes l) = seq.size (l : list (nat * belief)) by rewrite /sizes; elim: l => //= a l ->.
elim=> [|e post IH] pre Ee.
  by rewrite cats0 in Ee; have Eo := off_end ds; rewrite szs in Eo; rewrite /= -Ee Eo.
have Lc : (seq.size pre < seq.size ds)%N by rewrite szs Ee size_cat /= addnS ltnS leq_addr.
have dc : dim_k ds (seq.size pre) = bel_dim e.2 by exact: (dims_nth Ee).
have Fit := off_fit Lc; rewrite dc in Fit.
have St : body (DM (part (off ds (seq.size pre))), off ds (seq.size pre)) e = Ok (DM (part (off ds (seq.size pre).+1)), off ds (seq.size pre).+1).
  rewrite /body /= offS dc; set row := off ds (seq.size pre) in Fit *.
  case Es: (b_ess e.2).
    rewrite dblock_ok //=.
    have [||||C [E1 [R1 [C1 X1]]]] := @set_block_ok F (DM (part row)) (DM (\matrix_(a < bel_dim e.2, b < m) entry (DM K) (row + a) (0 + b))) row 0 (bel_dim e.2) m => //.
    rewrite E1 /=; congr (Ok (_, _)); apply: dmat_eq => // i j; rewrite R1 C1 /= => Hi Hj.
    rewrite X1 //= add0n Hj subn0 (entry_in _ Hi Hj) (entry_in _ Hi Hj) !mxE /= andbT.
    case: (ltnP i row) => Lr /=.
      by rewrite (leq_trans Lr (leq_addr _ _)).
    case: ltnP => L2 //=.
    have L3 : (i - row < bel_dim e.2)%N by rewrite -(ltn_add2l row) subnKC.
    rewrite (@entry_mk F _ _ (fun a b => entry (DM K) (row + a) (0 + b))) // subnKC // add0n (entry_in _ Hi Hj).
    by have := ess_row_pre Ee L3; rewrite -/row subnKC // => ->; rewrite Es.
  rewrite /=; congr (Ok (DM _, _)); apply/matrixP => i j; rewrite !mxE.
  case: (ltnP i row) => Lr /=; first by rewrite (leq_trans Lr (leq_addr _ _)).
  case: ltnP => L2 //=.
  have L3 : (i - row < bel_dim e.2)%N by rewrite -(ltn_add2l row) subnKC.
  by have := ess_row_pre Ee L3; rewrite -/row subnKC // Es => ->.
rewrite [ofold _ _ _]/= St /= -(size_rcons pre e); apply: IH; by rewrite cat_rcons.
Qed.
Lemma skf_gain_ok : skf_gain (DM K) m bs = Ok (DM (schmidt bs K)).
Proof.
rewrite /skf_gain /= -[ofold _ _ _]/(ofold body (dzero F (sumn ds) m, 0%N) bs).
have -> : (dzero F (sumn ds) m, 0%N) = (DM (part (off ds (seq.size (@nil (nat * belief))))), off ds (seq.size (@nil (nat * belief)))).
  by rewrite off0; congr (DM _, _); apply/matrixP => i j; rewrite !mxE.
rewrite runK //=; congr (Ok (DM _)); apply/matrixP => i j; rewrite !mxE ltn_ord //.
Qed.
End Gain.

Section Step.
Variable F : realFieldType.
Variable junk : forall n, 'M[F]_n -> 'M[F]_n.
Notation dmat := (dmat F).
Notation belief := (belief F).
Notation dict := (dict belief dmat).
Variable bs : list (nat * belief).
Notation N := (sumn (sizes bs)).
Variables (m : nat) (H : 'M[F]_(m, N)) (R : 'M[F]_m) (r : 'cV[F]_m) (P : 'M[F]_N) (cfg : corr_cfg F).
Notation K := (step_K junk H R P cfg).
Notation KS := (schmidt bs K).
Lemma skf_step_ok t (d : dict) : stack_Sigma bs t d = Ok (DM P) -> skf_correction_step junk t (DM H) (DM R) (DM r) bs cfg d =
  let! rej := step_gate junk H R r P cfg in Ok (CorrRes (DM (symm (gain_cov H R P KS))) (DM (KS *m r)) (DM (1%:M - KS *m H)) rej).
Proof.
move=> E; rewrite /skf_correction_step E /= /check_dim_meas /= !eqxx /= /dtr /= dmul_ok /= dmul_ok /= dadd_ok /= stabilize_ok /=.
rewrite -/(step_S H R P cfg) -/(step_gate junk H R r P cfg); case: step_gate => //= rej.
rewrite dmul_ok /= dinv_ok /= dmul_ok /= -/K skf_gain_ok /= dmul_ok /= dmul_ok /= deye_square dsub_ok /=.
by rewrite dmul_ok /= dmul_ok /= dmul_ok /= dmul_ok /= dadd_ok /= symmetrize_ok.
Qed.
(** rows of U and of the gain *)
Lemma U_row (L : 'M[F]_(N, m)) (i : 'I_N) : ess_row bs i = false -> row i (1%:M - schmidt bs L *m H) = row i (1%:M : 'M[F]_N).
Proof.
move=> E; apply/rowP => j; rewrite !mxE big1 ?subr0 // => k _; by rewrite !mxE E mul0r.
Qed.
Lemma sandwich_entry p q (A : 'M[F]_(p, q)) (B : 'M[F]_q) (i j : 'I_p) : (A *m B *m A^T) i j = (row i A *m B *m (row j A)^T) 0 0.
Proof. by rewrite -row_mul [LHS]mxE [RHS]mxE; apply: eq_bigr => k _; rewrite [row _ _ _ _]mxE [A^T _ _]mxE [(row _ _)^T _ _]mxE [row j A _ _]mxE. Qed.
Lemma addmx_entry p q (A B : 'M[F]_(p, q)) i j : (A + B) i j = A i j + B i j.
Proof. by rewrite mxE. Qed.
Lemma gain_cov_rows (L L' : 'M[F]_(N, m)) (i j : 'I_N) : row i L = row i L' -> row j L = row j L' -> gain_cov H R P L i j = gain_cov H R P L' i j.
Proof.
move=> Ei Ej; rewrite /gain_cov !addmx_entry !sandwich_entry Ei Ej.
have U k : row k L = row k L' -> row k (1%:M - L *m H) = row k (1%:M - L' *m H) by move=> Ek; rewrite !linearB /= !row_mul Ek.
by rewrite (U i Ei) (U j Ej).
Qed.
Lemma schmidt_row (L : 'M[F]_(N, m)) (i : 'I_N) : row i (schmidt bs L) = if ess_row bs i then row i L else 0.
Proof. by apply/rowP => j; rewrite !mxE; case: ifP => _; rewrite !mxE. Qed.
Lemma gain_cov_sym (L : 'M[F]_(N, m)) : symmetric P -> symmetric R -> symmetric (gain_cov H R P L).
Proof. by move=> sP sR; rewrite /symmetric /gain_cov linearD /= !trmx_mul !trmxK sP sR !mulmxA. Qed.
Lemma gain_cov_psd (L : 'M[F]_(N, m)) : psd P -> psd R -> psd (gain_cov H R P L).
Proof. by move=> pP pR; apply: psdD; exact: psd_congr. Qed.
Section Facts.
Hypothesis sP : symmetric P.
Hypothesis sR : symmetric R.
Variable G : 'M[F]_(N, m).
Notation GS := (schmidt bs G).
Notation S := (symm (gain_cov H R P GS)).
Lemma S_plain : S = gain_cov H R P GS.
Proof. by apply: symm_id; exact: gain_cov_sym. Qed.
Lemma nuisance_cov (i j : 'I_N) : ess_row bs i = false -> ess_row bs j = false -> S i j = P i j.
Proof.
move=> Ei Ej; rewrite S_plain (@gain_cov_rows GS 0) ?schmidt_row ?Ei ?Ej ?linear0 //.
by rewrite /gain_cov mul0mx subr0 mul1mx trmx1 mulmx1 mul0mx mul0mx addr0.
Qed.
Lemma essential_cov (i j : 'I_N) : ess_row bs i -> ess_row bs j -> S i j = gain_cov H R P G i j.
Proof. by move=> Ei Ej; rewrite S_plain; apply: gain_cov_rows; rewrite schmidt_row ?Ei ?Ej. Qed.
Lemma cross_cov (i j : 'I_N) : ess_row bs i -> ess_row bs j = false -> S i j = ((1%:M - G *m H) *m P) i j.
Proof.
move=> Ei Ej; rewrite S_plain /gain_cov addmx_entry !sandwich_entry (schmidt_row _ j) Ej [X in _ + X]mxE big1 ?addr0; last by move=> k _; rewrite [X in _ * X]mxE [X in _ * X]mxE mulr0.
rewrite (U_row _ Ej) -row_mul [LHS]mxE [RHS]mxE.
transitivity (row i ((1%:M - GS *m H) *m P) 0 j).
  rewrite (bigD1 j) //= big1 ?addr0; last by move=> k /negbTE Nk; rewrite !mxE eq_sym Nk mulr0.
  by rewrite ![(row _ _)^T _ _]mxE [row j _ _ _]mxE [(1%:M : 'M_N) _ _]mxE eqxx mulr1.
have -> : row i ((1%:M - GS *m H) *m P) = row i ((1%:M - G *m H) *m P).
  rewrite !(@row_mul F _ N N) !linearB /= !(@row_mul F N m N) schmidt_row Ei //.
by rewrite mxE [LHS]mxE.
Qed.
End Facts.
End Step.

Section Write.
Variable F : realFieldType.
Variable junk : forall n, 'M[F]_n -> 'M[F]_n.
Notation dmat := (dmat F).
Notation belief := (belief F).
Notation dict := (dict belief dmat).
Notation inst := (inst belief dmat).
(** the same beliefs / the same factors everywhere *)
Definition keepb (d d' : dict) : Prop := forall id, option_map (@i_bel _ _) (d_find id d') = option_map (@i_bel _ _) (d_find id d).
Definition keepc (d d' : dict) : Prop := forall id, option_map (@i_ccf _ _) (d_find id d') = option_map (@i_ccf _ _) (d_find id d).
Lemma keepb_trans d1 d2 d3 : keepb d1 d2 -> keepb d2 d3 -> keepb d1 d3.
Proof. by move=> A B id; rewrite B. Qed.
Lemma keepb_mod id f (d d' : dict) : mod_inst id f d = Ok d' -> (forall i i', f i = Ok i' -> i_bel i' = i_bel i) -> keepb d d'.
Proof.
move=> E Hf k; have [i [i' [G [Ef ->]]]] := mod_inst_ok E; rewrite find_upd; case: Nat.eqb_spec => [->|//].
by rewrite G /= (Hf _ _ Ef).
Qed.
Lemma keepc_mod id f (d d' : dict) : mod_inst id f d = Ok d' -> (forall i i', f i = Ok i' -> i_ccf i' = i_ccf i) -> keepc d d'.
Proof.
move=> E Hf k; have [i [i' [G [Ef ->]]]] := mod_inst_ok E; rewrite find_upd; case: Nat.eqb_spec => [->|//].
by rewrite G /= (Hf _ _ Ef).
Qed.
Lemma keepb_set I J X t (d d' : dict) : set_Sigma_IJ I J X t d = Ok d' -> keepb d d'.
Proof.
rewrite /set_Sigma_IJ; case: Nat.ltb; case E1: mod_inst => [d1|e|e] //= E2;
  apply: keepb_trans (keepb_mod E1 _) (keepb_mod E2 _) => i i' [<-] //.
Qed.
Lemma keepb_row Sg I di row t (us : list (nat * belief)) : forall col (d d' : dict), split_row Sg I di row col us t d = Ok d' -> keepb d d'.
Proof.
elim: us => [|[J b] us IH] /= c d d'; first by case=> <-.
case: dblock => //= X; case E: set_Sigma_IJ => [d1|e|e] //= E2.
by apply: keepb_trans (keepb_set E) (IH _ _ _ E2).
Qed.
Lemma keepb_rows Sg t (us : list (nat * belief)) : forall row (d d' : dict), split_rows Sg row us t d = Ok d' -> keepb d d'.
Proof.
elim: us => [//|[J b] us IH] row d d' /=; case: us IH => [_ [<-] //|e us IH].
case E: split_row => [d1|x|x] //= E2; exact: keepb_trans (keepb_row E) (IH _ _ _ E2).
Qed.
Lemma keepb_corr Sg (bs : list (nat * belief)) t (d d' : dict) : apply_corrections junk Sg bs t d = Ok d' -> keepb d d'.
Proof.
rewrite /apply_corrections; set f := fun s e => _.
have G : forall l s s', ofold f s l = Ok s' -> keepb s.1 s'.1.
  elim=> [|e l IH] s s' /=; first by case=> <-.
  case E: (f s e) => [s1|x|x] //= /IH; apply: keepb_trans; move: E; rewrite /f; case: ifP => _; last by case=> <-.
  case: dblock => //= X; case E: mod_inst => [d1|x|x] //= [<-] /=; apply: (keepb_mod E) => i i'.
  by case: ccf_correct => //= c [<-].
by case E: ofold => [[d0 r]|x|x] //= [<-]; exact: G E.
Qed.
(** the beliefs that the Schmidt handler writes are those the plain handler writes, for the essential participants only *)
Definition essential (l : list (nat * belief)) (id : nat) : bool := List.existsb (fun e => (fst e =? id)%nat && b_ess (snd e)) l.
Lemma ess_cat l e id : essential (l ++ [:: e]) id = essential l id || ((fst e =? id)%nat && b_ess (snd e)).
Proof. by rewrite /essential List.existsb_app /= orbF. Qed.
Lemma ess_notin l id : ~ List.In id (List.map fst l) -> essential l id = false.
Proof.
move=> Nin; apply/negP => /List.existsb_exists [[k b] [Hin /= /andP [/Nat.eqb_eq Ek _]]]; apply: Nin; rewrite -Ek.
by apply/List.in_map_iff; exists (k, b).
Qed.
Definition skf_rel (l : list (nat * belief)) (d dA dB : dict) : Prop :=
  (forall id, d_find id dB = if essential l id then d_find id dA else d_find id d) /\
  (forall id, ~ List.In id (List.map fst l) -> d_find id dA = d_find id d) /\ keepc d dA.
Definition bodyA (Sg dx : dmat) t (s : dict * nat) (e : nat * belief) : outcome (dict * nat) := if ~~ b_fixed (snd e) then
    let di := bel_dim (snd e) in
    let! Sii := dblock Sg (snd s) (snd s) di di in
    let! v := dblock dx (snd s) 0 di 1 in
    let! b' := bel_correct v Sii (snd e) in
    let! d := mod_inst (fst e) (fun i => Ok (with_bel (hb_insert t b' (i_bel i)) i)) (fst s) in
    Ok (d, (snd s + di)%nat)
  else Ok s.
Definition bodyB (Sg dx : dmat) t (s : dict * nat) (e : nat * belief) : outcome (dict * nat) :=
  let di := bel_dim (snd e) in
  let! d := (if b_ess (snd e) then
      let! Sii := dblock Sg (snd s) (snd s) di di in
      let! v := dblock dx (snd s) 0 di 1 in
      let! b' := bel_correct v Sii (snd e) in
      mod_inst (fst e) (fun i => Ok (with_bel (hb_insert t b' (i_bel i)) i)) (fst s)
    else Ok (fst s)) in
  Ok (d, (snd s + di)%nat).
Lemma skf_beliefs Sg dx (bs : list (nat * belief)) t (d dA : dict) : (forall i b, List.In (i, b) bs -> b_fixed b = false) ->
  List.NoDup (List.map fst bs) -> correct_beliefs Sg dx bs t d = Ok dA -> exists dB, skf_correct_beliefs Sg dx bs t d = Ok dB /\ skf_rel bs d dA dB.
Proof.
move=> Nf ND; rewrite -[correct_beliefs _ _ _ _ _]/(let! (d0, _) := ofold (bodyA Sg dx t) (d, 0%N) bs in Ok d0) -[skf_correct_beliefs _ _ _ _ _]/(let! (d0, _) := ofold (bodyB Sg dx t) (d, 0%N) bs in Ok d0).
set f := bodyA Sg dx t; set g := bodyB Sg dx t.
have G : forall l pre xA xB row s, bs = pre ++ l -> skf_rel pre d xA xB -> ofold f (xA, row) l = Ok s -> exists dB, ofold g (xB, row) l = Ok (dB, s.2) /\ skf_rel bs d s.1 dB.
  elim=> [|[id b] l IH] pre xA xB row s Ee HR /=; first by rewrite cats0 in Ee => -[<-]; exists xB; rewrite Ee.
  case E: (f (xA, row) (id, b)) => [s1|x|x] //= Es.
  have Hf : b_fixed b = false by apply: (Nf id); rewrite Ee; apply/List.in_or_app; right; left.
  have Np : ~ List.In id (List.map fst pre).
    by move: ND; rewrite Ee List.map_app /= => ND0; case: (List.NoDup_remove _ _ _ ND0) => _ H0 Hin; apply: H0; apply/List.in_or_app; left.
  move: E; rewrite /f /bodyA /= Hf /=; case E1: dblock => [X|//|//] /=; case E2: dblock => [v|//|//] /=; case E3: bel_correct => [b'|//|//] /=.
  case E4: mod_inst => [d1|//|//] /= [Es1]; have [i [i' [Gi [[Ei'] Ed1]]]] := mod_inst_ok E4; subst s1.
  have [R1 [R2 R3]] := HR.
  have K1 : keepc d d1 by move=> k; rewrite (keepc_mod E4 _ k); [exact: R3|move=> ? ? [<-]].
  have [xB' [EB HB]] : exists xB', g (xB, row) (id, b) = Ok (xB', (row + bel_dim b)%N) /\ skf_rel (pre ++ [:: (id, b)]) d d1 xB'.
    have F1 k : d_find k d1 = if (k =? id)%nat then Some i' else d_find k xA by rewrite Ed1 find_upd Gi.
    have N1 k : ~ List.In k (List.map fst (pre ++ [:: (id, b)])) -> d_find k d1 = d_find k d.
      rewrite List.map_app /= => Nk; rewrite F1; case: Nat.eqb_spec => [Ek|_].
        by case: Nk; apply/List.in_or_app; right; left.
      by apply: R2 => Hin; apply: Nk; apply/List.in_or_app; left.
    rewrite /g /bodyB /=; case Es2: (b_ess b).
      rewrite E1 /= E2 /= E3 /= /mod_inst /at_inst R1 (ess_notin Np) -(R2 _ Np) Gi /=.
      eexists; split; first reflexivity.
      split; last by split.
      move=> k; rewrite ess_cat /= Es2 andbT find_upd R1 (ess_notin Np) -(R2 _ Np) Gi F1 Ei' Nat.eqb_sym.
      by case: Nat.eqb_spec => [_|_] /=; rewrite ?orbT ?orbF.
    rewrite /=; exists xB; split=> //; split; last by split.
    move=> k; rewrite ess_cat /= Es2 andbF orbF R1; case Ek: (essential pre k) => //; rewrite F1.
    by case: Nat.eqb_spec => // E0; subst k; rewrite (ess_notin Np) in Ek.
  by rewrite /= EB /=; apply: (IH (pre ++ [:: (id, b)])) HB Es; rewrite Ee -catA.
case E: (ofold f _ bs) => [[d0 r]|x|x] //= [<-].
have R0 : skf_rel nil d d d by split=> //.
by have [dB [-> HB]] := G bs nil _ _ _ _ erefl R0 E; exists dB.
Qed.
End Write.
