(** The shipped estimator agrees with EstModel.v's on typed registries as long as the beliefs it dereferences exist. *)
From Coq Require Import ZArith List Bool Arith Lia Sorted.
From Flocq Require Import IEEE754.BinarySingleNaN.
From mathcomp Require Import all_ssreflect all_algebra.
From Verif Require Import Outcome DoubleModel BufModel BufProofs HorizonModel HorizonProofs MeasModel HandlerModel Spec_Handler ReplayProofs WindowProofs Chi2Model DMat KFModel Spec_Mat KFProofs BeliefModel EigenModel EigenProofs CatModel Props_Cat IsoModel IsoProofs Spec_Joint JointProofs Props_Joint Props_Joint2 EstModel Spec_Est EstProofs ExModel Spec_Ex.
Set Implicit Arguments. Unset Strict Implicit. Unset Printing Implicit Defensive.
Import GRing.Theory Num.Theory.
Local Open Scope outcome_scope.
Local Open Scope ring_scope.

Section Ex.
Variable F : realFieldType.
Variable junk : forall n, 'M[F]_n -> 'M[F]_n.
Variable g : forall m n, 'M[F]_(m, n).
Notation dmat := (dmat F).
Notation belief := (belief F).
Notation dict := (dict belief dmat).
Variable hor : double.
Variable is_psd : dmat -> bool.
Variable nearest : dmat -> dmat.
Variable eps0 : F.
Variable dtf : Z -> Z -> F.
Notation nopredict := (fun (_ : nat) (_ : Z) (i : inst belief dmat) => Ok (i, false)).

Definition mx_of r c (A : dmat) : 'M[F]_(r, c) := \matrix_(i, j) entry A i j.
Lemma mx_ofE r c (A : 'M[F]_(r, c)) : mx_of r c (DM A) = A.
Proof. by apply/matrixP => i j; rewrite mxE entryE. Qed.
Lemma mx_of_shaped r c A : shaped r c A -> A = DM (mx_of r c A).
Proof. by case: A => p q A [/= Ep Eq]; subst; rewrite mx_ofE. Qed.
Lemma vec_ofE n (a : 'cV[F]_n) : vec_of (DM a) = a.
Proof. by apply/matrixP => i j; rewrite mxE (entryE a i (ord0 : 'I_1)) (ord1 j). Qed.

(** the models of the example, with PRIVATE measurements tagged [false] *)
Definition hI : 'M[F]_(1, 2) := dmx (m12 (-1) 0).
Definition h1 : 'M[F]_(1, 2) := dmx (m12 1 0).
Definition phi (dt : F) : 'M[F]_2 := dmx (m22 1 dt 0 1).
Definition gam (dt : F) : 'M[F]_(2, 1) := dmx (m21 (2%:R^-1 * dt * dt) dt).
Definition ux : models F (bool * ex_dat F) := Models
  (fun _ x ta tb mean => let dt := dtf ta tb in
     (DM (phi dt *m mx_of 2 1 mean + gam dt *m mx_of 1 1 (x_z x.2)), DM (phi dt),
      DM (gam dt *m mx_of 1 1 (x_R x.2) *m (gam dt)^T + (10%:R^-1 ^+ 6)%:M)))
  (fun _ x => (m12 1 0, x_R x.2, x_z x.2))
  (fun id x => if x.1 then (smap_insert (x_peer x.2) (m12 1 0) (smap_insert id (m12 (-1) 0) nil), x_z x.2, x_R x.2)
               else ([:: (id, m12 1 0)], x_z x.2, x_R x.2))
  (ex_cfg F).
Definition tag (m : meas (ex_dat F)) : meas (bool * ex_dat F) :=
  match m_ty m with PRIVATE => Meas (m_id m) (m_t m) JOINT (false, m_dat m) | ty => Meas (m_id m) (m_t m) ty (true, m_dat m) end.
Lemma tag_t m : m_t (tag m) = m_t m. Proof. by rewrite /tag; case: (m_ty m). Qed.
Lemma tag_id m : m_id (tag m) = m_id m. Proof. by rewrite /tag; case: (m_ty m). Qed.

Notation n2 := (fun _ : nat => 2%N).
Variable reg : list nat.
Notation typed := (@typed F n2 reg).
Notation fits := (@fits F reg).
Lemma fits_ok m : fits m -> okm ux n2 reg (tag m).
Proof.
case: m => id t ty x [/= Hr [Hz [HR [Nu Hj]]]]; rewrite /okm /tag /=.
case: ty Nu Hj => // _ Hj; split=> //=; rewrite /ascending_ids.
- by split=> //; split=> //; split=> [i [<-|[]]|] //; exists 1%N; split=> // i X [[_ <-]|[]].
- have [Hp Ne] := Hj erefl.
  case: Nat.ltb_spec0 => [/ltP L|/ltP L]; last case: Nat.eqb_spec => [//|_].
  + split=> //=; split; first by rewrite L.
    by split=> [i [<-|[<-|[]]]|] //; exists 1%N; split=> // i X [[_ <-]|[[_ <-]|[]]].
  + have Lt : (id < x_peer x)%N by rewrite ltn_neqAle (introF eqP (not_eq_sym Ne)) leqNgt.
    split=> //=; split; first by rewrite Lt.
    by split=> [i [<-|[<-|[]]]|] //; exists 1%N; split=> // i X [[_ <-]|[[_ <-]|[]]].
Qed.

(** ** propagation *)
Lemma ex_propagate_eq m d : typed d -> fits m -> m_ty m = PROPAGATION ->
  (forall i, d_find (m_id m) d = Some i -> get_before_t (m_t m) (i_bel i) <> None) -> (forall e, List.In e d -> ssorted (i_bel (snd e))) ->
  ex_propagate hor dtf m d = est_propagate hor ux (tag m) d.
Proof.
case: m => id t ty x T [/= Hr [Hz [HR _]]] Ty Nn So; subst ty; rewrite /ex_propagate /est_propagate /tag /= /at_inst.
case Gi: (d_find id d) => [i|//].
case Gb: (get_before_t t (i_bel i)) => [[ta ba]|]; last by case: (Nn _ Gi).
have [Hm [HS _]] : bel_typed n2 id ta ba.
  apply: (proj1 (proj2 T _ _ Gi)); have Si := So _ (find_In Gi); apply/(get_at_iff _ _ _ Si).
  by have [A _] := get_before_spec _ _ _ _ (ssorted_w _ Si) Gb; exact: A.
rewrite (mx_of_shaped Hm) (mx_of_shaped Hz) (mx_of_shaped HR) !mx_ofE.
rewrite /m22 /m21 /dtr /dscale /deye !(dmul_ok, dadd_ok) /= !(dmul_ok, dadd_ok) /= !(dmul_ok, dadd_ok) /=.
congr (obind _ _); congr (iso_propagate_bel _ _ _ _ _ _ _ _); congr DM; congr (_ + _); apply/matrixP => a b; rewrite !mxE.
by rewrite -val_eqE /=; case: eqP; rewrite ?mulr1 ?mulr0 ?mulr1n ?mulr0n.
Qed.

(** ** observations *)
Lemma obs_zr dH z R t cfg (d : dict) bs H mu hm r : stack_H dH = Ok H -> get_dict_bel nopredict (List.map fst dH) t d = Ok (d, bs) -> bs <> nil ->
  stack_mean bs = Ok mu -> dmul H mu = Ok hm -> dsub z hm = Ok r ->
  apply_observation_r junk is_psd nearest nopredict eps0 dH R r t cfg d = apply_observation_z junk is_psd nearest nopredict eps0 dH z R t cfg d.
Proof.
move=> E1 E2 Nb E3 E4 E5; rewrite /apply_observation_r /apply_observation_z E1 /= E2 /=; case: bs E2 Nb E3 => // b bs _ _ ->.
by case: stack_Sigma => //= S; rewrite E4 /= E5.
Qed.
Lemma stackH1 i (A : 'M[F]_(1, 2)) : stack_H [:: (i, DM A)] = Ok (DM A).
Proof.
have [||||C [E0 [R [D E]]]] := @set_block_ok F (dzero F 1 2) (DM A) 0 0 1 2 => //=.
transitivity (obind (dset_block (dzero F 1 2) 0 0 1 2 (DM A)) (fun H => Ok H)); first by []; rewrite E0.
by congr Ok; apply: dmat_eq; rewrite ?R ?D //= => a b Ha Hb; rewrite E //= !subn0 Ha Hb.
Qed.
Lemma stackH2 i j (A B : 'M[F]_(1, 2)) : stack_H [:: (i, DM A); (j, DM B)] = Ok (DM (row_mx A B)).
Proof.
have [||||C [E0 [R [D E]]]] := @set_block_ok F (dzero F 1 4) (DM A) 0 0 1 2 => //=.
have [||||C2 [E1 [R2 [D2 E2]]]] := @set_block_ok F C (DM B) 0 2 1 2 => //=; try by rewrite ?R ?D.
transitivity (obind (obind (dset_block (dzero F 1 4) 0 0 1 2 (DM A)) (fun C => dset_block C 0 2 1 2 (DM B))) (fun H => Ok H)); first by []; rewrite E0 /= E1 /=.
congr Ok; apply: dmat_eq; rewrite ?R2 ?D2 ?R ?D //= => a b Ha Hb; rewrite entry_row // E2 ?R ?D // E //= !subn0 Ha.
by rewrite -[(2 + 2)%N]/4%N Hb; case: (ltnP b 2).
Qed.
Lemma stackm1 i (b : belief) (x : 'cV[F]_2) : b_fixed b = false -> b_mean b = DM x -> drows (b_Sigma b) = 2%N -> stack_mean [:: (i, b)] = Ok (DM x).
Proof.
move=> Fx Em Ds; have [||||C [E0 [R [D E]]]] := @set_block_ok F (dzero F 2 1) (DM x) 0 0 2 1 => //=.
transitivity (obind (dset_block (dzero F 2 1) 0 0 2 1 (DM x)) (fun H => Ok H)); first by rewrite /stack_mean /get_dim /ofold /List.fold_left /= Fx /bel_dim Ds Em.
rewrite E0.
by congr Ok; apply: dmat_eq; rewrite ?R ?D //= => a c Ha Hc; rewrite E //= !subn0 Ha Hc.
Qed.
Lemma stackm2 i j (b c : belief) (x y : 'cV[F]_2) : b_fixed b = false -> b_mean b = DM x -> drows (b_Sigma b) = 2%N ->
  b_fixed c = false -> b_mean c = DM y -> drows (b_Sigma c) = 2%N -> stack_mean [:: (i, b); (j, c)] = Ok (DM (col_mx x y)).
Proof.
move=> Fx Em Ds Fy Ey Dy.
have [||||C [E0 [R [D E]]]] := @set_block_ok F (dzero F 4 1) (DM x) 0 0 2 1 => //=.
have [||||C2 [E1 [R2 [D2 E2]]]] := @set_block_ok F C (DM y) 2 0 2 1 => //=; try by rewrite ?R ?D.
transitivity (obind (obind (dset_block (dzero F 4 1) 0 0 2 1 (DM x)) (fun C => dset_block C 2 0 2 1 (DM y))) (fun H => Ok H)).
  by rewrite /stack_mean /get_dim /ofold /List.fold_left /= Fx Fy /bel_dim Ds Dy Em Ey.
rewrite E0 /= E1 /=.
congr Ok; apply: dmat_eq; rewrite ?R2 ?D2 ?R ?D //= => a k Ha Hk; rewrite entry_col // E2 ?R ?D // E //= !subn0 Hk.
by rewrite -[(2 + 2)%N]/4%N Ha; case: (ltnP a 2).
Qed.

Lemma ex_private_eq m d : typed d -> fits m -> m_ty m = PRIVATE ->
  ex_private junk is_psd nearest eps0 m d = est_joint junk is_psd nearest eps0 ux (tag m) d.
Proof.
case: m => id t ty x T [/= Hr [Hz [HR _]]] Ty; subst ty; rewrite /ex_private /est_joint /tag /= /at_inst.
have [i Gi] : exists i, d_find id d = Some i by apply: find_key; case: T => ->.
rewrite Gi; case Gb: (get_at_t t (i_bel i)) => [ba|]; last first.
  rewrite /apply_observation_z /m12 stackH1 /= /get_dict_bel (@collect_missing F t d id) //=; first by rewrite /bel_of Gi.
    by move=> id' [<-|[]]; rewrite Gi.
  by left.
have B0 : bel_of d id t = Some ba by rewrite /bel_of Gi.
have [Hm [[HS _] [Fx _]]] := proj1 (proj2 T _ _ Gi) _ _ Gb.
have Em := mx_of_shaped Hm; have Ez := mx_of_shaped Hz.
rewrite Em {1}Ez /m12 dmul_ok /= dsub_ok /=.
rewrite (@obs_zr _ (x_z x) _ _ _ _ [:: (id, ba)] (DM h1) (DM (mx_of 2 1 (b_mean ba))) (DM (h1 *m mx_of 2 1 (b_mean ba)))) //.
- exact: stackH1.
- apply: (@collect _ _ _ _ [:: (id, ba)] nil) => [id' b [[<- <-]|[]]|] //.
  by move=> k l i0 j bi bj; case: k => [|[|k]] //; case: l => [|[|l]].
- exact: stackm1.
- exact: dmul_ok.
- by rewrite {1}Ez dsub_ok.
Qed.
Lemma ex_joint_eq m d : typed d -> fits m -> m_ty m = JOINT -> bel_of d (m_id m) (m_t m) <> None -> bel_of d (x_peer (m_dat m)) (m_t m) <> None ->
  ex_joint junk g is_psd nearest eps0 m d = est_joint junk is_psd nearest eps0 ux (tag m) d.
Proof.
case: m => id t ty x T [/= Hr [Hz [HR [_ Hj]]]] Ty; subst ty; rewrite /ex_joint /est_joint /tag.
have -> : horcat g (m12 (-1) 0) (m12 1 0) = Ok (DM (row_mx hI h1)) by exact: C54_horcat.
rewrite /=.
case: (Hj erefl) => Hp Ne; move: (x_peer x) Hp Ne => J Hp Ne.
have Bel k : bel_of d k t <> None -> exists b, [/\ bel_of d k t = Some b, at_inst k d (fun i => match get_at_t t (i_bel i) with Some b => Ok b | None => UB NullDeref end) = Ok b,
    b_mean b = DM (mx_of 2 1 (b_mean b)), b_fixed b = false & drows (b_Sigma b) = 2%N].
  rewrite /bel_of /at_inst /bel_at; case Gk: (d_find k d) => [i|//]; case Gb: (get_at_t t (i_bel i)) => [b|//] _; exists b.
  by have [Hm [[HS _] [Fx _]]] := proj1 (proj2 T _ _ Gk) _ _ Gb; split=> //; exact: mx_of_shaped.
move=> /Bel [bi [Bi -> Ei Fi Si]] /Bel [bj [Bj -> Ej Fj Sj]] /=.
set mi := mx_of 2 1 (b_mean bi) in Ei *; set mj := mx_of 2 1 (b_mean bj) in Ej *.
rewrite Ei Ej !vec_ofE /m12 C54_vertcat_vec //= dmul_ok /= (mx_of_shaped Hz) dsub_ok /=.
set r := DM (mx_of 1 1 (x_z x) - _); set zz := DM (mx_of 1 1 (x_z x)).
have Sw : row_mx h1 hI *m col_mx mj mi = row_mx hI h1 *m col_mx mi mj by rewrite !mul_row_col addrC.
case: Nat.ltb_spec0 => [/ltP L|/ltP L]; last case: Nat.eqb_spec => [//|_].
- rewrite (@obs_zr _ zz _ _ _ _ [:: (J, bj); (id, bi)] (DM (row_mx h1 hI)) (DM (col_mx mj mi)) (DM (row_mx h1 hI *m col_mx mj mi)) r) //.
  + exact: stackH2.
  + apply: (@collect _ _ _ _ [:: (J, bj); (id, bi)] nil) => [id' b [[<- <-]|[[<- <-]|[]]]|] //.
    by apply: asc_map; rewrite /ascending_ids /= L.
  + exact: stackm2.
  + exact: dmul_ok.
  + by rewrite /zz dsub_ok Sw.
- have Lt : (id < J)%N by rewrite ltn_neqAle (introF eqP (not_eq_sym Ne)) leqNgt.
  rewrite (@obs_zr _ zz _ _ _ _ [:: (id, bi); (J, bj)] (DM (row_mx hI h1)) (DM (col_mx mi mj)) (DM (row_mx hI h1 *m col_mx mi mj)) r) //.
  + exact: stackH2.
  + apply: (@collect _ _ _ _ [:: (id, bi); (J, bj)] nil) => [id' b [[<- <-]|[[<- <-]|[]]]|] //.
    by apply: asc_map; rewrite /ascending_ids /= Lt.
  + exact: stackm2.
  + exact: dmul_ok.
  + by rewrite /zz dsub_ok.
Qed.

(** ** beliefs are replaced, never removed *)
Definition grow (d d' : dict) : Prop := forall id k, bel_of d id k <> None -> bel_of d' id k <> None.
Lemma grow_trans d1 d2 d3 : grow d1 d2 -> grow d2 d3 -> grow d1 d3.
Proof. by move=> H1 H2 id k /H1 /H2. Qed.
Lemma mod_grow id f (d d' : dict) : (forall i i' k, f i = Ok i' -> bel_at k i <> None -> bel_at k i' <> None) -> mod_inst id f d = Ok d' -> grow d d'.
Proof.
move=> H /mod_inst_ok [i [i' [G [E ->]]]] x k; rewrite /bel_of find_upd; case: Nat.eqb_spec => [->|_] //; rewrite G; exact: H E.
Qed.
Lemma set_Sigma_grow I J (X : dmat) t (d d' : dict) : set_Sigma_IJ I J X t d = Ok d' -> grow d d'.
Proof.
have H k m (i i' : inst belief dmat) s : Ok (with_ccf (ccf_set k t m (i_ccf i)) i) = Ok i' -> bel_at s i <> None -> bel_at s i' <> None by case=> <-.
by rewrite /set_Sigma_IJ; case: Nat.ltb; case E: mod_inst => [d1|e|e] //= E2; apply: grow_trans (mod_grow _ E) (mod_grow _ E2) => i i' k; exact: H.
Qed.
Lemma write_grow Sp dx bs t (d d' : dict) : write_joint junk Sp dx bs t d = Ok d' -> grow d d'.
Proof.
rewrite /write_joint; case E1: apply_corrections => [d1|e|e] //=; case E2: split_right_upper => [d2|e|e] //= E3.
have G1 : grow d d1.
  move: E1; rewrite /apply_corrections; case E: ofold => [[dd k]|e|e] //= [Ed]; subst dd.
  apply: (ofold_inv (I := fun s => grow d (fst s)) _ _ E) => // -[da na] [id b] [db nb] /= Wa; case: ifP => [_|_ [<- _]] //.
  case: dblock => //= Sii; case Em: mod_inst => [dc|e|e] //= [Edb _]; subst dc; apply: (grow_trans Wa); apply: mod_grow Em => i i' s.
  by case: ccf_correct => [c|e|e] //= [<-].
have G2 : grow d1 d2.
  move: E2; rewrite /split_right_upper; move: (List.filter _ _) 0%N => us row; move: row d1 {E1 G1}; elim: us => [//|[I b] us IH] row da.
  rewrite /=; case: us IH => [_ [<-]|e us] // IH.
  case Er: split_row => [db|x|x] //= /IH; apply: grow_trans.
  move: (e :: us) (row + bel_dim b)%N da Er => rest; elim: rest => [|[J bj] rest IH2] col da /=; first by case=> <-.
  case: dblock => //= Sij; case Es: set_Sigma_IJ => [dc|x|x] //= /IH2; apply: grow_trans; exact: set_Sigma_grow Es.
apply: (grow_trans G1); apply: (grow_trans G2).
move: E3; rewrite /correct_beliefs; case E: ofold => [[dd k]|e|e] //= [Ed]; subst dd.
apply: (ofold_inv (I := fun s => grow d2 (fst s)) _ _ E) => // -[da na] [id b] [db nb] /= Wa; case: ifP => [_|_ [<- _]] //.
case: dblock => //= Sii; case: dblock => //= v; case: bel_correct => //= b'; case Em: mod_inst => [dc|e|e] //= [Edb _]; subst dc.
apply: (grow_trans Wa); apply: mod_grow Em => i i' s [<-]; rewrite /bel_at /= get_ins; by case: Z.eqb.
Qed.
Lemma dict_bel_same t (d d' : dict) bs : forall ids acc, get_dict_bel_loop nopredict ids t d acc = Ok (d', bs) -> d' = d.
Proof.
elim=> [|id ids IH] acc /=; first by case.
rewrite /at_inst; case G: (d_find id d) => [i|//]; rewrite /belief_or_predict; case: exist_at_t => /=; last first.
  rewrite upd_same //.
  by case=> ->.
case: get_at_t => [b|]; rewrite upd_same //; [exact: IH|by case=> ->].
Qed.
Lemma obs_grow dH z R t cfg (d d' : dict) ok : apply_observation_z junk is_psd nearest nopredict eps0 dH z R t cfg d = Ok (d', ok) -> grow d d'.
Proof.
rewrite /apply_observation_z; case: stack_H => //= H; case E: get_dict_bel => [[d1 bs]|e|e] //=; rewrite (dict_bel_same E).
case: bs {E} => [[<- _]|b bs] //; case: stack_mean => //= mu; case: stack_Sigma => //= S; case: dmul => //= hm; case: dsub => //= r.
rewrite /joint_update; case: stabilize_covariance => //= Sg; case: correction_step => //= res; case: ifP => _; last by case=> <- _ id k.
by case E: write_joint => [d2|e|e] //= [<- _]; exact: write_grow E.
Qed.
End Ex.
