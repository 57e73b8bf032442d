(** The lazy filter: products of correction terms, composition. *)
From Coq Require Import ZArith List Bool Arith Lia.
From Flocq Require Import IEEE754.BinarySingleNaN.
From mathcomp Require Import all_ssreflect all_algebra.
From Verif Require Import Outcome TimestampModel DoubleModel BufModel Spec_Buf BufProofs HorizonModel HorizonProofs MeasModel HandlerModel Spec_Handler DMat KFModel Spec_Mat KFProofs BeliefModel EigenModel EigenProofs IsoModel IsoProofs IsoTrace CorrModel Spec_Corr.
Set Implicit Arguments. Unset Strict Implicit. Unset Printing Implicit Defensive.
Import GRing.Theory Num.Theory.
Local Open Scope outcome_scope.
Local Open Scope ring_scope.

Section Proofs.
Variable F : realFieldType.
Notation dmat := (dmat F).
Implicit Types (h : buf dmat).

Lemma mx_of_DM m n (A : 'M[F]_(m, n)) : mx_of m n (DM A) = A.
Proof. by apply/matrixP => i j; rewrite mxE entryE. Qed.
Lemma DM_mx_of m n (A : dmat) : drows A = m -> dcols A = n -> A = DM (mx_of m n A).
Proof. by case: A => r c A /= E1 E2; subst r c; rewrite mx_of_DM. Qed.
Lemma applied_cat n (l1 l2 : list dmat) : applied n (l1 ++ l2)%list = applied n l2 *m applied n l1.
Proof. by elim: l1 => [|A l IH] /=; [rewrite mulmx1|rewrite IH mulmxA]. Qed.

(** the fold of compute_correction *)
Lemma fold_terms n (l : list dmat) : (forall A, List.In A l -> drows A = n /\ dcols A = n) -> forall X : 'M[F]_n,
  List.fold_left (fun acc B => let! A := acc in dmul B A) l (Ok (DM X)) = Ok (DM (applied n l *m X)).
Proof.
elim: l => [|A l IH] HA X /=; first by rewrite mul1mx.
have [E1 E2] := HA A (or_introl (erefl _)).
rewrite {1}(DM_mx_of E1 E2) dmul_ok IH ?mulmxA // => B HB; apply: HA; by right.
Qed.
Lemma deye_id n : deye F n n = DM (1%:M : 'M[F]_n).
Proof. by congr DM; apply/matrixP => i j; rewrite !mxE. Qed.
Lemma terms_square n ta tb h : square n h -> forall A, List.In A (terms ta tb h) -> drows A = n /\ dcols A = n.
Proof. by move=> S A /List.in_map_iff [e [<- /List.filter_In [I _]]]; exact: S. Qed.

(** C36: what compute_correction returns *)
Definition available (ta tb : Z) h : bool := List.existsb (fun e => Z.ltb ta e.1) h && List.existsb (fun e => Z.leb e.1 tb) h.
Lemma compute_correctionE n ta tb h : ssorted h -> square n h ->
  compute_correction ta tb h = Ok (if available ta tb h then DM (product n ta tb h) else dempty F).
Proof.
move=> S Q; have W := ssorted_w h S.
have ex p : List.existsb p h = true <-> exists e : Z * dmat, List.In e h /\ p e = true by apply: List.existsb_exists.
rewrite /compute_correction /available.
case GA: (get_after_t ta h) => [[t1 m]|]; last first.
  have := (proj1 (get_after_none ta h W) GA) => N.
  case X: (List.existsb _ h) => //=; move/ex: X => [e [I /Z.ltb_lt L]]; have := N _ I; simpl in *; lia.
have [I1 [L1 M1]] := get_after_spec ta h t1 m W GA.
have -> : List.existsb (fun e : Z * dmat => Z.ltb ta e.1) h = true by apply/ex; exists (t1, m); split=> //; apply/Z.ltb_lt.
have [Em Em'] := Q _ I1; simpl in Em, Em'.
case FB: (match get_at_t tb h with Some _ => Some tb | None => option_map fst (get_before_t tb h) end) => [t2|]; last first.
  have N : forall e, List.In e h -> Z.lt tb e.1.
    move: FB; case GT: get_at_t => [//|] /=; case GB: get_before_t => [//|] _ e I.
    have := proj1 (get_before_none tb h W) GB _ I; have := proj1 (get_at_none tb h) GT e.2.
    case: e I => k v I /= Nk; have : k <> tb by move=> E; subst k; apply: Nk.
    lia.
  case X: (List.existsb _ h) => //; move/ex: X => [e [I /Z.leb_le L]]; have := N _ I; simpl in *; lia.
have [I2 [L2 M2]] : (exists v, List.In (t2, v) h) /\ Z.le t2 tb /\ forall e, List.In e h -> Z.le e.1 tb -> Z.le e.1 t2.
  move: FB; case GT: (get_at_t tb h) => [v|].
    by case=> <-; split; [exists v; exact: get_at_In GT|split=> //; lia].
  case GB: (get_before_t tb h) => [[k v]|] //= [<-].
  have [I' [L' M']] := get_before_spec tb h k v W GB; split; first by exists v.
  split; first lia.
  move=> e I /= L; case: (Z.eq_dec e.1 tb) => [E|N].
    by have := proj1 (get_at_none tb h) GT e.2; rewrite -E -surjective_pairing.
  apply: M' => //; lia.
have -> : List.existsb (fun e : Z * dmat => Z.leb e.1 tb) h = true.
  by case: I2 => v I2; apply/ex; exists (t2, v); split=> //; apply/Z.leb_le.
rewrite Em Em' maxnn deye_id /=.
have [_ [_ ->]] := hb_between_specs t1 t2 h W.
have -> : List.map snd (elements_in t1 t2 h) = terms ta tb h.
  rewrite /terms /elements_in; congr List.map; apply: List.filter_ext_in => e I.
  case: e I => k v I /=.
  apply/idP/idP => /andP [A /Z.leb_le B]; apply/andP; split; apply/Z.leb_le || apply/Z.ltb_lt.
  - by move/Z.leb_le: A; lia.
  - by lia.
  - by apply: (M1 _ I); apply/Z.ltb_lt.
  - by exact: (M2 _ I).
by rewrite (fold_terms (terms_square Q)) mulmx1.
Qed.
End Proofs.
