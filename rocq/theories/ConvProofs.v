From Coq Require Import ZArith List Lia.
From mathcomp Require Import all_ssreflect all_algebra.
From Verif Require Import Outcome DMat EigenModel EigenProofs IsoModel ConvModel.
Set Implicit Arguments. Unset Strict Implicit. Unset Printing Implicit Defensive.
Import Order.Theory GRing.Theory Num.Theory.
Local Open Scope ring_scope.

(** loops over consecutive indices *)
Lemma loop_seq S (f : S -> nat -> outcome S) (Inv : nat -> S -> Prop) n : forall k s, Inv k s ->
  (forall i s, (k <= i < k + n)%N -> Inv i s -> exists s', f s i = Ok s' /\ Inv i.+1 s') ->
  exists s', ofold f s (List.seq k n) = Ok s' /\ Inv (k + n)%N s'.
Proof.
elim: n => [|n IH] k s H St /=; first by exists s; rewrite addn0.
have [|s1 [E1 H1]] := St k s _ H; first by rewrite leqnn -addSnnS leq_addr.
rewrite E1 /=; have [|s2 [E2 H2]] := IH k.+1 s1 H1 _; last by exists s2; rewrite E2 -addSnnS.
by move=> i s0 /andP [L1 L2]; apply: St; rewrite (ltnW L1) -addSnnS.
Qed.
(** a loop whose body fails at index j *)
Lemma loop_fails S (f : S -> nat -> outcome S) (Inv : nat -> S -> Prop) e n : forall k s j, Inv k s -> (k <= j < k + n)%N ->
  (forall i s, (k <= i < j)%N -> Inv i s -> exists s', f s i = Ok s' /\ Inv i.+1 s') -> (forall s, Inv j s -> f s j = Abort e) ->
  ofold f s (List.seq k n) = Abort e.
Proof.
elim: n => [|n IH] k s j H /andP [L1 L2] St Fj /=; first by move: L2; rewrite addn0 ltnNge L1.
case: (ltnP k j) => Lk; last by have Ek : k = j by [apply/eqP; rewrite eqn_leq L1 Lk]; subst j; rewrite Fj.
have [|s1 [E1 H1]] := St k s _ H; first by rewrite leqnn Lk.
rewrite E1 /=; apply: (IH k.+1 s1 j H1 _ _ Fj); first by rewrite Lk addSnnS.
by move=> i s0 /andP [A B]; apply: St; rewrite (ltnW A) B.
Qed.

Section Conv.
Variable F : realFieldType.
Notation dmat := (dmat F).

Lemma vat_ok A (l : list A) i : (i < List.length l)%N -> exists x, List.nth_error l i = Some x /\ vat l i = Ok x.
Proof.
rewrite /vat; case E: (List.nth_error l i) => [x|] L; first by exists x.
by move/List.nth_error_None: E => /ssrnat.leP; rewrite leqNgt L.
Qed.
Lemma vat_bad A (l : list A) i : (List.length l <= i)%N -> vat l i = Abort OutOfRangeException.
Proof. by rewrite /vat => /ssrnat.leP /List.nth_error_None ->. Qed.
Lemma lput_length A (l : list A) i x : List.length (lput l i x) = List.length l.
Proof. by elim: l i => [|y l IH] [|i] //=; rewrite IH. Qed.
Lemma nth_lput A (l : list A) i x j : List.nth_error (lput l i x) j = if (j == i) && (i < List.length l)%N then Some x else List.nth_error l j.
Proof.
elim: l i j => [|y l IH] [|i] [|j] //=; rewrite ?andbF //; last by rewrite IH eqSS ltnS.
Qed.
Lemma nth_repeat A (x : A) n j : List.nth_error (List.repeat x n) j = if (j < n)%N then Some x else None.
Proof. by elim: n j => [|n IH] [|j] //=; rewrite IH ltnS. Qed.
Lemma nth_ext A (l1 l2 : list A) : (forall i, List.nth_error l1 i = List.nth_error l2 i) -> l1 = l2.
Proof.
elim: l1 l2 => [|x l1 IH] [|y l2] H //; [by have := H 0%N|by have := H 0%N|].
by have := H 0%N => /= -[->]; congr (_ :: _); apply: IH => i; exact: (H i.+1).
Qed.
Lemma nth_default A (l : list A) i d : List.nth i l d = if List.nth_error l i is Some x then x else d.
Proof. by elim: l i => [|x l IH] [|i] //=. Qed.
Lemma dput_ok (M : dmat) r c x : (r < drows M)%N -> (c < dcols M)%N -> exists C, dput M r c x = Ok C /\ drows C = drows M /\ dcols C = dcols M /\
  forall a b, (a < drows M)%N -> (b < dcols M)%N -> entry C a b = if (a == r) && (b == c) then x else entry M a b.
Proof.
move=> Lr Lc; have [||||C [E [R [D H]]]] := @set_block_ok F M (DM (x%:M : 'M[F]_1)) r c 1 1 => //; rewrite ?addn1 //.
exists C; split=> //; split=> //; split=> // a b La Lb; rewrite H // !addn1 !ltnS.
have -> : [&& (r <= a)%N, (a <= r)%N, (c <= b)%N & (b <= c)%N] = (a == r) && (b == c).
  by rewrite !eqn_leq; case: (r <= a)%N; case: (a <= r)%N; case: (c <= b)%N; case: (b <= c)%N.
case: ifP => // /andP [/eqP -> /eqP ->]; by rewrite !subnn (entry_in _ (isT : 0 < 1)%N (isT : 0 < 1)%N) mxE.
Qed.

(** a list read off index by index *)
Lemma read_list (g : nat -> F) n (rd : nat -> outcome F) : (forall i, (i < n)%N -> rd i = Ok (g i)) ->
  exists l, ofold (fun l i => obind (rd i) (fun x => Ok (lput l i x))) (List.repeat 0 n) (List.seq 0 n) = Ok l /\
    List.length l = n /\ forall i, (i < n)%N -> List.nth_error l i = Some (g i).
Proof.
move=> H; pose Inv k (l : list F) := List.length l = n /\ forall i, (i < k)%N -> List.nth_error l i = Some (g i).
have [||l [E [Ll Hl]]] := @loop_seq _ (fun l i => obind (rd i) (fun x => Ok (lput l i x))) Inv n 0 (List.repeat 0 n); [by split; [exact: List.repeat_length|]| |by exists l].
move=> i l; rewrite add0n => /andP [_ Li] [Ll Hl]; rewrite H //=; eexists; split=> //; split; first by rewrite lput_length.
move=> j; rewrite ltnS leq_eqVlt nth_lput Ll Li andbT => /orP [/eqP ->|Lj]; first by rewrite eqxx.
by rewrite (ltn_eqF Lj) Hl.
Qed.

(** filling columns *)
Lemma fill_ok dim (l : list 'cV[F]_dim) (M : dmat) : drows M = dim -> dcols M = List.length l ->
  exists C, fill_cols l M = Ok C /\ drows C = dim /\ dcols C = List.length l /\
    forall c v i, List.nth_error l c = Some v -> (i < dim)%N -> entry C i c = entry (DM v) i 0.
Proof.
move=> R0 C0; pose Inv k (C : dmat) := drows C = dim /\ dcols C = List.length l /\
    forall c v i, (c < k)%N -> List.nth_error l c = Some v -> (i < dim)%N -> entry C i c = entry (DM v) i 0.
have [||C [E [RC [CC H]]]] := @loop_seq _ (fun M c => obind (vat l c) (fun v => dset_block M 0 c dim 1 (DM v))) Inv (List.length l) 0 M.
- by split.
- move=> c C; rewrite add0n => /andP [_ Lc] [RC [CC H]]; have [v [Ev ->]] := vat_ok Lc; cbn [obind].
  have [||||C' [-> [R' [D' H']]]] := @set_block_ok F C (DM v) 0 c dim 1 => //; rewrite ?add0n ?RC ?CC ?addn1 //.
  exists C'; split=> //; split; [by rewrite R'|split; [by rewrite D'|]] => c' w i Lc' Ew Li.
  have Lc2 : (c' < List.length l)%N by apply/ssrnat.ltP/List.nth_error_Some; rewrite Ew.
  rewrite H' ?RC ?CC // Li addn1 ltnS /= subn0.
  have [Lt|Eq] : (c' < c)%N \/ c' = c by move: Lc'; rewrite ltnS leq_eqVlt => /orP [/eqP|]; [right|left].
    by rewrite (leqNgt c c') Lt /= ?andbF; exact: (H c' w i Lt Ew Li).
  by subst c'; rewrite leqnn subnn; move: Ew; rewrite Ev => -[->].
by exists C; split=> //; split=> //; split=> // c v i Ev Li; apply: (H c v i _ Ev Li); apply/ssrnat.ltP/List.nth_error_Some; rewrite Ev.
Qed.
End Conv.
