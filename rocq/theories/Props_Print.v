(** C109: what printing a history shows. *)
From Coq Require Import ZArith List Bool Arith Lia Sorted.
From Verif Require Import Outcome BufModel PrintModel.
Import ListNotations.
Local Open Scope outcome_scope.

Section P.
Context {T : Type}.
Lemma print_loop_spec len cnt (l : list (Z * T)) : print_loop len cnt l = firstn (len - cnt) l.
Proof.
revert cnt. induction l as [|e l IH]; intros cnt; cbn [print_loop]; [now rewrite firstn_nil|].
destruct (Nat.ltb_spec cnt len) as [H|H].
- replace (len - cnt)%nat with (S (len - S cnt)) by lia. cbn [firstn]. now rewrite IH.
- replace (len - cnt)%nat with 0%nat by lia. reflexivity.
Qed.
(** print(out, N) and print_reverse(out, N): the [N] oldest or newest entries, all when N is 0 *)
Theorem C109_print (N : nat) (l : list (Z * T)) :
  (0 < N -> buf_print N l = firstn N l /\ buf_print_reverse N l = firstn N (rev l))%nat
  /\ buf_print 0 l = l /\ buf_print_reverse 0 l = rev l /\ buf_show l = (length l, l).
Proof.
unfold buf_print, buf_print_reverse, print_len. rewrite !print_loop_spec, !Nat.sub_0_r. cbn [Nat.eqb].
rewrite firstn_all. rewrite <- (rev_length l) at 3. rewrite firstn_all. repeat split; destruct (Nat.eqb_spec N 0); (reflexivity || lia).
Qed.
(** in time order: among the entries of a buffer sorted by time those shown are never later (earlier) than those left out *)
Theorem C109_print_order (N : nat) (l : list (Z * T)) : StronglySorted (fun a b => (fst a <= fst b)%Z) l ->
  exists rest rest', l = buf_print N l ++ rest /\ l = rest' ++ rev (buf_print_reverse N l)
    /\ (forall a b, In a (buf_print N l) -> In b rest -> (fst a <= fst b)%Z)
    /\ (forall a b, In a rest' -> In b (buf_print_reverse N l) -> (fst a <= fst b)%Z).
Proof.
assert (App : forall a b : list (Z * T), StronglySorted (fun a b => (fst a <= fst b)%Z) (a ++ b) ->
  forall x y, In x a -> In y b -> (fst x <= fst y)%Z).
{ induction a as [|e a IH]; cbn; intros b H x y Hx Hy; [contradiction|]. apply StronglySorted_inv in H. destruct H as [H1 H2].
  destruct Hx as [->|Hx]; [|eapply IH; eauto]. rewrite Forall_forall in H2. apply H2, in_or_app. now right. }
intros Hs. unfold buf_print, buf_print_reverse. rewrite !print_loop_spec, !Nat.sub_0_r. set (n := print_len N l).
exists (skipn n l), (rev (skipn n (rev l))).
assert (E1 : l = firstn n l ++ skipn n l) by (symmetry; apply firstn_skipn).
assert (E2 : l = rev (skipn n (rev l)) ++ rev (firstn n (rev l))) by (rewrite <- rev_app_distr, firstn_skipn; symmetry; apply rev_involutive).
split; [assumption|]. split; [assumption|]. split; intros a b Ha Hb.
- refine (App _ _ _ a b Ha Hb). now rewrite firstn_skipn.
- refine (App _ _ _ a b Ha (proj1 (in_rev _ _) Hb)). now rewrite <- E2.
Qed.
Lemma show_fold max (xs : list (Z * T)) cnt out :
  fold_left (fun a e => show_one max a (snd e)) xs (cnt, out) = (cnt + length xs, out ++ firstn (max - cnt) (map snd xs))%nat.
Proof.
revert cnt out. induction xs as [|e xs IH]; intros cnt out; cbn [fold_left map length].
- rewrite firstn_nil, app_nil_r, Nat.add_0_r. reflexivity.
- unfold show_one at 2. destruct (Nat.ltb_spec cnt max) as [H|H]; rewrite IH; f_equal; try lia.
  + replace (max - cnt)%nat with (S (max - S cnt)) by lia. cbn [firstn]. now rewrite <- app_assoc.
  + replace (max - cnt)%nat with 0%nat by lia. replace (max - S cnt)%nat with 0%nat by lia. reflexivity.
Qed.
(** print_HistMeas, print_HistCorr and the handler's print_HistMeas: the first [max] entries; none when max is 0 *)
Theorem C109_hist (max : nat) (l : list (Z * T)) :
  print_hist max false l = firstn max (map snd l) /\ print_hist max true l = firstn max (rev (map snd l))
  /\ handler_print true max l = firstn max (map snd l) /\ handler_print false max l = [].
Proof.
unfold print_hist, handler_print, foreach, foreach_reverse, accumulate. rewrite !show_fold, Nat.sub_0_r, map_rev. cbn. auto.
Qed.
End P.

Section Bel.
Context {B : Type}.
Lemma show_bel_ub max r (xs : list (Z * option B)) : fold_left (fun a e => show_bel max a (snd e)) xs (UB r) = UB r.
Proof. induction xs; cbn; auto. Qed.
Lemma bel_fold max (xs : list (Z * option B)) cnt out :
  (forall bs, firstn (max - cnt) (map snd xs) = map Some bs ->
     fold_left (fun a e => show_bel max a (snd e)) xs (Ok (cnt, out)) = Ok (cnt + length xs, out ++ bs)%nat)
  /\ (In None (firstn (max - cnt) (map snd xs)) -> fold_left (fun a e => show_bel max a (snd e)) xs (Ok (cnt, out)) = UB NullDeref).
Proof.
revert cnt out. induction xs as [|[k x] xs IH]; intros cnt out; cbn [fold_left map length snd].
- rewrite firstn_nil. split; [|contradiction]. intros [|? ?] E; [|discriminate]. now rewrite app_nil_r, Nat.add_0_r.
- unfold show_bel at 2 4. cbn [obind]. destruct (Nat.ltb_spec cnt max) as [H|H].
  + replace (max - cnt)%nat with (S (max - S cnt)) by lia. cbn [firstn]. destruct x as [b|].
    * destruct (IH (S cnt) (out ++ [b])) as [I1 I2]. split.
      -- intros [|c bs] E; [discriminate|]. injection E as -> E. rewrite (I1 bs E), <- app_assoc. do 2 f_equal. lia.
      -- intros [E|E]; [discriminate | now apply I2].
    * split; [intros [|c bs] E; discriminate|]. intros _. apply show_bel_ub.
  + destruct (IH (S cnt) out) as [I1 I2]. replace (max - cnt)%nat with 0%nat in * by lia. replace (max - S cnt)%nat with 0%nat in * by lia.
    cbn [firstn] in *. split; [|contradiction]. intros bs E. rewrite (I1 bs E). do 2 f_equal. lia.
Qed.
(** print_HistBelief: the first [max] beliefs; a null pointer among them, and only among them, is dereferenced *)
Theorem C109_beliefs (max : nat) (reverse : bool) (l : list (Z * option B)) :
  let shown := firstn max (if reverse then rev (map snd l) else map snd l) in
  (forall bs, shown = map Some bs -> print_beliefs max reverse l = Ok bs)
  /\ (In None shown -> print_beliefs max reverse l = UB NullDeref).
Proof.
intros shown. unfold print_beliefs, foreach, foreach_reverse, accumulate.
destruct reverse; [destruct (bel_fold max (rev l) 0 []) as [H1 H2]; rewrite map_rev in H1, H2 | destruct (bel_fold max l 0 []) as [H1 H2]];
  rewrite Nat.sub_0_r in *; (split; [intros bs E; now rewrite (H1 bs E) | intros E; now rewrite (H2 E)]).
Qed.
End Bel.

Example C109_print_ex : buf_print 2 [(1, 10); (2, 20); (3, 30)]%Z = [(1, 10); (2, 20)]%Z
  /\ buf_print_reverse 2 [(1, 10); (2, 20); (3, 30)]%Z = [(3, 30); (2, 20)]%Z /\ length (buf_print 0 [(1, 10); (2, 20); (3, 30)]%Z) = 3%nat
  /\ print_hist 0 false [(1, 10); (2, 20)]%Z = [] /\ print_hist 1 true [(1, 10); (2, 20)]%Z = [20]%Z.
Proof. repeat split. Qed.
Example C109_order_ex : StronglySorted (fun a b => (fst a <= fst b)%Z) [(1, 10); (2, 20); (3, 30)]%Z.
Proof. repeat constructor; cbn; lia. Qed.
Example C109_beliefs_ex : print_beliefs 2 false [(1, Some 10); (2, Some 20); (3, None)]%Z = Ok [10; 20]%Z
  /\ print_beliefs 2 true [(1, Some 10); (2, Some 20); (3, None)]%Z = UB NullDeref.
Proof. split; reflexivity. Qed.
Print Assumptions C109_print.
Print Assumptions C109_print_order.
Print Assumptions C109_hist.
Print Assumptions C109_beliefs.
