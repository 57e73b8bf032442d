From Coq Require Import List Ascii Bool Arith ZArith Lia.
From Verif Require Import Outcome TextModel Spec_Text.
Import ListNotations.
Local Open Scope outcome_scope.

(** ** lines *)
Lemma getlines_from_line (sep : ascii) : forall w cur s, ~ In sep w ->
  getlines_from sep cur (w ++ sep :: s) = (match cur with None => w | Some v => v ++ w end) :: getlines_from sep None s.
Proof.
  induction w as [|c w IH]; intros cur s H; simpl.
  - rewrite Ascii.eqb_refl. destruct cur; [rewrite app_nil_r|]; reflexivity.
  - destruct (Ascii.eqb_spec c sep) as [->|N]; [destruct H; left; reflexivity|].
    rewrite IH by (intro; apply H; right; assumption).
    destruct cur; simpl; [rewrite <- app_assoc|]; reflexivity.
Qed.
Lemma getlines_from_last (sep : ascii) : forall w cur, ~ In sep w ->
  getlines_from sep cur w = match cur, w with None, [] => [] | None, _ => [w] | Some v, _ => [v ++ w] end.
Proof.
  induction w as [|c w IH]; intros cur H; simpl.
  - destruct cur; [rewrite app_nil_r|]; reflexivity.
  - destruct (Ascii.eqb_spec c sep) as [->|N]; [destruct H; left; reflexivity|].
    rewrite IH by (intro; apply H; right; assumption).
    destruct cur; simpl; [rewrite <- app_assoc|]; reflexivity.
Qed.
Lemma getlines_line sep w s : ~ In sep w -> getlines sep (w ++ sep :: s) = w :: getlines sep s.
Proof. intro H; unfold getlines; rewrite getlines_from_line by assumption; reflexivity. Qed.
Lemma getlines_last sep w : ~ In sep w -> getlines sep w = match w with [] => [] | _ => [w] end.
Proof. intro H; unfold getlines; rewrite getlines_from_last by assumption; reflexivity. Qed.
Lemma getlines_unlines sep : forall ws s, (forall w, In w ws -> ~ In sep w) -> getlines sep (unlines sep ws ++ s) = ws ++ getlines sep s.
Proof.
  induction ws as [|w ws IH]; intros s H; [reflexivity|].
  unfold unlines in *; simpl. rewrite <- !app_assoc. simpl. rewrite getlines_line by (apply H; left; reflexivity).
  rewrite IH by (intros; apply H; right; assumption). reflexivity.
Qed.
Lemma lines_ofE sep s ws : lines_of sep s ws -> getlines sep s = ws.
Proof.
  intros [H [->|(vs & w & -> & N & ->)]].
  - rewrite <- (app_nil_r (unlines sep ws)), getlines_unlines by assumption. apply app_nil_r.
  - rewrite getlines_unlines by (intros; apply H; apply in_or_app; left; assumption).
    rewrite getlines_last by (apply H; apply in_or_app; right; left; reflexivity).
    destruct w; [contradiction|reflexivity].
Qed.
Lemma find_sep (sep : ascii) (s : text) : ~ In sep s \/ exists w r, s = w ++ sep :: r /\ ~ In sep w.
Proof.
  induction s as [|c s IH]; [left; intros []|].
  destruct (Ascii.eqb_spec c sep) as [->|N]; [right; exists [], s; split; [reflexivity|intros []]|].
  destruct IH as [H|(w & r & -> & H)]; [left; intros [E|E]; auto|].
  right; exists (c :: w), r; split; [reflexivity|]. intros [E|E]; auto.
Qed.
Lemma lines_exist sep : forall n s, length s <= n -> lines_of sep s (getlines sep s).
Proof.
  induction n as [|n IH]; intros s L.
  - destruct s; [|simpl in L; lia]. split; [intros w []|left; reflexivity].
  - destruct (find_sep sep s) as [H|(w & r & -> & H)].
    + rewrite getlines_last by assumption. destruct s as [|c s]; [split; [intros w []|left; reflexivity]|].
      split; [intros w [<-|[]]; assumption|]. right; exists [], (c :: s); repeat split; discriminate.
    + rewrite getlines_line by assumption. rewrite app_length in L; simpl in L.
      destruct (IH r) as [A B]; [lia|]. split; [intros v [<-|E]; auto|].
      destruct B as [B|(vs & v & E & N & B)].
      * left. rewrite B at 1. unfold unlines; simpl. rewrite <- app_assoc; reflexivity.
      * right. exists (w :: vs), v. rewrite E at 1. repeat split; [assumption|].
        rewrite B at 1. unfold unlines; simpl. rewrite <- !app_assoc. reflexivity.
Qed.
Lemma getlinesP sep s : lines_of sep s (getlines sep s).
Proof. exact (lines_exist sep (length s) s (le_n _)). Qed.
Lemma getlines_no sep s w : In w (getlines sep s) -> ~ In sep w.
Proof. apply (getlinesP sep s). Qed.

(** ** characters *)
Ltac by_ascii c := destruct c as [[] [] [] [] [] [] [] []].
Lemma is_spaceP c : is_space c = true <-> white c.
Proof. split; [by_ascii c; try discriminate; intros _; unfold white; simpl; tauto|].
  intros H; unfold white in H; simpl in H; repeat destruct H as [<-|H]; try reflexivity; destruct H. Qed.
Lemma is_blankP c : is_blank c = true <-> blank c.
Proof. split; [by_ascii c; try discriminate; intros _; unfold blank; simpl; tauto|].
  intros H; unfold blank in H; simpl in H; repeat destruct H as [<-|H]; try reflexivity; destruct H. Qed.
Lemma is_digitP c : is_digit c = true <-> digit c.
Proof. split; [by_ascii c; try discriminate; intros _; unfold digit; simpl; tauto|].
  intros H; unfold digit in H; simpl in H; repeat destruct H as [<-|H]; try reflexivity; destruct H. Qed.
Lemma eq_textP a : forall b, eq_text a b = true <-> a = b.
Proof.
  induction a as [|x a IH]; intros [|y b]; simpl; try (split; [discriminate|discriminate]); [split; reflexivity|].
  rewrite andb_true_iff, IH, Ascii.eqb_eq. split; [intros [-> ->]; reflexivity|intros [= -> ->]; split; reflexivity].
Qed.
Lemma eq_compsP a : forall b, eq_comps a b = true <-> a = b.
Proof.
  induction a as [|x a IH]; intros [|y b]; simpl; try (split; [discriminate|discriminate]); [split; reflexivity|].
  rewrite andb_true_iff, IH, eq_textP. split; [intros [-> ->]; reflexivity|intros [= -> ->]; split; reflexivity].
Qed.
Lemma eq_nodeP a b : eq_node a b = true <-> a = b.
Proof. destruct a as [a x], b as [b y]; unfold eq_node; simpl. rewrite andb_true_iff, eq_compsP, Bool.eqb_true_iff.
  split; [intros [-> ->]; reflexivity|intros [= -> ->]; split; reflexivity]. Qed.

(** ** find, rfind *)
Lemma prefix_ofP p : forall s, prefix_of p s = true <-> exists b, s = p ++ b.
Proof.
  induction p as [|a p IH]; intros s; simpl; [split; [exists s; reflexivity|reflexivity]|].
  destruct s as [|c s]; [split; [discriminate|intros [b E]; discriminate]|].
  rewrite andb_true_iff, IH, Ascii.eqb_eq. split; [intros [-> [b ->]]; exists b; reflexivity|intros [b [= -> ->]]; eauto].
Qed.
Lemma find_some p : forall s i, find p s = Some i ->
  exists a b, s = a ++ p ++ b /\ length a = i /\ forall a' b', s = a' ++ p ++ b' -> i <= length a'.
Proof.
  induction s as [|c s IH]; intros i; cbn [find].
  - destruct (prefix_of p []) eqn:E; [|discriminate]. intros [= <-]. apply prefix_ofP in E as [b E]. exists [], b; repeat split; [assumption|lia].
  - destruct (prefix_of p (c :: s)) eqn:E.
    + intros [= <-]. apply prefix_ofP in E as [b E]. exists [], b; repeat split; [assumption|lia].
    + destruct (find p s) as [j|]; [|discriminate]. intros [= <-].
      destruct (IH j eq_refl) as (a & b & -> & L & M). exists (c :: a), b; repeat split; [simpl; lia|].
      intros [|c' a'] b' E'; [|simpl; injection E' as _ E'; apply M in E'; lia].
      exfalso. assert (prefix_of p (c :: a ++ p ++ b) = true) by (apply prefix_ofP; exists b'; exact E'). congruence.
Qed.
Lemma find_none p : forall s, find p s = None -> forall a b, s <> a ++ p ++ b.
Proof.
  induction s as [|c s IH]; cbn [find].
  - destruct (prefix_of p []) eqn:E; [discriminate|]. intros _ [|x a] b H; [|discriminate].
    assert (prefix_of p [] = true) by (apply prefix_ofP; exists b; exact H). congruence.
  - destruct (prefix_of p (c :: s)) eqn:E; [discriminate|]. destruct (find p s) eqn:F; [discriminate|]. intros _ [|x a] b H.
    + assert (prefix_of p (c :: s) = true) by (apply prefix_ofP; exists b; exact H). congruence.
    + injection H as _ H. exact (IH eq_refl a b H).
Qed.
Lemma find_first p a b : (forall a' b', a ++ p ++ b = a' ++ p ++ b' -> length a <= length a') -> find p (a ++ p ++ b) = Some (length a).
Proof.
  intro H. destruct (find p (a ++ p ++ b)) as [i|] eqn:E.
  - destruct (find_some _ _ _ E) as (a' & b' & E' & <- & M). f_equal. pose proof (H _ _ E'). pose proof (M a b eq_refl). lia.
  - exfalso; exact (find_none _ _ E a b eq_refl).
Qed.
Lemma rfind_none c : forall s, ~ In c s -> rfind c s = None.
Proof.
  induction s as [|a s IH]; intro H; [reflexivity|]. simpl. rewrite IH by (intro; apply H; right; assumption).
  destruct (Ascii.eqb_spec a c) as [->|]; [destruct H; left; reflexivity|reflexivity].
Qed.
Lemma rfind_last c : forall a b, ~ In c b -> rfind c (a ++ c :: b) = Some (length a).
Proof.
  induction a as [|x a IH]; intros b H; simpl; [rewrite rfind_none by assumption; rewrite Ascii.eqb_refl; reflexivity|].
  rewrite IH by assumption; reflexivity.
Qed.
Lemma rfind_some c s i : rfind c s = Some i -> exists a b, s = a ++ c :: b /\ length a = i /\ ~ In c b.
Proof.
  revert i; induction s as [|x s IH]; intro i; simpl; [discriminate|].
  destruct (rfind c s) as [j|] eqn:E.
  - intros [= <-]. destruct (IH j eq_refl) as (a & b & -> & <- & H). exists (x :: a), b; auto.
  - destruct (Ascii.eqb_spec x c) as [->|]; [|discriminate]. intros [= <-]. exists [], s; repeat split.
    clear IH. intro H. revert E. induction s as [|y s IH']; [destruct H|]. simpl.
    destruct (rfind c s) as [j|] eqn:F; [discriminate|]. destruct (Ascii.eqb_spec y c) as [->|N]; [discriminate|].
    intros _. destruct H as [H|H]; [congruence|]. exact (IH' H eq_refl).
Qed.
Lemma firstn_here {A} (a b : list A) : firstn (length a) (a ++ b) = a.
Proof. rewrite firstn_app, Nat.sub_diag, firstn_all. simpl. apply app_nil_r. Qed.
Lemma skipn_here {A} (a b : list A) : skipn (length a) (a ++ b) = b.
Proof. rewrite skipn_app, Nat.sub_diag, skipn_all. reflexivity. Qed.

(** ** checkPathString *)
Fixpoint squeeze (s : text) : text :=
  match s with
  | a :: r => match r with b :: _ => if (a =? slash)%char && (b =? slash)%char then squeeze r else a :: squeeze r | [] => [a] end
  | [] => []
  end.
Lemma squeeze_cons a r : squeeze (a :: r) = if (a =? slash)%char && prefix_of [slash] r then squeeze r else a :: squeeze r.
Proof. destruct r as [|b r]; [simpl; rewrite andb_false_r; reflexivity|]. cbn [squeeze prefix_of]. rewrite andb_true_r.
  rewrite (Ascii.eqb_sym slash b); reflexivity. Qed.
Lemma squeeze_hd c r : prefix_of [c] (squeeze r) = prefix_of [c] r.
Proof.
  induction r as [|a r IH]; [reflexivity|]. rewrite squeeze_cons.
  destruct ((a =? slash)%char && prefix_of [slash] r) eqn:A; [|reflexivity]. rewrite IH.
  apply andb_true_iff in A as [A P]. apply Ascii.eqb_eq in A as ->. destruct r as [|b r]; [discriminate|].
  cbn [prefix_of] in *. rewrite andb_true_r in P. apply Ascii.eqb_eq in P as <-. reflexivity.
Qed.
Lemma squeeze_replace : forall a b, squeeze (a ++ slash :: slash :: b) = squeeze (a ++ slash :: b).
Proof.
  induction a as [|x a IH]; intro b; [reflexivity|]. cbn [app]. rewrite !squeeze_cons, IH.
  replace (prefix_of [slash] (a ++ slash :: slash :: b)) with (prefix_of [slash] (a ++ slash :: b)); [reflexivity|].
  destruct a; reflexivity.
Qed.
Lemma squeeze_id s : find [slash; slash] s = None -> squeeze s = s.
Proof.
  induction s as [|a s IH]; [reflexivity|]. cbn [find]. destruct (prefix_of [slash; slash] (a :: s)) eqn:E; [discriminate|].
  destruct (find [slash; slash] s); [discriminate|]. intros _. rewrite squeeze_cons, IH by reflexivity.
  assert (((a =? slash)%char && prefix_of [slash] s) = false) as ->; [|reflexivity].
  rewrite <- E. change (prefix_of [slash; slash] (a :: s)) with ((slash =? a)%char && prefix_of [slash] s). rewrite Ascii.eqb_sym; reflexivity.
Qed.
Lemma squeeze_no s : find [slash; slash] (squeeze s) = None.
Proof.
  induction s as [|a s IH]; [reflexivity|]. rewrite squeeze_cons. destruct ((a =? slash)%char && prefix_of [slash] s) eqn:E; [exact IH|].
  cbn [find]. change (prefix_of [slash; slash] (a :: squeeze s)) with ((slash =? a)%char && prefix_of [slash] (squeeze s)).
  rewrite squeeze_hd, Ascii.eqb_sym, E, IH. reflexivity.
Qed.
Lemma check_loopE : forall n s, length s < n -> check_loop n s = Some (squeeze s).
Proof.
  induction n as [|n IH]; intros s L; [lia|]. cbn [check_loop].
  destruct (find [slash; slash] s) as [i|] eqn:F; [|rewrite squeeze_id by assumption; reflexivity].
  destruct (find_some _ _ _ F) as (a & b & -> & <- & _). rewrite firstn_here.
  replace (length a + 2) with (length (a ++ [slash; slash])) by (rewrite app_length; reflexivity).
  rewrite (app_assoc a [slash; slash] b), skipn_here. rewrite IH.
  - rewrite <- app_assoc. cbn [app]. rewrite squeeze_replace; reflexivity.
  - rewrite !app_length in *; simpl in *; lia.
Qed.
Lemma checkPathStringE s : checkPathString s = Some (squeeze s).
Proof. apply check_loopE; lia. Qed.

(** ** getTokens *)
Definition keep (w : text) (ws : list text) : list text := match w with [] => ws | _ => w :: ws end.
Lemma tokens_loopE d : d <> [] -> forall s ps, splits d s ps -> forall pre acc n, length s < n ->
  tokens_loop n d (length pre) (pre ++ s) acc = Some (acc ++ filter nonempty ps).
Proof.
  intros D s ps S. induction S as [s H|a r ps H S IH]; intros pre acc n L.
  - destruct n as [|n]; [lia|]. cbn [tokens_loop]. rewrite skipn_here.
    destruct (find d s) as [i|] eqn:F; [destruct (find_some _ _ _ F) as (a & b & E & _); destruct (H _ _ E)|].
    rewrite Nat.ltb_irrefl. cbn [andb]. unfold substr. rewrite skipn_here, app_length.
    replace (length pre + length s - length pre) with (length s) by lia. rewrite firstn_all.
    destruct s; cbn [filter nonempty]; [rewrite app_nil_r|]; reflexivity.
  - destruct n as [|n]; [lia|]. cbn [tokens_loop]. rewrite skipn_here, (find_first _ _ _ H).
    unfold substr. rewrite skipn_here. replace (length pre + length a - length pre) with (length a) by lia. rewrite firstn_here.
    assert (DL : 0 < length d) by (destruct d; [contradiction|simpl; lia]).
    assert (E : length (pre ++ a ++ d ++ r) = length pre + length a + length d + length r) by (rewrite !app_length; lia).
    replace (length pre + length a <? length (pre ++ a ++ d ++ r)) with true by (symmetry; apply Nat.ltb_lt; lia).
    cbn [andb].
    assert (K : (match a with [] => acc | _ => acc ++ [a] end) ++ filter nonempty ps = acc ++ filter nonempty (a :: ps)).
    { clear. destruct a; cbn [filter nonempty]; [reflexivity|]. rewrite <- app_assoc; reflexivity. }
    destruct (length pre + length a + length d <? length (pre ++ a ++ d ++ r)) eqn:C.
    + replace (length pre + length a + length d) with (length (pre ++ a ++ d)) by (rewrite !app_length; lia).
      replace (pre ++ a ++ d ++ r) with ((pre ++ a ++ d) ++ r) by (rewrite <- !app_assoc; reflexivity).
      rewrite IH; [f_equal; rewrite <- K; destruct a; reflexivity|]. rewrite !app_length in L; lia.
    + apply Nat.ltb_ge in C. assert (r = []) by (destruct r; [reflexivity|simpl in *; lia]). subst r.
      rewrite <- K. assert (ps = [[]]) as ->; [|cbn [filter nonempty]; rewrite app_nil_r; destruct a; reflexivity].
      inversion S as [|a0 r0 ps0 _ _ Q]; [reflexivity|]. destruct a0; [|discriminate]. destruct d; [contradiction|discriminate].
Qed.
Lemma splits_exist d : d <> [] -> forall n s, length s <= n -> exists ps, splits d s ps.
Proof.
  intro D. assert (DL : 0 < length d) by (destruct d; [contradiction|simpl; lia]).
  induction n as [|n IH]; intros s L.
  - destruct s; [|simpl in L; lia]. exists [[]]. constructor. intros [|x a] b E; [|discriminate]. destruct d; [contradiction|discriminate].
  - destruct (find d s) as [i|] eqn:F.
    + destruct (find_some _ _ _ F) as (a & b & -> & <- & M). rewrite !app_length in L.
      destruct (IH b) as [ps P]; [lia|]. exists (a :: ps). constructor; assumption.
    + exists [s]. constructor. apply find_none; assumption.
Qed.
Lemma splits_ch c : forall s ps, splits [c] s ps -> filter nonempty ps = filter nonempty (getlines c s).
Proof.
  intros s ps S. induction S as [s H|a r ps H S IH].
  - rewrite getlines_last; [destruct s; reflexivity|]. intro I. apply in_split in I as (a & b & E). exact (H a b E).
  - change (a ++ [c] ++ r) with (a ++ c :: r). rewrite getlines_line; [cbn [filter]; rewrite IH; reflexivity|].
    intro I. apply in_split in I as (a' & b & E). specialize (H a' (b ++ [c] ++ r)).
    rewrite E in H. rewrite <- app_assoc in H. specialize (H eq_refl). rewrite app_length in H. simpl in H. lia.
Qed.
Lemma getTokens_ch s c : getTokens s [c] = Some (filter nonempty (getlines c s)).
Proof.
  destruct (splits_exist [c] ltac:(discriminate) (length s) s (le_n _)) as [ps Sp].
  change (getTokens s [c]) with (tokens_loop (S (length s)) [c] (length (@nil ascii)) ([] ++ s) []).
  rewrite (tokens_loopE [c] ltac:(discriminate) s ps Sp [] [] (S (length s))) by lia. cbn [app]. rewrite (splits_ch c s ps Sp). reflexivity.
Qed.

(** ** words *)
Lemma words_from_word w : forall cur s, Forall (fun c => ~ white c) w ->
  words_from cur (w ++ s) = words_from (match cur, w with None, [] => None | None, _ => Some w | Some v, _ => Some (v ++ w) end) s.
Proof.
  induction w as [|c w IH]; intros cur s H; simpl.
  - destruct cur; [rewrite app_nil_r|]; reflexivity.
  - inversion_clear H as [|? ? N F]. destruct (is_space c) eqn:E; [apply is_spaceP in E; contradiction|].
    rewrite IH by assumption. destruct cur; cbn [app]; [rewrite <- app_assoc|]; reflexivity.
Qed.
Lemma words_from_skip u s : Forall white u -> words_from None (u ++ s) = words_from None s.
Proof. induction u as [|c u IH]; intro H; [reflexivity|]. inversion_clear H. simpl. rewrite (proj2 (is_spaceP c)) by assumption. apply IH; assumption. Qed.
Lemma getWordsE s ws : words white s ws -> getWords s = ws.
Proof.
  unfold getWords. induction 1 as [s H|u w r ws U N W R S IH].
  - rewrite <- (app_nil_r s), words_from_skip by assumption; reflexivity.
  - rewrite words_from_skip, words_from_word by assumption. destruct w as [|c w]; [contradiction|].
    destruct r as [|x r]; [cbn [words_from] in IH |- *; subst ws; reflexivity|].
    cbn [words_from] in *. rewrite (proj2 (is_spaceP x)) in * by (exact (R _ _ eq_refl)). rewrite IH; reflexivity.
Qed.

(** ** components of a path *)
Lemma comps_cat : forall a b, comps (a ++ slash :: b) = comps a ++ comps b.
Proof.
  intro a. remember (length a) as n eqn:N. revert a N. induction n as [n IH] using lt_wf_ind. intros a -> b. unfold comps.
  destruct (find_sep slash a) as [H|(w & r & -> & H)].
  - rewrite getlines_line by assumption. rewrite (getlines_last slash a H). cbn [filter]. destruct a; reflexivity.
  - rewrite <- app_assoc. cbn [app]. rewrite (getlines_line slash w _ H), (getlines_line slash w _ H). cbn [filter].
    specialize (IH (length r)). unfold comps in IH. rewrite IH; [destruct w; reflexivity| |reflexivity]. rewrite app_length; simpl; lia.
Qed.
Lemma comps_word w : w <> [] -> ~ In slash w -> comps w = [w].
Proof. intros N H. unfold comps. rewrite getlines_last by assumption. destruct w; [contradiction|reflexivity]. Qed.
Lemma comps_in p w : In w (comps p) -> w <> [] /\ ~ In slash w.
Proof. unfold comps. rewrite filter_In. intros [I N]. split; [destruct w; [discriminate|discriminate]|]. exact (getlines_no _ _ _ I). Qed.
Lemma ends_cat a b : b <> [] -> ends_slash (a ++ b) = ends_slash b.
Proof. intro N. unfold ends_slash. rewrite rev_app_distr. destruct (rev b) eqn:E; [|reflexivity].
  apply (f_equal (@rev _)) in E. rewrite rev_involutive in E. contradiction. Qed.
Lemma check_inv {A} (P : text -> A) : (forall a b, P (a ++ slash :: b) = P (a ++ slash :: slash :: b)) -> forall s, P (squeeze s) = P s.
Proof.
  intros H s. pose proof (checkPathStringE s) as E. unfold checkPathString in E. revert E. generalize (squeeze s) as r. generalize (S (length s)) as n. intro n.
  revert s. induction n as [|n IH]; intros s r; [discriminate|]. cbn [check_loop].
  destruct (find [slash; slash] s) as [i|] eqn:F; [|intros [= ->]; reflexivity].
  destruct (find_some _ _ _ F) as (a & b & -> & <- & _). rewrite firstn_here.
  replace (length a + 2) with (length (a ++ [slash; slash])) by (rewrite app_length; reflexivity).
  rewrite (app_assoc a [slash; slash] b), skipn_here, <- app_assoc. intro E. rewrite (IH _ _ E). apply H.
Qed.
