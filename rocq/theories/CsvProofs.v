From Coq Require Import List Ascii Bool Arith ZArith Lia.
From Verif Require Import Outcome TextModel Spec_Text TextProofs.
Import ListNotations.
Local Open Scope outcome_scope.

Section CsvProofs.
Variables (V : Type) (zero : V) (fmt : V -> text) (parse : text -> option V).
Notation table := (table V).
Implicit Types m : table.

Lemma csv_get_set k vs m : csv_get V k (csv_set V k vs m) = Some vs.
Proof.
  unfold csv_get, csv_set. destruct (existsb _ m) eqn:E.
  - induction m as [|[a b] m IH]; [discriminate|]. cbn [existsb fst map List.find] in *. destruct (eq_text a k) eqn:A; cbn [fst].
    + rewrite A. reflexivity.
    + rewrite A. apply IH, E.
  - induction m as [|[a b] m IH]; cbn [app List.find existsb fst] in *; [rewrite (proj2 (eq_textP k k) eq_refl); reflexivity|].
    destruct (eq_text a k); [discriminate|]. apply IH, E.
Qed.
Lemma csv_get_other k k' vs m : k <> k' -> csv_get V k' (csv_set V k vs m) = csv_get V k' m.
Proof.
  intro N. unfold csv_get, csv_set. destruct (existsb _ m).
  - induction m as [|[a b] m IH]; [reflexivity|]. cbn [fst map List.find]. destruct (eq_text a k) eqn:A; cbn [fst].
    + destruct (eq_text a k') eqn:A'; [|exact IH]. apply eq_textP in A. apply eq_textP in A'. congruence.
    + destruct (eq_text a k'); [reflexivity|exact IH].
  - induction m as [|[a b] m IH]; cbn [app List.find fst].
    + destruct (eq_text k k') eqn:A; [apply eq_textP in A; contradiction|reflexivity].
    + destruct (eq_text a k'); [reflexivity|exact IH].
Qed.
Lemma text_dec (a b : text) : {a = b} + {a <> b}.
Proof. destruct (eq_text a b) eqn:E; [left; apply eq_textP, E|right; intro; apply eq_textP in H; congruence]. Qed.

Lemma resize_length n v (vs : list V) : length (resize V n v vs) = n.
Proof. unfold resize. rewrite app_length, firstn_length, repeat_length. lia. Qed.
Lemma resize_id n v (vs : list V) : length vs = n -> resize V n v vs = vs.
Proof. intro L. unfold resize. rewrite <- L, firstn_all, Nat.sub_diag. apply app_nil_r. Qed.
Lemma resize_cut n v (vs : list V) : n <= length vs -> resize V n v vs = firstn n vs.
Proof. intro L. unfold resize. replace (n - length vs) with 0 by lia. apply app_nil_r. Qed.
Lemma fold_resize n : forall hs m k, csv_get V k (fold_left (fun m k => csv_set V k (resize V n zero (csv_at V k m)) m) hs m) =
  if in_dec text_dec k hs then Some (resize V n zero (csv_at V k m)) else csv_get V k m.
Proof.
  induction hs as [|h hs IH]; intros m k; [reflexivity|]. cbn [fold_left]. rewrite IH.
  destruct (in_dec text_dec k hs) as [I|I], (in_dec text_dec k (h :: hs)) as [J|J].
  - unfold csv_at at 1. destruct (text_dec h k) as [->|N]; [rewrite csv_get_set; rewrite resize_id by apply resize_length; reflexivity|].
    rewrite csv_get_other by exact N. reflexivity.
  - destruct J; right; exact I.
  - destruct J as [->|J]; [apply csv_get_set|contradiction].
  - apply csv_get_other. intros ->. apply J; left; reflexivity.
Qed.

Definition lset (i : nat) (v : V) (vs : list V) : list V := firstn i vs ++ v :: skipn (S i) vs.
Lemma vputE v : forall vs i, i < length vs -> vput V i v vs = Ok (lset i v vs).
Proof.
  induction vs as [|x vs IH]; intros i L; [simpl in L; lia|]. destruct i; [reflexivity|]. cbn [vput]. rewrite IH by (simpl in L; lia). reflexivity.
Qed.
Lemma lset_length i v vs : i < length vs -> length (lset i v vs) = length vs.
Proof. intro L. unfold lset. rewrite app_length, firstn_length. cbn [length]. rewrite skipn_length. lia. Qed.
Lemma lset_nth i v vs : i < length vs -> forall k, nth k (lset i v vs) zero = if k =? i then v else nth k vs zero.
Proof.
  revert i; induction vs as [|x vs IH]; intros i L k; [simpl in L; lia|]. destruct i as [|i].
  - destruct k; reflexivity.
  - destruct k as [|k]; [reflexivity|]. change (lset (S i) v (x :: vs)) with (x :: lset i v vs). cbn [nth]. rewrite IH by (simpl in L; lia). reflexivity.
Qed.
Lemma lset_firstn i v vs : i < length vs -> firstn i (lset i v vs) = firstn i vs.
Proof. intro L. unfold lset. rewrite firstn_app, firstn_firstn, firstn_length, Nat.min_id. replace (i - Nat.min i (length vs)) with 0 by lia. apply app_nil_r. Qed.
Definition upd (i : nat) (o : option V) (vs : list V) : list V := match o with Some v => lset i v vs | None => vs end.
Lemma upd_length i o vs : i < length vs -> length (upd i o vs) = length vs.
Proof. destruct o; [apply lset_length|reflexivity]. Qed.

Definition count (n col k : nat) : nat := if col + k <=? n then col + k else S n.
(** all columns have [R] entries *)
Definition safe (hd : list text) (R : nat) m : Prop := forall k, In k hd -> exists vs, csv_get V k m = Some vs /\ length vs = R.
Definition tok (ts : list text) (col j : nat) : option V :=
  if j <? col then None else match nth_error ts (j - col) with Some w => parse w | None => None end.
Lemma read_tokens_ok hd line R : line < R -> forall ts col m, safe hd R m -> col <= length hd ->
  exists m', read_tokens V parse hd line col ts m = Ok (m', count (length hd) col (length ts)) /\ safe hd R m' /\
    (forall k, ~ In k hd -> csv_get V k m' = csv_get V k m) /\
    (NoDup hd -> forall j k vs, nth_error hd j = Some k -> csv_get V k m = Some vs -> csv_get V k m' = Some (upd line (tok ts col j) vs)).
Proof.
  intro L. induction ts as [|w ts IH]; intros col m Sf C.
  - exists m. split; [cbn [read_tokens length]; unfold count; rewrite Nat.add_0_r, (proj2 (Nat.leb_le _ _) C); reflexivity|].
    split; [exact Sf|]. split; [reflexivity|]. intros _ j k vs _ G. unfold tok. destruct (j - col); destruct (j <? col); exact G.
  - cbn [read_tokens]. destruct (nth_error hd col) as [k0|] eqn:K0.
    + assert (I0 : In k0 hd) by exact (nth_error_In _ _ K0). assert (C1 : S col <= length hd) by (apply nth_error_Some; congruence).
      destruct (Sf k0 I0) as (vs0 & G0 & L0).
      set (m1 := match parse w with Some v => csv_set V k0 (lset line v vs0) m | None => m end).
      assert (E1 : (match parse w with Some v => let! vs := vput V line v (csv_at V k0 m) in Ok (csv_set V k0 vs m) | None => Ok m end) = Ok m1).
      { unfold m1. destruct (parse w); [|reflexivity]. unfold csv_at. rewrite G0, vputE by lia. reflexivity. }
      rewrite E1. cbn [obind].
      assert (G1 : csv_get V k0 m1 = Some (upd line (parse w) vs0)) by (unfold m1; destruct (parse w); [apply csv_get_set|exact G0]).
      assert (O1 : forall k, k <> k0 -> csv_get V k m1 = csv_get V k m) by (intros k N; unfold m1; destruct (parse w); [apply csv_get_other; congruence|reflexivity]).
      assert (S1 : safe hd R m1).
      { intros k I. destruct (text_dec k k0) as [->|N]; [eexists; split; [exact G1|rewrite upd_length; lia]|rewrite (O1 k N); exact (Sf k I)]. }
      destruct (IH (S col) m1 S1 C1) as (m' & E & S' & O' & T'). exists m'. split; [|split; [exact S'|split]].
      * rewrite E. unfold count. cbn [length]. rewrite <- plus_n_Sm. reflexivity.
      * intros k N. rewrite (O' k N). apply O1. intros ->. exact (N I0).
      * intros ND j k vs J G. unfold tok. destruct (text_dec k k0) as [->|N].
        -- assert (j = col) as -> by (apply (NoDup_nth_error hd); [exact ND|apply nth_error_Some; congruence|congruence]).
           rewrite Nat.ltb_irrefl, Nat.sub_diag. cbn [nth_error]. rewrite (T' ND col k0 _ K0 G1). unfold tok.
           replace (col <? S col) with true by (symmetry; apply Nat.ltb_lt; lia). cbn [upd]. congruence.
        -- rewrite (T' ND j k vs J); [|rewrite (O1 k N); exact G]. unfold tok. f_equal. f_equal.
           assert (j <> col) by congruence. destruct (Nat.ltb_spec j col), (Nat.ltb_spec j (S col)); try lia; [reflexivity|].
           replace (j - col) with (S (j - S col)) by lia. reflexivity.
    + assert (col = length hd) by (apply nth_error_None in K0; lia). subst col.
      exists m. split; [unfold count; cbn [length]; rewrite (proj2 (Nat.leb_gt _ _)) by lia; reflexivity|].
      split; [exact Sf|]. split; [reflexivity|]. intros ND j k vs J G. unfold tok.
      rewrite (proj2 (Nat.ltb_lt _ _)) by (apply nth_error_Some; congruence). exact G.
Qed.

Lemma number_tok ts j p : number V parse j ts p = match tok ts 0 j with Some v => v | None => p end.
Proof. unfold number, tok. cbn [Nat.ltb Nat.leb]. rewrite Nat.sub_0_r. destruct (@nth_error (list ascii) ts j); reflexivity. Qed.
Lemma read_lines_ok delim hd R : forall ls line m, safe hd R m -> line + length ls <= R ->
  exists m' n, read_lines V parse delim hd line ls m = Ok (m', n) /\ safe hd R m' /\ n <= R /\
    n = line + length (filter (fun l => length (getlines delim l) =? length hd) ls) /\
    (forall k, ~ In k hd -> csv_get V k m' = csv_get V k m) /\
    (NoDup hd -> forall j k vs, nth_error hd j = Some k -> csv_get V k m = Some vs -> (forall i, line < i -> nth i vs zero = zero) ->
      exists vs', csv_get V k m' = Some vs' /\
        firstn n vs' = firstn line vs ++ cells V zero parse (length hd) j (nth line vs zero) (map (getlines delim) ls)).
Proof.
  induction ls as [|l ls IH]; intros line m Sf L.
  - cbn [length] in L. exists m, line. repeat split; auto; try lia. intros _ j k vs _ G _. exists vs. split; [exact G|]. symmetry; apply app_nil_r.
  - cbn [length] in L. cbn [read_lines].
    destruct (read_tokens_ok hd line R ltac:(lia) (getlines delim l) 0 m Sf (Nat.le_0_l _)) as (m1 & E1 & S1 & O1 & T1).
    rewrite E1. cbn [obind].
    assert (Q : (count (length hd) 0 (length (getlines delim l)) =? length hd) = (length (getlines delim l) =? length hd)).
    { unfold count. cbn [Nat.add]. destruct (Nat.leb_spec (length (getlines delim l)) (length hd)); [reflexivity|].
      rewrite (proj2 (Nat.eqb_neq (S (length hd)) _)) by lia. symmetry. apply Nat.eqb_neq. lia. }
    rewrite Q. cbn [filter map cells].
    assert (ST : NoDup hd -> forall j k vs, nth_error hd j = Some k -> csv_get V k m = Some vs -> (forall i, line < i -> nth i vs zero = zero) ->
      exists vs1, csv_get V k m1 = Some vs1 /\ firstn line vs1 = firstn line vs /\ length vs1 = R /\
        nth line vs1 zero = number V parse j (getlines delim l) (nth line vs zero) /\ (forall i, line < i -> nth i vs1 zero = zero)).
    { intros ND j k vs J G Z. rewrite (T1 ND j k vs J G). eexists; split; [reflexivity|].
      destruct (Sf k (nth_error_In _ _ J)) as (vs0 & G0 & L0). assert (vs0 = vs) by congruence. subst vs0.
      rewrite number_tok. destruct (tok (getlines delim l) 0 j) as [v|]; cbn [upd].
      - split; [apply lset_firstn; lia|]. split; [rewrite lset_length; lia|]. split; [rewrite lset_nth by lia; rewrite Nat.eqb_refl; reflexivity|].
        intros i I. rewrite lset_nth by lia. rewrite (proj2 (Nat.eqb_neq i line)) by lia. apply Z, I.
      - auto. }
    destruct (length (getlines delim l) =? length hd) eqn:K; cbn [negb].
    + destruct (IH (S line) m1 S1 ltac:(lia)) as (m' & n & E & S' & Ln & N & O & T). exists m', n. split; [exact E|]. split; [exact S'|]. split; [exact Ln|].
      split; [cbn [length]; lia|]. split; [intros k I; rewrite (O k I); exact (O1 k I)|].
      intros ND j k vs J G Z. destruct (ST ND j k vs J G Z) as (vs1 & G1 & F1 & L1 & P1 & Z1).
      destruct (T ND j k vs1 J G1) as (vs' & G' & F'); [intros i I; apply Z1; lia|]. exists vs'. split; [exact G'|]. rewrite F'.
      rewrite (Z1 (S line)) by lia. rewrite <- P1.
      assert (X : firstn (S line) vs1 = firstn line vs1 ++ [nth line vs1 zero]).
      { clear - L1 L. assert (H : line < length vs1) by lia. clear L L1. revert line H. induction vs1 as [|x vs1 IH]; intros line H; [simpl in H; lia|].
        destruct line; [reflexivity|]. rewrite !firstn_cons, IH by (simpl in H; lia). reflexivity. }
      rewrite X, F1, <- app_assoc. reflexivity.
    + destruct (IH line m1 S1 ltac:(lia)) as (m' & n & E & S' & Ln & N & O & T). exists m', n. split; [exact E|]. split; [exact S'|]. split; [exact Ln|].
      split; [exact N|]. split; [intros k I; rewrite (O k I); exact (O1 k I)|].
      intros ND j k vs J G Z. destruct (ST ND j k vs J G Z) as (vs1 & G1 & F1 & L1 & P1 & Z1).
      destruct (T ND j k vs1 J G1 Z1) as (vs' & G' & F'). exists vs'. split; [exact G'|]. rewrite F', F1, P1. reflexivity.
Qed.

(** ** the header *)
Lemma find_blank u c r : Forall blank u -> ~ blank c -> List.find (fun c => negb (is_blank c)) (u ++ c :: r) = Some c.
Proof.
  intros U N. induction U as [|x u X _ IH]; cbn [app List.find].
  - destruct (is_blank c) eqn:E; [apply is_blankP in E; contradiction|reflexivity].
  - rewrite (proj2 (is_blankP x) X). exact IH.
Qed.
Lemma find_blank_none u : Forall blank u -> List.find (fun c => negb (is_blank c)) u = None.
Proof. induction 1 as [|x u X _ IH]; [reflexivity|]. cbn [List.find]. rewrite (proj2 (is_blankP x) X). exact IH. Qed.
Lemma check_header l r : header_line l -> check_for_header (l :: r) = let! n := check_for_header r in Ok (S n).
Proof.
  intros (u & c & t & -> & U & N & D & M & P). cbn [check_for_header]. rewrite find_blank by assumption.
  destruct (is_digit c) eqn:E; [apply is_digitP in E; contradiction|].
  destruct (Ascii.eqb_spec c minus); [contradiction|]. destruct (Ascii.eqb_spec c plus); [contradiction|]. reflexivity.
Qed.
Lemma check_value l r : value_line l -> check_for_header (l :: r) = Ok 0.
Proof.
  intros (u & c & t & -> & U & D). cbn [check_for_header].
  assert (N : ~ blank c).
  { rewrite <- is_blankP. destruct D as [D|[->| ->]]; [|discriminate|discriminate]. unfold digit in D; simpl in D. repeat (destruct D as [<-|D]; [discriminate|]). destruct D. }
  rewrite find_blank by assumption. destruct D as [D|[->| ->]]; [rewrite (proj2 (is_digitP c) D); reflexivity|reflexivity|reflexivity].
Qed.
Lemma check_headers hs r : Forall header_line hs -> check_for_header (hs ++ r) = let! n := check_for_header r in Ok (length hs + n).
Proof.
  induction 1 as [|h hs H _ IH]; [cbn [app length Nat.add]; destruct (check_for_header r); reflexivity|].
  cbn [app]. rewrite check_header, IH by assumption. destruct (check_for_header r); reflexivity.
Qed.
Definition strip (w : text) : text := filter (fun c => negb (is_space c)) w.
End CsvProofs.
