(** C91: CSV files.  The code is TextModel (utils/CSVTool.cpp); the vocabulary is Spec_Text.  Doubles, their output with 16 digits and their
    input are parameters. *)
From Coq Require Import String List Ascii Bool Arith ZArith Lia.
From Verif Require Import Outcome TextModel Spec_Text TextProofs FsProofs CsvProofs Props_Text Props_Fs.
Import ListNotations.
Local Open Scope outcome_scope.
Local Open Scope list_scope.

(** a header cell without its white space *)
Definition without_white (w v : text) : Prop := exists p, (forall c, p c = false <-> white c) /\ v = filter p w.

Section Csv.
Variables (V : Type) (zero : V) (fmt : V -> text) (parse : text -> option V).
Notation table := (table V).
Notation read := (read_table V zero parse).
Notation get := (csv_get V).

Lemma strip_without w v : without_white w v -> v = strip w.
Proof.
  intros (p & P & ->). unfold strip. apply filter_ext. intro c. destruct (is_space c) eqn:E; cbn [negb].
  - apply P, is_spaceP, E.
  - destruct (p c) eqn:Q; [reflexivity|]. apply P, is_spaceP in Q. congruence.
Qed.
Lemma without_strip w : without_white w (strip w).
Proof. exists (fun c => negb (is_space c)). split; [|reflexivity]. intro c. rewrite <- is_spaceP. destruct (is_space c); cbn [negb]; split; congruence. Qed.

(** every line is a line of values, belongs to the header or has only blanks *)
Theorem C91_lines l : value_line l \/ header_line l \/ Forall blank l.
Proof.
  induction l as [|c l IH]; [right; right; constructor|].
  destruct (is_blank c) eqn:B.
  - apply is_blankP in B. destruct IH as [(u & x & r & -> & U & D)|[(u & x & r & -> & U & D)|U]].
    + left. exists (c :: u), x, r. repeat split; [constructor; assumption|exact D].
    + right; left. exists (c :: u), x, r. repeat split; [constructor; assumption|apply D|apply D|apply D|apply D].
    + right; right. constructor; assumption.
  - assert (NB : ~ blank c) by (rewrite <- is_blankP; congruence).
    destruct (is_digit c) eqn:D; [left; exists [], c, l; repeat split; [constructor|left; apply is_digitP, D]|].
    destruct (Ascii.eqb_spec c minus) as [->|N1]; [left; exists [], minus, l; repeat split; [constructor|right; left; reflexivity]|].
    destruct (Ascii.eqb_spec c plus) as [->|N2]; [left; exists [], plus, l; repeat split; [constructor|right; right; reflexivity]|].
    right; left. exists [], c, l. repeat split; [constructor|exact NB|rewrite <- is_digitP; congruence|exact N1|exact N2].
Qed.

(** *** reading *)
(** the header is the last line before the first line of values (of the whole file if there is none); a file that starts with values, or is empty,
    is not read.  The names are the cells of the header between commas, without white space.  Whatever the lines of values contain, reading does
    not leave the bounds of the table; the columns are those names, each with one entry for every line that has as many cells as there are names.
    If the names differ, the entries are [cells] *)
Theorem C91_read delim s hs h ds cs names rows :
  lines_of "010"%char s (hs ++ h :: ds) -> Forall header_line hs -> header_line h -> (forall l r, ds = l :: r -> value_line l) ->
  lines_of ","%char h cs -> Forall2 without_white cs names -> Forall2 (lines_of delim) ds rows ->
  exists m, read delim s = Ok (Some m) /\
    (forall k, In k names -> exists vs, get k m = Some vs /\ length vs = length (filter (fun r => length r =? length names) rows)) /\
    (forall k, ~ In k names -> get k m = None) /\
    (NoDup names -> forall j k, nth_error names j = Some k -> get k m = Some (cells V zero parse (length names) j zero rows)).
Proof.
  intros Ls Hs Hh Hd Lh Wn Lr. unfold read_table.
  assert (EL : getlines nl s = hs ++ h :: ds) by (apply lines_ofE; exact Ls). rewrite EL.
  assert (EF : check_for_header (hs ++ h :: ds) = Ok (S (length hs))).
  { change (h :: ds) with ([h] ++ ds). rewrite app_assoc, check_headers by (apply Forall_app; split; [exact Hs|constructor; [exact Hh|constructor]]).
    rewrite app_length. cbn [length]. destruct ds as [|l r]; [cbn [check_for_header obind]; f_equal; lia|].
    rewrite check_value by (exact (Hd l r eq_refl)). cbn [obind]. f_equal; lia. }
  rewrite EF. cbn [obind]. cbn [Nat.ltb Nat.leb]. rewrite Nat.sub_succ, Nat.sub_0_r.
  assert (EH : get_header comma (hs ++ h :: ds) (length hs) = names).
  { unfold get_header. rewrite app_nth2, Nat.sub_diag by lia. cbn [nth]. unfold comma. rewrite (lines_ofE _ _ _ Lh).
    clear - Wn. induction Wn as [|w v ws vs W _ IH]; [reflexivity|]. cbn [map]. rewrite IH, (strip_without w v W). reflexivity. }
  rewrite EH.
  assert (ER : map (getlines delim) ds = rows).
  { clear - Lr. induction Lr as [|l r ls rs L _ IH]; [reflexivity|]. cbn [map]. rewrite IH, (lines_ofE _ _ _ L). reflexivity. }
  assert (ED : skipn (S (length hs)) (hs ++ h :: ds) = ds).
  { replace (S (length hs)) with (length (hs ++ [h])) by (rewrite app_length; simpl; lia). change (h :: ds) with ([h] ++ ds). rewrite app_assoc. apply skipn_here. }
  rewrite ED.
  set (R := length (hs ++ h :: ds) - 1). set (m0 := fold_left (fun m k => csv_set V k (resize V R zero (csv_at V k m)) m) names []).
  assert (G0 : forall k, get k m0 = if in_dec text_dec k names then Some (repeat zero R) else None).
  { intro k. unfold m0. rewrite fold_resize. change (csv_at V k []) with (@nil V). unfold resize. rewrite firstn_nil. cbn [length app]. rewrite Nat.sub_0_r. reflexivity. }
  assert (S0 : safe V names R m0).
  { intros k I. rewrite G0. destruct (in_dec text_dec k names); [|contradiction]. eexists; split; [reflexivity|apply repeat_length]. }
  destruct (read_lines_ok V zero parse delim names R ds 0 m0 S0) as (m & n & -> & Sm & Ln & N & O & Tn).
  { unfold R. rewrite app_length. simpl. lia. }
  cbn [obind]. eexists. split; [reflexivity|].
  assert (EN : n = length (filter (fun r => length r =? length names) rows)).
  { rewrite N, <- ER. clear. cbn [Nat.add]. induction ds as [|l ds IH]; [reflexivity|]. cbn [filter map]. destruct (_ =? _); cbn [length]; rewrite IH; reflexivity. }
  split; [|split].
  - intros k I. rewrite fold_resize. destruct (in_dec text_dec k names); [|contradiction]. eexists; split; [reflexivity|]. rewrite resize_length. exact EN.
  - intros k I. rewrite fold_resize. destruct (in_dec text_dec k names); [contradiction|]. rewrite (O k I), G0. destruct (in_dec text_dec k names); [contradiction|reflexivity].
  - intros ND j k J. rewrite fold_resize. assert (I : In k names) by exact (nth_error_In _ _ J). destruct (in_dec text_dec k names); [|contradiction].
    destruct (Tn ND j k (repeat zero R) J) as (vs' & G' & F').
    { rewrite G0. destruct (in_dec text_dec k names); [reflexivity|contradiction]. }
    { intros x _. apply nth_repeat. }
    unfold csv_at. rewrite G'. destruct (Sm k I) as (vs2 & G2 & L2). assert (vs2 = vs') by congruence. subst vs2.
    rewrite resize_cut by lia. rewrite F', nth_repeat, ER. reflexivity.
Qed.
(** nothing to read: no line, or the first line is a line of values *)
Theorem C91_no_header delim s ls : lines_of "010"%char s ls -> (forall l r, ls = l :: r -> value_line l) -> read delim s = Ok None.
Proof.
  intros L H. unfold read_table. change nl with "010"%char. rewrite (lines_ofE _ _ _ L).
  destruct ls as [|l r]; [reflexivity|]. rewrite check_value by (exact (H l r eq_refl)). reflexivity.
Qed.
(** a line of blanks, or an empty line, before the first line of values: the search for the header reads outside of the line *)
Theorem C91_blank_line delim s hs b ls : lines_of "010"%char s (hs ++ b :: ls) -> Forall header_line hs -> Forall blank b -> read delim s = UB EndIterDeref.
Proof.
  intros L H B. unfold read_table. change nl with "010"%char. rewrite (lines_ofE _ _ _ L), check_headers by exact H.
  cbn [check_for_header]. rewrite find_blank_none by exact B. reflexivity.
Qed.

(** *** writing *)
Notation row := (write_row V fmt).
Lemma joinE sep ws : join sep ws = separated sep ws.
Proof. induction ws as [|w [|w2 ws] IH]; [reflexivity|reflexivity|]. cbn [join separated] in *. rewrite IH. reflexivity. Qed.
Lemma write_rowE i : forall cols : table, (forall k vs, In (k, vs) cols -> i < length vs) -> row i cols = Ok (map (fun c => fmt (nth i (snd c) zero)) cols).
Proof.
  induction cols as [|[k vs] cols IH]; intro H; [reflexivity|]. cbn [write_row map snd].
  destruct (nth_error vs i) as [v|] eqn:E; [|apply nth_error_None in E; specialize (H k vs (or_introl eq_refl)); lia].
  rewrite IH by (intros; apply (H k0 vs0); right; assumption). rewrite (nth_error_nth _ _ zero E). reflexivity.
Qed.
Lemma write_row_bad i : forall cols : table, (exists k vs, In (k, vs) cols /\ length vs <= i) -> row i cols = UB EndIterDeref.
Proof.
  induction cols as [|[k vs] cols IH]; intros (k' & vs' & I & L); [destruct I|]. cbn [write_row].
  destruct (nth_error vs i) as [v|] eqn:E; [|reflexivity]. rewrite IH; [reflexivity|].
  destruct I as [[= <- <-]|I]; [apply nth_error_None in L; congruence|eauto].
Qed.
Definition row_text (delim : ascii) (cols : table) (i : nat) : text := separated delim (map (fun c => fmt (nth i (snd c) zero)) cols).
Lemma write_rowsE delim cols : forall n i, (forall k vs, In (k, vs) cols -> i + n <= length vs) ->
  write_rows V fmt delim i n cols = Ok (unlines nl (map (row_text delim cols) (seq i n))).
Proof.
  induction n as [|n IH]; intros i H; [reflexivity|]. cbn [write_rows]. rewrite write_rowE by (intros k vs I; specialize (H k vs I); lia).
  cbn [obind]. rewrite IH by (intros k vs I; specialize (H k vs I); lia). cbn [obind seq map]. unfold unlines. cbn [map concat].
  rewrite joinE, <- app_assoc. reflexivity.
Qed.
Lemma write_row_cases i : forall cols : table, (exists ws, row i cols = Ok ws) \/ row i cols = UB EndIterDeref.
Proof.
  induction cols as [|[k vs] cols IH]; [left; eexists; reflexivity|]. cbn [write_row]. destruct (nth_error vs i); [|right; reflexivity].
  destruct IH as [[ws ->]| ->]; [left; eexists; reflexivity|right; reflexivity].
Qed.
Lemma write_rows_bad delim cols k vs : In (k, vs) cols -> forall n i, i <= length vs -> length vs < i + n -> write_rows V fmt delim i n cols = UB EndIterDeref.
Proof.
  intro I. induction n as [|n IH]; intros i L L'; [lia|]. cbn [write_rows].
  destruct (Nat.eq_dec (length vs) i) as [E|E]; [rewrite write_row_bad; [reflexivity|exists k, vs; split; [exact I|lia]]|].
  destruct (write_row_cases i cols) as [[ws ->]| ->]; [|reflexivity]. cbn [obind]. rewrite IH by lia. reflexivity.
Qed.
(** the written text: one line of names and one line per row of the first column, the cells separated by the delimiter.  A table without columns
    gives an empty file; if a column is shorter than the first one its end is passed *)
Theorem C91_write delim (cols : table) : match cols with
  | [] => write_table V fmt delim cols = Ok []
  | (_, vs0) :: _ =>
      ((forall k vs, In (k, vs) cols -> length vs0 <= length vs) ->
        write_table V fmt delim cols = Ok (unlines "010"%char (separated delim (map fst cols) ::
          map (fun i => separated delim (map (fun c => fmt (nth i (snd c) zero)) cols)) (seq 0 (length vs0))))) /\
      (forall k vs, In (k, vs) cols -> length vs < length vs0 -> write_table V fmt delim cols = UB EndIterDeref)
  end.
Proof.
  destruct cols as [|[k0 vs0] cols]; [reflexivity|]. split.
  - intro H. unfold write_table. rewrite (write_rowsE delim _ (length vs0) 0 H). cbn [obind]. rewrite joinE. unfold unlines. cbn [map concat]. rewrite <- app_assoc. reflexivity.
  - intros k vs I L. unfold write_table. rewrite (write_rows_bad delim _ k vs I) by lia. reflexivity.
Qed.

(** *** reading what was written *)
(** a name the reader takes as it is *)
Definition name_ok (k : text) : Prop := k <> [] /\ ~ In ","%char k /\ forall c, In c k -> ~ white c.
(** the contract of output and input: a value is written as a token that starts with a digit or a sign, without delimiter and end of line, and is
    read as [r] of it *)
Definition written (delim : ascii) (r : V -> V) (v : V) : Prop :=
  value_line (fmt v) /\ ~ In delim (fmt v) /\ ~ In "010"%char (fmt v) /\ parse (fmt v) = Some (r v).

Lemma separated_no c sep ws : c <> sep -> (forall w, In w ws -> ~ In c w) -> ~ In c (separated sep ws).
Proof.
  intros N. induction ws as [|w [|w2 ws] IH]; intros H; [intros []|apply H; left; reflexivity|].
  cbn [separated]. rewrite in_app_iff. intros [I|[I|I]]; [exact (H w (or_introl eq_refl) I)|congruence|].
  apply IH in I; [exact I|]. intros; apply H; right; assumption.
Qed.
Lemma separated_lines sep ws : (forall w, In w ws -> w <> [] /\ ~ In sep w) -> lines_of sep (separated sep ws) ws.
Proof.
  intro H. split; [intros w I; apply H, I|]. destruct ws as [|w ws _] using rev_ind; [left; reflexivity|].
  right. exists ws, w. split; [reflexivity|]. split; [apply H, in_or_app; right; left; reflexivity|].
  clear H. induction ws as [|x ws IH]; [reflexivity|]. unfold unlines in *. cbn [map concat]. rewrite <- !app_assoc, <- IH.
  cbn [app]. destruct (ws ++ [w]) eqn:E; [apply app_eq_nil in E as [_ E]; discriminate|]. cbn [separated]. reflexivity.
Qed.
Lemma value_app w r : value_line w -> value_line (w ++ r).
Proof. intros (u & c & t & -> & U & D). exists u, c, (t ++ r). rewrite <- app_assoc. auto. Qed.
Lemma separated_head sep w ws : exists r, separated sep (w :: ws) = w ++ r.
Proof. destruct ws; [exists []; symmetry; apply app_nil_r|eexists; reflexivity]. Qed.
Lemma name_header k r : name_ok k -> ~ value_line k -> header_line (k ++ r).
Proof.
  intros (N & _ & W) NV. destruct k as [|c k]; [contradiction|]. exists [], c, (k ++ r). split; [reflexivity|]. split; [constructor|].
  assert (NB : ~ blank c) by (intro B; apply (W c (or_introl eq_refl)); unfold blank, white in *; simpl in *; tauto). split; [exact NB|].
  assert (G : ~ (digit c \/ c = "-"%char \/ c = "+"%char)) by (intro D; apply NV; exists [], c, k; split; [reflexivity|]; split; [constructor|exact D]). tauto.
Qed.
Lemma value_ne w : value_line w -> w <> [].
Proof. intros (u & c & t & -> & _) E. apply app_eq_nil in E as [_ E]. discriminate. Qed.
Lemma name_strip k : name_ok k -> without_white k k.
Proof.
  intros (_ & _ & W). exists (fun c => negb (is_space c)). split; [intro c; rewrite <- is_spaceP; destruct (is_space c); cbn [negb]; split; congruence|].
  symmetry. induction k as [|c k IH]; [reflexivity|]. cbn [filter]. rewrite IH by (intros; apply W; right; assumption).
  destruct (is_space c) eqn:E; [|reflexivity]. apply is_spaceP in E. destruct (W c (or_introl eq_refl) E).
Qed.
Lemma cells_rows (r : V -> V) (cols : table) n j k vs : nth_error cols j = Some (k, vs) -> length vs = n -> (forall v, In v vs -> parse (fmt v) = Some (r v)) ->
  forall i, cells V zero parse (length cols) j zero (map (fun i => map (fun c => fmt (nth i (snd c) zero)) cols) (seq i (n - i))) = map r (skipn i vs).
Proof.
  intros J L P i. remember (n - i) as q eqn:Q. revert i Q. induction q as [|q IH]; intros i Q.
  - rewrite skipn_all2 by lia. reflexivity.
  - cbn [seq map cells]. rewrite map_length, Nat.eqb_refl. rewrite IH by lia. unfold number. rewrite nth_error_map, J. cbn [option_map snd].
    assert (SK : skipn i vs = nth i vs zero :: skipn (S i) vs).
    { clear - L Q. assert (H : i < length vs) by lia. clear L Q. revert i H. induction vs as [|x vs IH]; intros i H; [simpl in H; lia|]. destruct i; [reflexivity|].
      cbn [nth]. change (skipn (S i) (x :: vs)) with (skipn i vs). rewrite IH by (simpl in H; lia). reflexivity. }
    rewrite SK, P; [reflexivity|]. apply nth_In. lia.
Qed.
(** a table whose columns have the same length, with different names and values that the contract covers, is read as it was written *)
Theorem C91_round_trip (r : V -> V) (cols : table) k0 n :
  NoDup (map fst cols) -> (forall k, In k (map fst cols) -> name_ok k) -> hd_error (map fst cols) = Some k0 -> ~ value_line k0 ->
  (forall k vs, In (k, vs) cols -> length vs = n) -> (forall k vs v, In (k, vs) cols -> In v vs -> written ","%char r v) ->
  exists s m, write_table V fmt ","%char cols = Ok s /\ read ","%char s = Ok (Some m) /\
    (forall k vs, In (k, vs) cols -> get k m = Some (map r vs)) /\ (forall k, ~ In k (map fst cols) -> get k m = None).
Proof.
  intros ND NO H0 NV LN WR. pose proof (C91_write ","%char cols) as CW. destruct cols as [|[k1 vs1] cols'] eqn:E; [discriminate|].
  injection H0 as <-. cbn [fst] in *. destruct CW as [CW _]. rewrite <- E in *.
  assert (I1 : In (k1, vs1) cols) by (rewrite E; left; reflexivity). pose proof (LN k1 vs1 I1) as L1.
  set (hl := separated ","%char (map fst cols)) in *. set (cell := fun i => map (fun c => fmt (nth i (snd c) zero)) cols).
  set (rows := map cell (seq 0 n)). set (ds := map (separated ","%char) rows).
  assert (CE : write_table V fmt ","%char cols = Ok (unlines "010"%char (hl :: ds))).
  { rewrite CW; [|intros k vs I; rewrite (LN k vs I), L1; apply le_n]. unfold ds, rows, cell. rewrite map_map, L1. reflexivity. }
  assert (RW : forall i, i < n -> forall w, In w (cell i) -> exists v, w = fmt v /\ written ","%char r v).
  { intros i Li w I. apply in_map_iff in I as ([k vs] & <- & I). exists (nth i vs zero). split; [reflexivity|]. apply (WR k vs _ I). apply nth_In. rewrite (LN k vs I). exact Li. }
  assert (DS : forall row, In row rows -> exists i, i < n /\ row = cell i).
  { intros row I. apply in_map_iff in I as (i & <- & I). apply in_seq in I. exists i. split; [lia|reflexivity]. }
  destruct (C91_read ","%char (unlines "010"%char (hl :: ds)) [] hl ds (map fst cols) (map fst cols) rows) as (m & Em & _ & Hn & Hv).
  - cbn [app]. split; [|left; reflexivity]. intros w [<-|I].
    + apply separated_no; [discriminate|]. intros k Ik Nn. destruct (NO k Ik) as (_ & _ & W). apply (W _ Nn). unfold white; simpl; tauto.
    + apply in_map_iff in I as (row & <- & I). destruct (DS row I) as (i & Li & ->). apply separated_no; [discriminate|].
      intros w Iw. destruct (RW i Li w Iw) as (v & -> & Wv). apply Wv.
  - constructor.
  - unfold hl. rewrite E. cbn [map fst]. destruct (separated_head ","%char k1 (map fst cols')) as [t ->]. apply name_header; [apply NO; rewrite E; left; reflexivity|exact NV].
  - intros l t El. assert (Il : In l ds) by (rewrite El; left; reflexivity). apply in_map_iff in Il as (row & <- & I). destruct (DS row I) as (i & Li & ->).
    unfold cell in *. rewrite E in *. cbn [map snd]. destruct (separated_head ","%char (fmt (nth i vs1 zero)) (map (fun c => fmt (nth i (snd c) zero)) cols')) as [t' ->].
    apply value_app. destruct (RW i Li (fmt (nth i vs1 zero)) (or_introl eq_refl)) as (v & -> & Wv). apply Wv.
  - apply separated_lines. intros k I. split; apply (NO k I).
  - clear - NO. induction (map fst cols) as [|k ks IH]; constructor; [apply name_strip, NO; left; reflexivity|]. apply IH. intros; apply NO; right; assumption.
  - unfold ds. assert (A : forall row, In row rows -> lines_of ","%char (separated ","%char row) row).
    { intros row I. destruct (DS row I) as (i & Li & ->). apply separated_lines. intros w Iw. destruct (RW i Li w Iw) as (v & -> & Wv). split; [apply value_ne; apply Wv|apply Wv]. }
    clear - A. induction rows as [|x rows IH]; constructor; [apply A; left; reflexivity|]. apply IH. intros; apply A; right; assumption.
  - exists (unlines "010"%char (hl :: ds)), m. split; [exact CE|]. split; [exact Em|]. split; [|exact Hn].
    intros k vs I. apply In_nth_error in I as [j J]. rewrite (Hv ND j k); [|rewrite nth_error_map, J; reflexivity].
    f_equal. rewrite map_length. unfold rows, cell. pose proof (nth_error_In _ _ J) as I.
    rewrite <- (Nat.sub_0_r n). rewrite (cells_rows r cols n j k vs J (LN k vs I)); [reflexivity|]. intros v Iv. apply (WR k vs v I Iv).
Qed.
(** with a file: if the path can be opened (C93), writing returns true, changes nothing but the path and its directories, and reading the path returns the
    table *)
Theorem C91_file (r : V -> V) (cols : table) k0 n p f :
  NoDup (map fst cols) -> (forall k, In k (map fst cols) -> name_ok k) -> hd_error (map fst cols) = Some k0 -> ~ value_line k0 ->
  (forall k vs, In (k, vs) cols -> length vs = n) -> (forall k vs v, In (k, vs) cols -> In v vs -> written ","%char r v) ->
  wf f -> p <> [] -> ends_slash p = false -> lookup (node_of p) f <> Some None -> way_free p f -> (lookup (node_of p) f <> None \/ getFileDir p <> []) ->
  exists f' m, write_csv V fmt ","%char cols p f = Ok (Some (f', true)) /\ read_csv V zero parse ","%char p f' = Ok (Some m) /\
    (forall k vs, In (k, vs) cols -> get k m = Some (map r vs)) /\ (forall k, ~ In k (map fst cols) -> get k m = None) /\
    only_along p f f' /\ (forall q x, q <> node_of p -> lookup q f = Some x -> lookup q f' = Some x).
Proof.
  intros ND NO H0 NV LN WR W P1 P2 P3 P4 P5. destruct (C91_round_trip r cols k0 n ND NO H0 NV LN WR) as (s & m & E1 & E2 & E3 & E4).
  destruct (C93_open p f W) as (f1 & ok & Eo & A & B & M & O & W1). assert (ok = true) by (apply A; auto). subst ok.
  unfold write_csv. rewrite Eo, E1. cbn [obind]. eexists _, m. split; [reflexivity|].
  assert (NE : snd (node_of p) <> []).
  { intro Z. destruct (B eq_refl) as [_ L]. unfold lookup in L. rewrite Z in L. discriminate. }
  split; [|split; [exact E3|split; [exact E4|split]]].
  - unfold read_csv, resolve. destruct p as [|c p]; [contradiction|]. rewrite lookup_here by exact NE. rewrite P2. exact E2.
  - intros q N. rewrite lookup_other; [exact (O q N)|]. intros <-. apply N. unfold node_of; cbn [fst snd]. split; [reflexivity|]. exists []. symmetry; apply app_nil_r.
  - intros q x N L. rewrite lookup_other by congruence. exact (M q x N L).
Qed.
(** a path that cannot be opened is not written: false, and no file is written *)
Theorem C91_not_written delim (cols : table) w f : w <> [] -> ~ In "/"%char w -> wf f -> lookup (false, [w]) f = None -> lookup (true, [w]) f = None ->
  write_csv V fmt delim cols w f = Ok (Some (f, false)).
Proof. intros N S W L L'. unfold write_csv. rewrite (proj1 (C93_bare w f N S W L L')). reflexivity. Qed.
(** the header is split at commas whatever the delimiter: written and read with another delimiter, a table of two or more columns comes back as a single empty
    column, and reading returns true *)
Theorem C91_other_delimiter delim (r : V -> V) (cols : table) k0 n :
  delim <> ","%char -> delim <> "010"%char -> 2 <= length cols ->
  (forall k, In k (map fst cols) -> name_ok k) -> hd_error (map fst cols) = Some k0 -> ~ value_line k0 ->
  (forall k vs, In (k, vs) cols -> length vs = n) -> (forall k vs v, In (k, vs) cols -> In v vs -> written delim r v) ->
  exists s m k, write_table V fmt delim cols = Ok s /\ read delim s = Ok (Some m) /\ get k m = Some [] /\ forall k', k' <> k -> get k' m = None.
Proof.
  intros DC DN L2 NO H0 NV LN WR. pose proof (C91_write delim cols) as CW. destruct cols as [|[k1 vs1] cols'] eqn:E; [discriminate|].
  injection H0 as <-. cbn [fst] in *. destruct CW as [CW _]. rewrite <- E in *.
  assert (I1 : In (k1, vs1) cols) by (rewrite E; left; reflexivity). pose proof (LN k1 vs1 I1) as L1.
  set (hl := separated delim (map fst cols)) in *. set (cell := fun i => map (fun c => fmt (nth i (snd c) zero)) cols).
  set (rows := map cell (seq 0 n)). set (ds := map (separated delim) rows).
  assert (CE : write_table V fmt delim cols = Ok (unlines "010"%char (hl :: ds))).
  { rewrite CW; [|intros k vs I; rewrite (LN k vs I), L1; apply le_n]. unfold ds, rows, cell. rewrite map_map, L1. reflexivity. }
  assert (RW : forall i, i < n -> forall w, In w (cell i) -> exists v, w = fmt v /\ written delim r v).
  { intros i Li w I. apply in_map_iff in I as ([k vs] & <- & I). exists (nth i vs zero). split; [reflexivity|]. apply (WR k vs _ I). apply nth_In. rewrite (LN k vs I). exact Li. }
  assert (DS : forall row, In row rows -> exists i, i < n /\ row = cell i).
  { intros row I. apply in_map_iff in I as (i & <- & I). apply in_seq in I. exists i. split; [lia|reflexivity]. }
  assert (HN : hl <> []).
  { unfold hl. rewrite E. cbn [map fst]. destruct (separated_head delim k1 (map fst cols')) as [t ->]. intro Z. apply app_eq_nil in Z as [Z _].
    assert (Ik : In k1 (map fst cols)) by (rewrite E; left; reflexivity). exact (proj1 (NO k1 Ik) Z). }
  assert (HC : ~ In ","%char hl) by (apply separated_no; [congruence|]; intros k Ik; apply (NO k Ik)).
  destruct (C91_read delim (unlines "010"%char (hl :: ds)) [] hl ds [hl] [strip hl] rows) as (m & Em & _ & Hn & Hv).
  - cbn [app]. split; [|left; reflexivity]. intros w [<-|I].
    + apply separated_no; [congruence|]. intros k Ik Nn. destruct (NO k Ik) as (_ & _ & W). apply (W _ Nn). unfold white; simpl; tauto.
    + apply in_map_iff in I as (row & <- & I). destruct (DS row I) as (i & Li & ->). apply separated_no; [congruence|].
      intros w Iw. destruct (RW i Li w Iw) as (v & -> & Wv). apply Wv.
  - constructor.
  - unfold hl. rewrite E. cbn [map fst]. destruct (separated_head delim k1 (map fst cols')) as [t ->]. apply name_header; [apply NO; rewrite E; left; reflexivity|exact NV].
  - intros l t El. assert (Il : In l ds) by (rewrite El; left; reflexivity). apply in_map_iff in Il as (row & <- & I). destruct (DS row I) as (i & Li & ->).
    unfold cell in *. rewrite E in *. cbn [map snd]. destruct (separated_head delim (fmt (nth i vs1 zero)) (map (fun c => fmt (nth i (snd c) zero)) cols')) as [t' ->].
    apply value_app. destruct (RW i Li (fmt (nth i vs1 zero)) (or_introl eq_refl)) as (v & -> & Wv). apply Wv.
  - split; [intros w [<-|[]]; exact HC|]. right. exists [], hl. repeat split. exact HN.
  - constructor; [apply without_strip|constructor].
  - unfold ds. assert (A : forall row, In row rows -> lines_of delim (separated delim row) row).
    { intros row I. destruct (DS row I) as (i & Li & ->). apply separated_lines. intros w Iw. destruct (RW i Li w Iw) as (v & -> & Wv). split; [apply value_ne; apply Wv|apply Wv]. }
    clear - A. induction rows as [|x rows IH]; constructor; [apply A; left; reflexivity|]. apply IH. intros; apply A; right; assumption.
  - exists (unlines "010"%char (hl :: ds)), m, (strip hl). split; [exact CE|]. split; [exact Em|]. split.
    + rewrite (Hv ltac:(constructor; [intros []|constructor]) 0 _ eq_refl). f_equal.
      assert (A : forall row, In row rows -> 2 <= length row) by (intros row I; destruct (DS row I) as (i & _ & ->); unfold cell; rewrite map_length; exact L2).
      clear - A. generalize zero at 2. induction rows as [|x rows IH]; intro z; [reflexivity|]. cbn [cells length].
      rewrite (proj2 (Nat.eqb_neq (length x) 1)) by (specialize (A x (or_introl eq_refl)); lia). apply IH. intros; apply A; right; assumption.
    + intros k' N. apply Hn. intros [Z|[]]. congruence.
Qed.
End Csv.

(** *** examples: natural numbers as values, decimal digits *)
Section Ex.
Definition digit_of (n : nat) : ascii := ascii_of_nat (48 + n).
Definition fmt1 (n : nat) : text := [digit_of (n mod 10)].
Definition parse1 (w : text) : option nat := match w with [c] => if is_digit c then Some (nat_of_ascii c - 48) else None | _ => None end.
Definition NL := "010"%char.
Example C91_ex : let cols := [(T "a", [1; 2]); (T "b", [3; 4])] in let r := fun n => n mod 10 in
  NoDup (map fst cols) /\ (forall k, In k (map fst cols) -> name_ok k) /\ ~ value_line (T "a") /\
  (forall k vs v, In (k, vs) cols -> In v vs -> written nat fmt1 parse1 ","%char r v) /\
  write_table nat fmt1 ","%char cols = Ok (T "a,b" ++ NL :: T "1,3" ++ NL :: T "2,4" ++ [NL]) /\
  read_table nat 0 parse1 ","%char (T "a,b" ++ NL :: T "1,3" ++ NL :: T "2,4" ++ [NL]) = Ok (Some cols).
Proof.
  repeat split.
  - repeat constructor; simpl; intuition discriminate.
  - destruct H as [<-|[<-|[]]]; discriminate.
  - destruct H as [<-|[<-|[]]]; simpl; intuition discriminate.
  - destruct H as [<-|[<-|[]]]; intros c [<-|[]]; unfold white; simpl; intuition discriminate.
  - intros (u & c & t & E & U & D). destruct u as [|x u]; [injection E as <- _; unfold digit in D; simpl in D; intuition discriminate|].
    injection E as <- _. inversion U as [|? ? B _]; unfold blank in B; simpl in B; intuition discriminate.
  - destruct H as [[= <- <-]|[[= <- <-]|[]]]; repeat destruct H0 as [<-|H0]; try destruct H0;
      (eexists [], _, []; split; [reflexivity|]; split; [constructor|left; unfold digit; simpl; tauto]).
  - destruct H as [[= <- <-]|[[= <- <-]|[]]]; repeat destruct H0 as [<-|H0]; try destruct H0; simpl; intuition discriminate.
  - destruct H as [[= <- <-]|[[= <- <-]|[]]]; repeat destruct H0 as [<-|H0]; try destruct H0; simpl; intuition discriminate.
  - destruct H as [[= <- <-]|[[= <- <-]|[]]]; repeat destruct H0 as [<-|H0]; try destruct H0; reflexivity.
Qed.
(** a value that is not a number takes the place of nothing: here the 7 of a row that was skipped because it is too long appears in the next row *)
Theorem C91_stale : read_table nat 0 parse1 ","%char (T "a,b" ++ NL :: T "7,7,7" ++ NL :: T "1,x" ++ [NL]) = Ok (Some [(T "a", [1]); (T "b", [7])]) /\
  read_table nat 0 parse1 ","%char (T "a,b" ++ NL :: T "1,x" ++ [NL]) = Ok (Some [(T "a", [1]); (T "b", [0])]).
Proof. split; reflexivity. Qed.
(** a row whose first value is written as nan or inf belongs to the header: with the last row it takes the place of the names *)
Theorem C91_nan : read_table nat 0 parse1 ","%char (T "a,b" ++ NL :: T "nan,3" ++ NL :: T "2,4" ++ [NL]) = Ok (Some [(T "nan", [2]); (T "3", [4])]).
Proof. reflexivity. Qed.
Theorem C91_other_ex : read_table nat 0 parse1 ";"%char (T "a;b" ++ NL :: T "1;3" ++ [NL]) = Ok (Some [(T "a;b", [])]).
Proof. reflexivity. Qed.
End Ex.

Print Assumptions C91_read.
Print Assumptions C91_write.
Print Assumptions C91_round_trip.
Print Assumptions C91_file.
Print Assumptions C91_other_delimiter.
