(** C92: paths and tokens.  The code is TextModel (utils/IO.cpp); the vocabulary is Spec_Text. *)
From Coq Require Import String List Ascii Bool Arith ZArith Lia.
From Verif Require Import Outcome TextModel Spec_Text TextProofs.
Import ListNotations.
Local Open Scope outcome_scope.
Local Open Scope list_scope.

Definition T := list_ascii_of_string.

(** *** directory, name and extension *)
(** getFileDir is what precedes the last '/', nothing if there is none *)
Theorem C92_dir : (forall a b, ~ In "/"%char b -> getFileDir (a ++ "/"%char :: b) = a) /\ (forall f, ~ In "/"%char f -> getFileDir f = []).
Proof.
  split; [intros a b H|intros f H]; unfold getFileDir; [rewrite rfind_last by assumption|rewrite rfind_none by assumption; reflexivity].
  unfold substr. simpl. apply firstn_here.
Qed.
(** getFileExtension is what follows the last '.', nothing if there is none *)
Theorem C92_ext : (forall a b, ~ In "."%char b -> getFileExtension (a ++ "."%char :: b) = b) /\ (forall f, ~ In "."%char f -> getFileExtension f = []).
Proof.
  split; [intros a b H|intros f H]; unfold getFileExtension; [rewrite rfind_last by assumption|rewrite rfind_none by assumption; reflexivity].
  replace (length a + 1) with (length (a ++ ["."%char])) by (rewrite app_length; reflexivity).
  change (a ++ "."%char :: b) with (a ++ ["."%char] ++ b). rewrite app_assoc. apply skipn_here.
Qed.
(** getLastDirName is what follows the last '/'; together with getFileDir it is the whole path *)
Theorem C92_last : (forall a b, ~ In "/"%char b -> getLastDirName (a ++ "/"%char :: b) = b) /\ (forall f, ~ In "/"%char f -> getLastDirName f = []) /\
  (forall f, In "/"%char f -> f = getFileDir f ++ "/"%char :: getLastDirName f).
Proof.
  assert (A : forall a b, ~ In "/"%char b -> getLastDirName (a ++ "/"%char :: b) = b).
  { intros a b H. unfold getLastDirName. rewrite rfind_last by assumption. unfold substr.
    replace (length a + 1) with (length (a ++ ["/"%char])) by (rewrite app_length; reflexivity).
    change (a ++ "/"%char :: b) with (a ++ ["/"%char] ++ b). rewrite app_assoc, skipn_here. apply firstn_all2. rewrite !app_length; lia. }
  split; [exact A|]. split; [intros f H; unfold getLastDirName; rewrite rfind_none by assumption; reflexivity|].
  intros f H. destruct (rfind "/"%char f) as [i|] eqn:E.
  - destruct (rfind_some _ _ _ E) as (a & b & -> & _ & N). rewrite (proj1 C92_dir a b N), A by assumption. reflexivity.
  - exfalso. clear A. induction f as [|c f IH]; [destruct H|]. simpl in E. destruct (rfind "/"%char f) eqn:F; [discriminate|].
    destruct (Ascii.eqb_spec c "/"%char); [discriminate|]. destruct H as [H|H]; [congruence|]. exact (IH H eq_refl).
Qed.
(** getFileParentDirName is the last directory of a path with at least two '/' and empty with fewer *)
Theorem C92_parent : (forall a b c, ~ In "/"%char b -> ~ In "/"%char c -> getFileParentDirName (a ++ "/"%char :: b ++ "/"%char :: c) = b) /\
  (forall b c, ~ In "/"%char b -> ~ In "/"%char c -> getFileParentDirName (b ++ "/"%char :: c) = []).
Proof.
  unfold getFileParentDirName. split.
  - intros a b c B C. replace (a ++ "/"%char :: b ++ "/"%char :: c) with ((a ++ "/"%char :: b) ++ "/"%char :: c) by (rewrite <- app_assoc; reflexivity).
    rewrite (proj1 C92_dir) by assumption. apply C92_last; assumption.
  - intros b c B C. rewrite (proj1 C92_dir) by assumption. apply C92_last; assumption.
Qed.
(** getFileName: the name without directory and extension; empty if the path has no '.' at all, the last component if there is a '.'
    in the directory only (getFileExtension then returns a part of the directory with it) *)
Theorem C92_name :
  (forall d n e, ~ In "/"%char n -> ~ In "/"%char e -> ~ In "."%char e ->
     let f := d ++ "/"%char :: n ++ "."%char :: e in getFileDir f = d /\ getFileName f = n /\ getFileExtension f = e) /\
  (forall n e, ~ In "/"%char n -> ~ In "/"%char e -> ~ In "."%char e ->
     let f := n ++ "."%char :: e in getFileDir f = [] /\ getFileName f = n /\ getFileExtension f = e) /\
  (forall f, ~ In "."%char f -> getFileName f = []) /\
  (forall a b n, ~ In "."%char b -> ~ In "/"%char n -> ~ In "."%char n ->
     let f := (a ++ "."%char :: b) ++ "/"%char :: n in getFileName f = n /\ getFileExtension f = b ++ "/"%char :: n).
Proof.
  assert (D : forall c, "."%char = c -> "/"%char <> c) by (intros c <-; discriminate).
  repeat split.
  - apply C92_dir. rewrite in_app_iff. intros [I|[I|I]]; [auto|discriminate|auto].
  - unfold getFileName. rewrite rfind_last by (rewrite in_app_iff; intros [I|[I|I]]; [auto|discriminate|auto]).
    replace (d ++ "/"%char :: n ++ "."%char :: e) with ((d ++ "/"%char :: n) ++ "."%char :: e) by (rewrite <- app_assoc; reflexivity).
    unfold dot. rewrite rfind_last by assumption. rewrite app_length. cbn [length].
    unfold substr_int. rewrite (proj2 (Z.ltb_ge _ _)) by lia. unfold substr.
    replace (Z.to_nat _) with (length n) by lia.
    replace (length d + 1) with (length (d ++ ["/"%char])) by (rewrite app_length; reflexivity).
    replace ((d ++ "/"%char :: n) ++ "."%char :: e) with ((d ++ ["/"%char]) ++ n ++ "."%char :: e) by (rewrite <- !app_assoc; reflexivity).
    rewrite skipn_here. apply firstn_here.
  - replace (d ++ "/"%char :: n ++ "."%char :: e) with ((d ++ "/"%char :: n) ++ "."%char :: e) by (rewrite <- app_assoc; reflexivity).
    apply C92_ext; assumption.
  - apply C92_dir. rewrite in_app_iff. intros [I|[I|I]]; [auto|discriminate|auto].
  - unfold getFileName. rewrite rfind_none by (rewrite in_app_iff; intros [I|[I|I]]; [auto|discriminate|auto]).
    unfold dot; rewrite rfind_last by assumption. unfold substr; simpl. apply firstn_here.
  - apply C92_ext; assumption.
  - intros f H. unfold getFileName, dot. rewrite (rfind_none _ _ H). destruct (rfind slash f); reflexivity.
  - unfold getFileName. rewrite rfind_last by assumption.
    replace ((a ++ "."%char :: b) ++ "/"%char :: n) with (a ++ "."%char :: b ++ "/"%char :: n) by (rewrite <- app_assoc; reflexivity).
    unfold dot; rewrite rfind_last by (rewrite in_app_iff; intros [I|[I|I]]; [auto|discriminate|auto]).
    unfold substr_int. rewrite (proj2 (Z.ltb_lt _ _)) by (rewrite app_length; simpl; lia).
    replace (length (a ++ "."%char :: b) + 1) with (length (a ++ "."%char :: b ++ ["/"%char])) by (rewrite !app_length; simpl; rewrite !app_length; simpl; lia).
    replace (a ++ "."%char :: b ++ "/"%char :: n) with ((a ++ "."%char :: b ++ ["/"%char]) ++ n) by (rewrite <- app_assoc; simpl; rewrite <- app_assoc; reflexivity).
    apply skipn_here.
  - replace ((a ++ "."%char :: b) ++ "/"%char :: n) with (a ++ "."%char :: b ++ "/"%char :: n) by (rewrite <- app_assoc; reflexivity).
    apply C92_ext. rewrite in_app_iff; intros [I|[I|I]]; [auto|discriminate|auto].
Qed.
Example C92_name_ex : getFileName (T "/home/u/log.tar.gz") = T "log.tar" /\ getFileExtension (T "/home/u/log.tar.gz") = T "gz" /\ getFileDir (T "/home/u/log.tar.gz") = T "/home/u" /\
  getFileName (T "/home/u/log") = [] /\ getFileName (T "/home/u.d/log") = T "log" /\ getFileExtension (T "/home/u.d/log") = T "d/log" /\
  getFileParentDirName (T "/home/u/log.gz") = T "u" /\ getFileDir (T "/log.gz") = [].
Proof. repeat split. Qed.

(** *** checkPathString *)
(** always returns; in the result no two '/' follow each other, and it has the components, the first '/' and the last '/' of the given
    path: these determine it.  A path without "//" is not changed *)
Theorem C92_check s : exists r, checkPathString s = Some r /\ (forall a b, r <> a ++ ["/"; "/"]%char ++ b) /\
  comps r = comps s /\ isAbsolutePath r = isAbsolutePath s /\ ends_slash r = ends_slash s /\
  ((forall a b, s <> a ++ ["/"; "/"]%char ++ b) -> r = s) /\ checkPathString r = Some r.
Proof.
  exists (squeeze s). rewrite !checkPathStringE. split; [reflexivity|]. split; [apply find_none, squeeze_no|]. split; [|split; [|split; [|split]]].
  - apply (check_inv comps). intros a b. rewrite !comps_cat; reflexivity.
  - apply (check_inv isAbsolutePath). intros [|x a] b; reflexivity.
  - apply (check_inv ends_slash). intros a b. change (slash :: slash :: b) with ([slash] ++ slash :: b).
    rewrite app_assoc, !ends_cat; [reflexivity|discriminate|discriminate].
  - intro H. apply squeeze_id. destruct (find [slash; slash] s) as [i|] eqn:F; [|reflexivity].
    destruct (find_some _ _ _ F) as (a & b & E & _). destruct (H a b E).
  - rewrite squeeze_id; [reflexivity|apply squeeze_no].
Qed.
Example C92_check_ex : checkPathString (T "a///b//") = Some (T "a/b/").
Proof. reflexivity. Qed.

(** *** tokens *)
(** getTokens(str, delim) returns the non-empty pieces between the occurrences of a non-empty delimiter, in order, and always returns *)
Theorem C92_tokens d s : d <> [] -> (exists ps, splits d s ps) /\ forall ps, splits d s ps -> getTokens s d = Some (filter nonempty ps).
Proof.
  intro D. split; [exact (splits_exist d D _ s (le_n _))|]. intros ps P.
  exact (tokens_loopE d D s ps P [] [] (S (length s)) (Nat.lt_succ_diag_r _)).
Qed.
(** of a single character: the non-empty lines it separates, without the character *)
Theorem C92_tokens_char c s ws : lines_of c s ws -> getTokens s [c] = Some (filter nonempty ws).
Proof. intro L. rewrite getTokens_ch. rewrite (lines_ofE _ _ _ L). reflexivity. Qed.
(** with an empty delimiter it does not return, whatever the number of iterations, unless the string is empty *)
Theorem C92_tokens_empty s : s <> [] -> forall n acc, tokens_loop n [] 0 s acc = None.
Proof.
  intros N. induction n as [|n IH]; intro acc; [reflexivity|]. cbn [tokens_loop skipn].
  assert (find [] s = Some 0) as -> by (destruct s; reflexivity). cbn [Nat.add Nat.sub length substr firstn skipn].
  assert ((0 <? length s)%nat = true) as -> by (destruct s; [contradiction|reflexivity]). cbn [andb]. apply IH.
Qed.
(** getTokens(str): the words between white space *)
Theorem C92_words s : (exists ws, words white s ws) /\ forall ws, words white s ws -> getWords s = ws.
Proof.
  split; [|apply getWordsE]. remember (length s) as n eqn:N. revert s N. induction n as [n IH] using lt_wf_ind. intros s ->.
  assert (SP : forall s, exists u r, s = u ++ r /\ Forall white u /\ forall c r', r = c :: r' -> ~ white c).
  { clear. induction s as [|c s (u & r & -> & U & R)]; [exists [], []; repeat split; [constructor|discriminate]|].
    destruct (is_space c) eqn:E; [exists (c :: u), r; repeat split; [constructor; [apply is_spaceP, E|exact U]|exact R]|].
    exists [], (c :: u ++ r); repeat split; [constructor|]. intros x r' [= <- _]. rewrite <- is_spaceP. congruence. }
  assert (WD : forall s, exists w r, s = w ++ r /\ Forall (fun c => ~ white c) w /\ forall c r', r = c :: r' -> white c).
  { clear. induction s as [|c s (u & r & -> & U & R)]; [exists [], []; repeat split; [constructor|discriminate]|].
    destruct (is_space c) eqn:E; [exists [], (c :: u ++ r); repeat split; [constructor|]; intros x r' [= <- _]; apply is_spaceP, E|].
    exists (c :: u), r; repeat split; [constructor; [rewrite <- is_spaceP; congruence|exact U]|exact R]. }
  destruct (SP s) as (u & r & -> & U & R). destruct (WD r) as (w & t & -> & W & Tt).
  destruct w as [|c w].
  - exists []. constructor. destruct t as [|x t]; [rewrite app_nil_r; exact U|]. destruct (R x t eq_refl). exact (Tt x t eq_refl).
  - destruct (IH (length t)) with (s := t) as [ws H]; [rewrite !app_length; simpl; lia|reflexivity|].
    exists ((c :: w) :: ws). constructor; try assumption. discriminate.
Qed.
(** getFirstToken is what precedes the first occurrence of the delimiter, everything if there is none *)
Theorem C92_first s d : (forall a b, s = a ++ d ++ b -> (forall a' b', s = a' ++ d ++ b' -> length a <= length a') -> getFirstToken s d = a) /\
  ((forall a b, s <> a ++ d ++ b) -> getFirstToken s d = s).
Proof.
  split.
  - intros a b -> H. unfold getFirstToken. rewrite find_first by assumption. unfold substr; simpl. apply firstn_here.
  - intro H. unfold getFirstToken. destruct (find d s) as [i|] eqn:F; [|reflexivity]. destruct (find_some _ _ _ F) as (a & b & E & _). destruct (H a b E).
Qed.
Example C92_tokens_ex : getTokens (T "a::b:::c::") (T "::") = Some [T "a"; T "b"; T ":c"] /\ getWords (T " x  yz ") = [T "x"; T "yz"] /\ getFirstToken (T "k=v=w") (T "=") = T "k".
Proof. repeat split. Qed.

(** *** lists of paths *)
(** getAbsPathsFromFile keeps the given paths, appends one path per line, in order: absolute lines as they are, the others below the directory of
    the list file.  If the path of the list file is absolute, so are all of them *)
Theorem C92_list lf ls acc : lf <> [] -> exists new, getAbsPaths lf ls acc = acc ++ new /\ length new = length ls /\
  (forall i x, nth_error ls i = Some x -> nth_error new i = Some (if isAbsolutePath x then x else getFileDir lf ++ "/"%char :: x)) /\
  (isAbsolutePath lf = true -> forall y, In y new -> isAbsolutePath y = true).
Proof.
  intro N. unfold getAbsPaths. destruct lf as [|c lf]; [contradiction|]. eexists; split; [reflexivity|]. rewrite map_length. split; [reflexivity|]. split.
  - intros i x E. rewrite nth_error_map, E. simpl. destruct (isAbsolutePath x); reflexivity.
  - intros A y I. apply in_map_iff in I as (x & <- & _). destruct (isAbsolutePath x) eqn:E; [exact E|]. cbn [negb].
    simpl in A. apply Ascii.eqb_eq in A as ->.
    remember (getFileDir (slash :: lf)) as g eqn:G. destruct g as [|y g]; [reflexivity|].
    unfold getFileDir in G. destruct (rfind slash (slash :: lf)) as [[|i]|]; discriminate G || (injection G as -> _; reflexivity).
Qed.
(** a list file given by its bare name: relative lines are taken to be at the root of the file system *)
Theorem C92_list_bare : getAbsPaths (T "list.txt") [T "a/b.csv"] [] = [T "/a/b.csv"].
Proof. reflexivity. Qed.

Print Assumptions C92_name.
Print Assumptions C92_check.
Print Assumptions C92_tokens.
Print Assumptions C92_words.
Print Assumptions C92_list.
