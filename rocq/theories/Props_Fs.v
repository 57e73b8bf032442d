(** C93: directories and files (utils/IO.cpp), over the file system of TextModel.
    A path is named by whether it starts with '/' and by its components; [wf] says that every existing path lies in a directory. *)
From Coq Require Import String List Ascii Bool Arith ZArith Lia.
From Verif Require Import Outcome TextModel Spec_Text TextProofs FsProofs Props_Text.
Import ListNotations.
Local Open Scope outcome_scope.
Local Open Scope list_scope.

(** nothing on the way to the path is a file *)
Definition way_free (p : text) (f : fs) : Prop :=
  forall ps r s, comps p = ps ++ r -> r <> [] -> lookup (isAbsolutePath p, ps) f <> Some (Some s).
(** only the path and the directories leading to it may have changed *)
Definition only_along (p : text) (f f' : fs) : Prop :=
  forall n, ~ (fst n = isAbsolutePath p /\ initial (snd n) (comps p)) -> lookup n f' = lookup n f.
(** everything on the way to the path is a directory *)
Definition way_dirs (p : text) (f : fs) : Prop := forall ps r, comps p = ps ++ r -> r <> [] -> lookup (isAbsolutePath p, ps) f = Some None.

Lemma comps_named p : Forall named (comps p).
Proof. apply Forall_forall. intros w I. exact (comps_in p w I). Qed.
Lemma way_dec abs f : forall ts done, (exists ps w r s, ts = ps ++ w :: r /\ r <> [] /\ lookup (abs, done ++ ps ++ [w]) f = Some (Some s)) \/
  (forall ps w r s, ts = ps ++ w :: r -> r <> [] -> lookup (abs, done ++ ps ++ [w]) f <> Some (Some s)).
Proof.
  induction ts as [|w ts IH]; intros done; [right; intros [|? ?] ? ? ? E; discriminate|].
  destruct ts as [|w2 ts]; [right; intros [|? [|? ?]] ? ? ? E N; try discriminate; injection E as _ <-; contradiction|].
  destruct (lookup (abs, done ++ [w]) f) as [[s|]|] eqn:L.
  1: left; exists [], w, (w2 :: ts), s; repeat split; [discriminate|exact L].
  all: destruct (IH (done ++ [w])) as [(ps & x & r & s & E & N & K)|H];
    [left; exists (w :: ps), x, r, s; rewrite E; repeat split; [exact N|rewrite <- app_assoc in K; exact K]|right].
  all: intros [|y ps] x r s E N; [injection E as <- <-; cbn [app]; congruence|injection E as <- E; specialize (H ps x r s E N); rewrite <- app_assoc in H; exact H].
Qed.
Lemma create_cases d : forall f ts, getTokens d [slash] = Some ts -> createDirectoryRecursive d f =
  match ts with [] => Some (f, false) | _ => Some (create_loop (pre (isAbsolutePath d) []) ts f) end.
Proof. intros f ts E. unfold createDirectoryRecursive. rewrite E. unfold pre, unlines; simpl. rewrite app_nil_r. reflexivity. Qed.
Lemma DEC d n : (fst n = isAbsolutePath d /\ initial (snd n) (comps d)) \/ ~ (fst n = isAbsolutePath d /\ initial (snd n) (comps d)).
Proof.
  destruct n as [a ns]. cbn [fst snd]. destruct (Bool.bool_dec a (isAbsolutePath d)) as [->|Na]; [|right; tauto].
  destruct (eq_comps (firstn (length ns) (comps d)) ns) eqn:Q.
  - left. split; [reflexivity|]. apply eq_compsP in Q. exists (skipn (length ns) (comps d)). rewrite <- Q at 1. symmetry. apply firstn_skipn.
  - right. intros [_ [r R]]. rewrite R, firstn_here in Q. rewrite (proj2 (eq_compsP ns ns) eq_refl) in Q. discriminate.
Qed.

(** *** createDirectoryRecursive *)
(** always returns.  Without components in the path it returns false.  Otherwise it returns true exactly if nothing on the way is a file: then the
    directories on the way and the last component exist, the missing ones created as directories, and nothing else changed;
    if it returns false nothing changed *)
Theorem C93_create d f : wf f -> exists f' ok, createDirectoryRecursive d f = Some (f', ok) /\
  (ok = true <-> comps d <> [] /\ way_free d f) /\
  (ok = false -> f' = f) /\
  (ok = true -> way_dirs d f' /\ lookup (node_of d) f' = match lookup (node_of d) f with None => Some None | x => x end) /\
  (forall n x, lookup n f = Some x -> lookup n f' = Some x) /\ only_along d f f' /\ wf f'.
Proof.
  intro W. rewrite (create_cases d f (comps d)) by apply getTokens_ch.
  destruct (comps d) as [|w0 ts0] eqn:E.
  { exists f, false. split; [reflexivity|]. repeat split; auto; try discriminate; intros [H _]; destruct (H eq_refl). }
  rewrite <- E in *. assert (NE : comps d <> []) by (rewrite E; discriminate). clear w0 ts0 E.
  destruct (way_dec (isAbsolutePath d) f (comps d) []) as [(ps & w & r & s & E & N & K)|H].
  - exists f, false. rewrite (loop_file _ f (comps d) ps w r s W (comps_named d) E N K). split; [reflexivity|].
    repeat split; auto; try discriminate. intros [_ F]. exfalso. apply (F (ps ++ [w]) r s); [rewrite <- app_assoc; exact E|exact N|exact K].
  - assert (F : way_free d f).
    { intros ps r s E N. destruct ps as [|w ps _] using rev_ind; [discriminate|]. rewrite <- app_assoc in E. exact (H ps w r s E N). }
    destruct (loop_ok (isAbsolutePath d) (comps d) [] f (Forall_nil _) (comps_named d) eq_refl H) as (f' & E & A & B). cbn [app] in *.
    assert (A' : forall ps r, comps d = ps ++ r -> lookup (isAbsolutePath d, ps) f' = match lookup (isAbsolutePath d, ps) f with None => Some None | x => x end).
    { intros ps r Q. destruct ps as [|w ps _] using rev_ind; [reflexivity|]. apply (A ps w r). rewrite Q, <- app_assoc. reflexivity. }
    assert (O : only_along d f f').
    { intros n N. apply B. intros ps w r Q R. apply N. rewrite R. cbn [fst snd]. split; [reflexivity|]. exists r. rewrite Q, <- app_assoc. reflexivity. }
    assert (WD : way_dirs d f').
    { intros ps r Q N. rewrite (A' ps r Q). specialize (F ps r). destruct (lookup (isAbsolutePath d, ps) f) as [[s|]|]; auto. destruct (F s Q N eq_refl). }
    pose proof (DEC d) as DEC.
    assert (M : forall n x, lookup n f = Some x -> lookup n f' = Some x).
    { intros n x L. destruct (DEC n) as [[Q [r R]]|Q]; [|rewrite (O n Q); exact L]. destruct n as [a ns]. cbn [fst snd] in *. subst a. rewrite (A' ns r R), L. reflexivity. }
    exists f', true. rewrite E. split; [reflexivity|]. split; [tauto|]. split; [discriminate|]. split.
    + intros _. split; [exact WD|]. apply (A' (comps d) []). symmetry; apply app_nil_r.
    + split; [exact M|]. split; [exact O|].
      intros a ws w L. destruct (DEC (a, ws ++ [w])) as [[Q [r R]]|Q].
      * cbn [fst snd] in *. subst a. apply (WD ws ([w] ++ r)); [rewrite R, <- app_assoc; reflexivity|discriminate].
      * rewrite (O _ Q) in L. apply M. exact (W _ _ _ L).
Qed.

(** *** createDirectoryFull *)
(** returns true exactly if neither the path nor anything on the way to it is a file and the path is not empty; then the path is a directory.
    If it returns false nothing changed *)
Theorem C93_full d f : wf f -> exists f' ok, createDirectoryFull d f = Some (f', ok) /\
  (ok = true <-> d <> [] /\ way_free d f /\ forall s, lookup (node_of d) f <> Some (Some s)) /\
  (ok = false -> forall n, lookup n f' = lookup n f) /\ (ok = true -> way_dirs d f' /\ lookup (node_of d) f' = Some None /\ dirExist d f' = true) /\
  (forall n x, lookup n f = Some x -> lookup n f' = Some x) /\ only_along d f f' /\ wf f'.
Proof.
  intro W. assert (DE : forall g, dirExist d g = true <-> d <> [] /\ lookup (node_of d) g = Some None).
  { intro g. unfold dirExist, resolve. destruct d as [|c d]; [split; [discriminate|intros [H _]; destruct (H eq_refl)]|].
    destruct (lookup (node_of (c :: d)) g) as [[s|]|]; [destruct (ends_slash (c :: d))| |]; split; try discriminate; try (intros [_ H]; discriminate); intros _; split; [discriminate|reflexivity]. }
  assert (UP : forall g, wf g -> lookup (node_of d) g = Some None -> way_dirs d g).
  { intros g Wg L ps r E N. destruct r as [|x r]; [contradiction|]. apply (wf_up g Wg _ r x). rewrite <- E. unfold node_of in L. rewrite L. discriminate. }
  unfold createDirectoryFull. destruct (dirExist d f) eqn:E.
  - apply DE in E as [N L]. exists f, true. split; [reflexivity|]. split; [|split; [discriminate|]].
    + split; [|reflexivity]. intros _. split; [exact N|]. split; [|intro s; congruence].
      intros ps r s Q R. rewrite (UP f W L ps r Q R). discriminate.
    + split; [|repeat split; auto]. intros _. split; [exact (UP f W L)|]. split; [exact L|]. apply DE; auto.
  - destruct (C93_create d f W) as (f' & ok & -> & A & B & C & M & O & W'). exists f', (dirExist d f'). cbn [negb]. split; [reflexivity|].
    assert (K : dirExist d f' = true <-> d <> [] /\ way_free d f /\ forall s, lookup (node_of d) f <> Some (Some s)).
    { split.
      - intro H. apply DE in H as [N L]. split; [exact N|]. destruct ok.
        + split; [apply A; reflexivity|]. intros s Q. destruct (C eq_refl) as [_ R]. rewrite Q in R. congruence.
        + rewrite (B eq_refl) in L. exfalso. rewrite (proj2 (DE f) (conj N L)) in E. discriminate.
      - intros (N & F & Fs). apply DE. split; [exact N|]. destruct ok.
        + destruct (C eq_refl) as [_ ->]. destruct (lookup (node_of d) f) as [[s|]|]; [destruct (Fs s eq_refl)|reflexivity|reflexivity].
        + destruct (comps d) as [|w ts] eqn:Q; [unfold node_of, lookup; cbn [snd]; rewrite Q; reflexivity|].
          assert (false = true) by (apply A; split; [discriminate|exact F]). discriminate. }
    split; [exact K|]. split; [|split; [|tauto]].
    + intros H n. destruct ok; [|rewrite (B eq_refl); reflexivity]. destruct (C eq_refl) as [_ L].
      destruct (lookup (node_of d) f) as [k|] eqn:Q.
      * destruct (DEC d n) as [[R [r T]]|R]; [|exact (O n R)]. destruct n as [a ns]. cbn [fst snd] in *. subst a.
        assert (X : exists x, lookup (isAbsolutePath d, ns) f = Some x).
        { unfold node_of in Q. rewrite T in Q. destruct r as [|y r]; [rewrite app_nil_r in Q; eauto|].
          exists None. apply (wf_up f W _ r y). intro Z. assert (ZZ : Some k = None) by (rewrite <- Q; exact Z). discriminate. }
        destruct X as [x X]. rewrite X. exact (M _ _ X).
      * assert (X : dirExist d f' = true); [|congruence]. apply DE. split; [|exact L].
        intros ->. unfold node_of, lookup in Q. discriminate.
    + intro H. split; [|split; [apply DE, H|exact H]]. apply UP; [exact W'|apply DE, H].
Qed.

(** *** openFile *)
Lemma opensE p f : p <> [] -> opens p f = match lookup (node_of p) f with
  | None => if parent_dir p f && negb (ends_slash p) then ((node_of p, Some []) :: f, true) else (f, false)
  | Some None => (f, false)
  | Some (Some _) => if ends_slash p then (f, false) else ((node_of p, Some []) :: f, true)
  end.
Proof. destruct p; [contradiction|]. intros _. cbn [opens]. destruct (lookup _ f) as [[s|]|]; reflexivity. Qed.
Lemma open_new p f : fileExists p f = false -> getFileDir p <> [] -> openFile p f =
  match createDirectoryFull (getFileDir p) f with None => None | Some (f1, ok) => if ok then Some (opens p f1) else Some (f1, false) end.
Proof.
  intros E N. unfold openFile, createDirectoryFull. rewrite E. cbn [negb]. destruct (getFileDir p) as [|c b] eqn:G; [contradiction|].
  destruct (dirExist (c :: b) f); [reflexivity|]. cbn [negb]. destruct (createDirectoryRecursive (c :: b) f) as [[f1 ok]|]; [|reflexivity].
  destruct (dirExist (c :: b) f1); reflexivity.
Qed.
(** emptying or creating a file in a directory *)
Lemma put_wf n f : wf f -> snd n <> [] -> lookup (fst n, removelast (snd n)) f = Some None -> lookup n f <> Some None -> wf ((n, Some []) :: f).
Proof.
  intros W N P L abs ws w H. destruct n as [a ns]. cbn [fst snd] in *.
  assert (NW : (a, ns) <> (abs, ws)).
  { intros [= -> ->]. destruct (eq_node (abs, ws) (abs, ws ++ [w])) eqn:Q.
    - apply eq_nodeP in Q. injection Q as Q. apply (f_equal (@length _)) in Q. rewrite app_length in Q. simpl in Q. lia.
    - rewrite lookup_other in H by (intro Z; rewrite <- Z, (proj2 (eq_nodeP _ _) eq_refl) in Q; discriminate). apply W in H. contradiction. }
  rewrite lookup_other by assumption. destruct (eq_node (a, ns) (abs, ws ++ [w])) eqn:Q.
  - apply eq_nodeP in Q. injection Q as -> ->. rewrite removelast_last in P. exact P.
  - rewrite lookup_other in H by (intro Z; rewrite <- Z, (proj2 (eq_nodeP _ _) eq_refl) in Q; discriminate). exact (W _ _ _ H).
Qed.
Lemma longer (l : list text) w r : l = (l ++ [w]) ++ r -> False.
Proof. intro R. apply (f_equal (@length _)) in R. rewrite !app_length in R. simpl in R. lia. Qed.
Lemma ends_last b w : ~ In slash w -> ends_slash (b ++ slash :: w) = match w with [] => true | _ => false end.
Proof.
  intro S. destruct w as [|c w]; [unfold ends_slash; rewrite rev_app_distr; reflexivity|].
  change (slash :: c :: w) with ([slash] ++ c :: w). rewrite app_assoc, ends_cat by discriminate. apply ends_word. split; [discriminate|exact S].
Qed.
(** always returns.  It returns true exactly if the path is not empty and does not end with '/', is not a directory, nothing on the way is a
    file, and it exists or has a non-empty directory part.  Then it is an empty file, and the directories leading to it exist.  Nothing
    that existed is removed *)
Theorem C93_open p f : wf f -> exists f' ok, openFile p f = Some (f', ok) /\
  (ok = true <-> p <> [] /\ ends_slash p = false /\ lookup (node_of p) f <> Some None /\ way_free p f /\ (lookup (node_of p) f <> None \/ getFileDir p <> [])) /\
  (ok = true -> way_dirs p f' /\ lookup (node_of p) f' = Some (Some [])) /\
  (forall n x, n <> node_of p -> lookup n f = Some x -> lookup n f' = Some x) /\ only_along p f f' /\ wf f'.
Proof.
  intro W. destruct p as [|c0 p0] eqn:P0.
  { exists f, false. split; [reflexivity|]. repeat split; auto; try discriminate. intros [H _]; destruct (H eq_refl). }
  assert (PN : p <> []) by (rewrite P0; discriminate). rewrite <- P0 in *. clear c0 p0 P0.
  assert (NN : ends_slash p = false -> comps p <> []).
  { intros E Q. destruct (getlinesP slash p) as [_ [H|(vs & w & H & N & _)]].
    - unfold ends_slash in E. rewrite H in E. destruct (getlines slash p) as [|y l] eqn:G using rev_ind; [destruct (PN H)|].
      unfold unlines in E. rewrite map_app, concat_app in E. simpl in E. rewrite app_nil_r, !rev_app_distr in E. discriminate.
    - unfold comps in Q. rewrite H, filter_app in Q. apply app_eq_nil in Q as [_ Q]. destruct w; [contradiction|discriminate]. }
  destruct (fileExists p f) eqn:X.
  - unfold openFile. rewrite X. cbn [negb]. rewrite opensE by exact PN. unfold fileExists, resolve in X.
    destruct (lookup (node_of p) f) as [[s|]|] eqn:L.
    + destruct (ends_slash p) eqn:Es; [destruct p; discriminate|].
      assert (UP : way_dirs p f).
      { intros ps r E N. destruct r as [|x r]; [contradiction|]. apply (wf_up f W _ r x). rewrite <- E. unfold node_of in L. rewrite L. discriminate. }
      eexists _, true. split; [reflexivity|]. split; [|split; [|split; [|split]]].
      * split; [|reflexivity]. intros _. split; [exact PN|]. split; [reflexivity|]. split; [discriminate|]. split; [|left; discriminate].
        intros ps r t E N. rewrite (UP ps r E N). discriminate.
      * intros _. split; [|apply lookup_here; exact (NN eq_refl)].
        intros ps r E N. rewrite lookup_other; [exact (UP ps r E N)|]. unfold node_of. intros [= Q]. rewrite Q in E.
        apply (f_equal (@length _)) in E. rewrite app_length in E. destruct r; [contradiction|simpl in E; lia].
      * intros n x N K. rewrite lookup_other by (intro Z; apply N; symmetry; exact Z). exact K.
      * intros n N. apply lookup_other. intros <-. apply N. unfold node_of; cbn [fst snd]. split; [reflexivity|]. exists []. symmetry; apply app_nil_r.
      * apply put_wf; [exact W|exact (NN eq_refl)| |rewrite L; discriminate].
        apply UP with (r := [last (snd (node_of p)) []]); [apply app_removelast_last, NN; reflexivity|discriminate].
    + exists f, false. split; [reflexivity|]. repeat split; auto; try discriminate. intros (_ & _ & H & _); destruct (H eq_refl).
    + destruct p; discriminate.
  - assert (LN : ends_slash p = false -> lookup (node_of p) f = None).
    { intro Es. unfold fileExists, resolve in X. rewrite Es in X. destruct p; [contradiction|]. destruct (lookup _ f) as [[s|]|]; try discriminate; reflexivity. }
    destruct (getFileDir p) as [|c0 b0] eqn:G.
    { exists f, false. unfold openFile. rewrite X, G. cbn [negb]. split; [reflexivity|]. repeat split; auto; try discriminate.
      intros (_ & Es & _ & _ & [H|H]); [destruct (H (LN Es))|destruct (H eq_refl)]. }
    rewrite <- G in *. assert (GN : getFileDir p <> []) by (rewrite G; discriminate). clear c0 b0 G.
    rewrite open_new by assumption.
    assert (SL : In slash p).
    { unfold getFileDir in GN. destruct (rfind slash p) as [i|] eqn:R; [|destruct (GN eq_refl)]. destruct (rfind_some _ _ _ R) as (x & y & -> & _). apply in_or_app; right; left; reflexivity. }
    pose proof (proj2 (proj2 C92_last) p SL) as E. set (b := getFileDir p) in *. set (w := getLastDirName p) in *.
    assert (SW : ~ In slash w).
    { subst w. unfold getLastDirName. destruct (rfind slash p) as [i|] eqn:R; [|intros []]. destruct (rfind_some _ _ _ R) as (x & y & Q & <- & N). 
      rewrite Q. unfold substr. replace (length x + 1) with (length (x ++ [slash])) by (rewrite app_length; reflexivity).
      change (x ++ slash :: y) with (x ++ [slash] ++ y). rewrite app_assoc, skipn_here, firstn_all2; [exact N|rewrite !app_length; lia]. }
    assert (AB : isAbsolutePath b = isAbsolutePath p) by (rewrite E; destruct b; [contradiction|reflexivity]).
    assert (CP : comps p = comps b ++ comps w) by (rewrite E at 1; apply comps_cat).
    destruct (C93_full b f W) as (f1 & ok1 & -> & A & B & C & M & O & W1).
    assert (O' : only_along p f f1).
    { intros n N. apply O. rewrite AB. intros [Q [r R]]. apply N. split; [exact Q|]. exists (r ++ comps w). rewrite CP, R, <- app_assoc. reflexivity. }
    assert (ES : ends_slash p = match w with [] => true | _ => false end).
    { rewrite E. apply ends_last, SW. }
    clearbody b w.
    destruct w as [|c w'] eqn:Q; [|rewrite <- Q in *; assert (WN : w <> []) by (rewrite Q; discriminate); assert (ES' : ends_slash p = false) by exact ES; clear Q c w'].
    + exists f1, false. split; [destruct ok1; [|reflexivity]; rewrite opensE, ES by exact PN; rewrite andb_false_r; destruct (lookup (node_of p) f1) as [[?|]|]; reflexivity|].
      split; [split; [discriminate|intros (_ & H & _); congruence]|]. split; [discriminate|]. split; [|split; [exact O'|exact W1]]. intros n x _ L. exact (M n x L).
    + rewrite (comps_word w WN SW) in CP.
      assert (NP : node_of p = (isAbsolutePath p, comps b ++ [w])) by (unfold node_of; rewrite CP; reflexivity).
      assert (NB : node_of b = (isAbsolutePath p, comps b)) by (unfold node_of; rewrite AB; reflexivity). rewrite NB in *.
      assert (FREE : way_free p f <-> way_free b f /\ forall s, lookup (isAbsolutePath p, comps b) f <> Some (Some s)).
      { unfold way_free. rewrite AB, CP. split.
        - intro F. split; [intros ps r s R N; apply (F ps (r ++ [w]) s); [rewrite R, <- app_assoc; reflexivity|destruct r; discriminate]|].
          intro s. apply (F (comps b) [w] s eq_refl). discriminate.
        - intros [F1 F2] ps r s R N. destruct r as [|z r _] using rev_ind; [contradiction|].
          rewrite app_assoc in R. apply app_inj_tail in R as [R _]. destruct r as [|y r]; [rewrite app_nil_r in R; subst ps; apply F2|].
          apply (F1 ps (y :: r) s R). discriminate. }
      destruct ok1.
      * destruct (C eq_refl) as (C1 & C2 & _).
        assert (L1 : lookup (node_of p) f1 = None).
        { rewrite O; [exact (LN ES')|]. rewrite NP. cbn [fst snd]. intros [_ [r R]]. exact (longer _ _ _ R). }
        rewrite opensE, L1, ES' by exact PN.
        assert (PD : parent_dir p f1 = true) by (unfold parent_dir; rewrite NP; cbn [fst snd]; rewrite removelast_last, C2; reflexivity).
        rewrite PD. cbn [andb negb]. eexists _, true. split; [reflexivity|]. split; [|split; [|split; [|split]]].
        -- split; [|reflexivity]. intros _. split; [exact PN|]. split; [reflexivity|]. split; [rewrite (LN ES'); discriminate|]. split; [|right; exact GN].
           apply FREE. split; apply A; reflexivity.
        -- intros _. split; [|apply lookup_here; rewrite NP; cbn [snd]; intro Z; apply app_eq_nil in Z as [_ Z]; discriminate].
           intros ps r R N. rewrite CP in R. destruct r as [|z r _] using rev_ind; [contradiction|].
           pose proof R as R'. rewrite app_assoc in R. apply app_inj_tail in R as [R ->].
           rewrite lookup_other; [destruct r as [|y r]; [rewrite app_nil_r in R; subst ps; exact C2|rewrite <- AB; apply (C1 ps (y :: r) R); discriminate]|].
           rewrite NP. intros [= Z]. rewrite <- Z in R. exact (longer _ _ _ R).
        -- intros n x N K. rewrite lookup_other by (intro Z; apply N; symmetry; exact Z). exact (M n x K).
        -- intros n N. rewrite lookup_other; [exact (O' n N)|]. intros <-. apply N. unfold node_of; cbn [fst snd]. split; [reflexivity|]. exists []. symmetry; apply app_nil_r.
        -- apply put_wf; [exact W1|rewrite NP; cbn [snd]; intro Z; apply app_eq_nil in Z as [_ Z]; discriminate| |rewrite L1; discriminate].
           rewrite NP; cbn [fst snd]; rewrite removelast_last; exact C2.
      * exists f1, false. split; [reflexivity|]. split; [|split; [discriminate|split; [intros n x _; exact (M n x)|split; [exact O'|exact W1]]]].
        split; [discriminate|]. intros (_ & _ & _ & F & _). apply A. split; [exact GN|]. apply FREE. exact F.
Qed.
(** a new file given by its bare name, or directly below the root, is not opened *)
Theorem C93_bare w f : w <> [] -> ~ In "/"%char w -> wf f -> lookup (false, [w]) f = None -> lookup (true, [w]) f = None ->
  openFile w f = Some (f, false) /\ openFile ("/"%char :: w) f = Some (f, false).
Proof.
  intros N S W L L'. assert (NW : named w) by (split; assumption).
  assert (G : getFileDir w = [] /\ getFileDir ("/"%char :: w) = []) by (split; [apply C92_dir, S|apply (proj1 C92_dir [] w S)]). destruct G as [G G'].
  assert (R : fileExists w f = false).
  { unfold fileExists. change w with (pre false [] ++ w). rewrite (resolve_pre _ [] w f (Forall_nil _) NW). change (match lookup (false, [w]) f with Some _ => true | None => false end = false). rewrite L. reflexivity. }
  assert (R' : fileExists ("/"%char :: w) f = false).
  { unfold fileExists. change ("/"%char :: w) with (pre true [] ++ w). rewrite (resolve_pre _ [] w f (Forall_nil _) NW). change (match lookup (true, [w]) f with Some _ => true | None => false end = false). rewrite L'. reflexivity. }
  unfold openFile. rewrite R, R', G, G'. split; reflexivity.
Qed.
Lemma wf_nil : wf [].
Proof. intros abs ws w H. unfold lookup in H. cbn [snd] in H. destruct (ws ++ [w]) eqn:E; [apply app_eq_nil in E as [_ E]; discriminate|]. destruct (H eq_refl). Qed.
(** from nothing: a file d/x is created, then directories next to it; the file is in the way of d/x/y, and asked to create the directory d/x the
    recursive function returns true although d/x is a file *)
Example C93_ex : exists f, openFile (T "d//x") [] = Some (f, true) /\ wf f /\ way_free (T "d/a/b") f /\
  (exists f', createDirectoryFull (T "d/a//b/") f = Some (f', true) /\ lookup (false, [T "d"; T "a"; T "b"]) f' = Some None) /\
  createDirectoryRecursive (T "d/x/y") f = Some (f, false) /\ createDirectoryRecursive (T "d/x") f = Some (f, true) /\ createDirectoryFull (T "d/x") f = Some (f, false).
Proof.
  destruct (C93_open (T "d//x") [] wf_nil) as (f & ok & E & _ & _ & _ & _ & W).
  assert (Q : openFile (T "d//x") [] = Some ([((false, [T "d"; T "x"]), Some []); ((false, [T "d"]), None)], true)) by reflexivity.
  rewrite Q in E. injection E as <- <-. eexists. split; [reflexivity|]. split; [exact W|]. split; [|split; [eexists; split; reflexivity|repeat split]].
  intros ps r s R N. assert (C : comps (T "d/a/b") = [T "d"; T "a"; T "b"]) by reflexivity. rewrite C in R.
  destruct ps as [|p1 [|p2 [|p3 ps]]]; cbn [app] in R; [discriminate|injection R as <- _; discriminate|injection R as <- <- _; discriminate|].
  injection R as _ _ _ R. symmetry in R. apply app_eq_nil in R as [_ R]. contradiction.
Qed.

Print Assumptions C93_create.
Print Assumptions C93_full.
Print Assumptions C93_open.
Print Assumptions C93_bare.
