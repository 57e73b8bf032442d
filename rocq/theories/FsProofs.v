From Coq Require Import List Ascii Bool Arith ZArith Lia.
From Verif Require Import Outcome TextModel Spec_Text TextProofs.
Import ListNotations.
Local Open Scope outcome_scope.

(** every existing path lies in a directory *)
Definition wf (f : fs) : Prop := forall abs ws w, lookup (abs, ws ++ [w]) f <> None -> lookup (abs, ws) f = Some None.

Lemma lookup_cons n x f m : lookup m ((n, x) :: f) = match snd m with [] => Some None | _ => if eq_node n m then Some x else lookup m f end.
Proof. unfold lookup. destruct (snd m) eqn:E; [reflexivity|]. cbn [List.find fst]. destruct (eq_node n m); reflexivity. Qed.
Lemma lookup_here n x f : snd n <> [] -> lookup n ((n, x) :: f) = Some x.
Proof. intro N. rewrite lookup_cons. destruct (snd n); [contradiction|]. rewrite (proj2 (eq_nodeP n n) eq_refl). reflexivity. Qed.
Lemma lookup_other n x f m : n <> m -> lookup m ((n, x) :: f) = lookup m f.
Proof. intro N. rewrite lookup_cons. destruct (eq_node n m) eqn:E; [apply eq_nodeP in E; contradiction|].
  destruct (snd m) eqn:F; [|reflexivity]. unfold lookup. rewrite F. reflexivity. Qed.
Lemma wf_up f : wf f -> forall abs r w ws, lookup (abs, ws ++ w :: r) f <> None -> lookup (abs, ws) f = Some None.
Proof.
  intros W abs. induction r as [|x r IH] using rev_ind; intros w ws H; [exact (W _ _ _ H)|].
  apply (IH w). change (w :: r ++ [x]) with ((w :: r) ++ [x]) in H. rewrite app_assoc in H. apply W in H. rewrite H. discriminate.
Qed.

(** the path built by createDirectoryRecursive *)
Definition pre (abs : bool) (done : list text) : text := (if abs then [slash] else []) ++ unlines slash done.
Definition named (w : text) : Prop := w <> [] /\ ~ In slash w.
Lemma pre_snoc abs done w : pre abs (done ++ [w]) = (pre abs done ++ w) ++ [slash].
Proof. unfold pre, unlines. rewrite map_app, concat_app. simpl. rewrite app_nil_r, !app_assoc. reflexivity. Qed.
Lemma comps_pre abs done w : Forall named done -> named w -> comps (pre abs done ++ w) = done ++ [w].
Proof.
  intros D [N S]. unfold comps, pre. rewrite <- app_assoc.
  assert (E : filter nonempty (getlines slash (unlines slash done ++ w)) = done ++ [w]).
  { rewrite getlines_unlines by (rewrite Forall_forall in D; apply D). rewrite getlines_last by assumption.
    rewrite filter_app. f_equal; [|destruct w; [contradiction|reflexivity]].
    clear S N. induction D as [|x l [X _] _ IH]; [reflexivity|]. cbn [filter]. rewrite IH. destruct x; [contradiction|reflexivity]. }
  destruct abs; [|exact E]. change ([slash] ++ unlines slash done ++ w) with ([] ++ slash :: unlines slash done ++ w).
  rewrite getlines_line by (intros []). exact E.
Qed.
Lemma abs_word w r : named w -> isAbsolutePath (w ++ r) = false.
Proof. intros [N S]. destruct w as [|c w]; [contradiction|]. simpl. destruct (Ascii.eqb_spec c slash) as [->|]; [destruct S; left|]; reflexivity. Qed.
Lemma abs_pre abs done w : Forall named done -> named w -> isAbsolutePath (pre abs done ++ w) = abs.
Proof.
  intros D W. unfold pre. destruct abs; [reflexivity|]. destruct done as [|x done]; [change (isAbsolutePath (w) = false); rewrite <- (app_nil_r w); apply abs_word, W|].
  unfold unlines. simpl. rewrite <- !app_assoc. apply abs_word. inversion D; assumption.
Qed.
Lemma node_pre abs done w : Forall named done -> named w -> node_of (pre abs done ++ w) = (abs, done ++ [w]).
Proof. intros D W. unfold node_of. rewrite comps_pre, abs_pre by assumption. reflexivity. Qed.
Lemma ends_word w : named w -> ends_slash w = false.
Proof.
  intros [N S]. unfold ends_slash. destruct (rev w) as [|c r] eqn:E; [reflexivity|].
  destruct (Ascii.eqb_spec c slash) as [->|]; [|reflexivity]. destruct S. rewrite in_rev, E. left; reflexivity.
Qed.
Lemma resolve_pre abs done w f : Forall named done -> named w -> resolve (pre abs done ++ w) f = lookup (abs, done ++ [w]) f.
Proof.
  intros D W. unfold resolve. rewrite node_pre, ends_cat, ends_word by (assumption || apply W).
  destruct (pre abs done ++ w) eqn:E; [apply app_eq_nil in E as [_ E]; destruct (proj1 W E)|]. destruct (lookup (abs, done ++ [w]) f) as [[s|]|]; reflexivity.
Qed.
Lemma createE p f : p <> [] -> createDirectory p f =
  match lookup (node_of p) f with None => if parent_dir p f then ((node_of p, None) :: f, true) else (f, false) | _ => (f, false) end.
Proof. destruct p; [contradiction|reflexivity]. Qed.
Lemma create_pre abs done w f : Forall named done -> named w -> lookup (abs, done ++ [w]) f = None ->
  createDirectory (pre abs done ++ w) f = match lookup (abs, done) f with Some None => (((abs, done ++ [w]), None) :: f, true) | _ => (f, false) end.
Proof.
  intros D W L. rewrite createE by (intro E; apply app_eq_nil in E as [_ E]; exact (proj1 W E)).
  unfold parent_dir. rewrite node_pre by assumption. cbn [fst snd]. rewrite L, removelast_last.
  destruct (lookup (abs, done) f) as [[s|]|]; reflexivity.
Qed.
Lemma loopE path w ts f : w <> [] -> create_loop path (w :: ts) f =
  if negb (fileExists (path ++ w) f) then let (f, ok) := createDirectory (path ++ w) f in if negb ok then (f, false) else create_loop ((path ++ w) ++ [slash]) ts f
  else create_loop ((path ++ w) ++ [slash]) ts f.
Proof. destruct w; [contradiction|reflexivity]. Qed.
Lemma step_loop abs done w ts f : Forall named done -> named w -> create_loop (pre abs done) (w :: ts) f =
  match lookup (abs, done ++ [w]) f with
  | Some _ => create_loop (pre abs (done ++ [w])) ts f
  | None => match lookup (abs, done) f with Some None => create_loop (pre abs (done ++ [w])) ts (((abs, done ++ [w]), None) :: f) | _ => (f, false) end
  end.
Proof.
  intros D W. rewrite loopE by apply W. unfold fileExists. rewrite resolve_pre, <- pre_snoc by assumption.
  destruct (lookup (abs, done ++ [w]) f) eqn:L; [reflexivity|]. cbn [negb]. rewrite create_pre by assumption.
  destruct (lookup (abs, done) f) as [[s|]|]; reflexivity.
Qed.
Lemma loop_skip abs f : forall ts us done, Forall named done -> Forall named ts ->
  (forall ps w r, ts = ps ++ w :: r -> lookup (abs, done ++ ps ++ [w]) f <> None) ->
  create_loop (pre abs done) (ts ++ us) f = create_loop (pre abs (done ++ ts)) us f.
Proof.
  induction ts as [|w ts IH]; intros us done D T H; [rewrite app_nil_r; reflexivity|].
  inversion_clear T as [|? ? W T']. cbn [app]. rewrite step_loop by assumption.
  destruct (lookup (abs, done ++ [w]) f) eqn:L; [|destruct (H [] w ts eq_refl L)].
  rewrite IH; [rewrite <- app_assoc; reflexivity|apply Forall_app; auto|assumption|].
  intros ps x r E. rewrite <- app_assoc. apply (H (w :: ps) x r). rewrite E; reflexivity.
Qed.
(** no file in the way *)
Lemma loop_ok abs : forall ts done f, Forall named done -> Forall named ts -> lookup (abs, done) f = Some None ->
  (forall ps w r s, ts = ps ++ w :: r -> r <> [] -> lookup (abs, done ++ ps ++ [w]) f <> Some (Some s)) ->
  exists f', create_loop (pre abs done) ts f = (f', true) /\
    (forall ps w r, ts = ps ++ w :: r -> lookup (abs, done ++ ps ++ [w]) f' = match lookup (abs, done ++ ps ++ [w]) f with None => Some None | x => x end) /\
    (forall n, (forall ps w r, ts = ps ++ w :: r -> n <> (abs, done ++ ps ++ [w])) -> lookup n f' = lookup n f).
Proof.
  induction ts as [|w ts IH]; intros done f D T L H.
  { exists f. split; [reflexivity|]. split; [intros [|? ?] ? ? E; discriminate|reflexivity]. }
  inversion_clear T as [|? ? W T']. rewrite step_loop by assumption.
  assert (D' : Forall named (done ++ [w])) by (apply Forall_app; auto).
  assert (NE : forall ps x, (abs, done ++ [w]) <> (abs, (done ++ [w]) ++ ps ++ [x])).
  { intros ps x [= E]. apply (f_equal (@length _)) in E. rewrite !app_length in E. simpl in E. lia. }
  destruct (lookup (abs, done ++ [w]) f) as [k|] eqn:K.
  - destruct ts as [|w2 ts].
    + exists f. split; [reflexivity|]. split; [|reflexivity].
      intros [|? [|? ?]] x r E; try discriminate. injection E as <- <-. cbn [app]. rewrite K. reflexivity.
    + destruct k as [s|]; [destruct (H [] w (w2 :: ts) s eq_refl ltac:(discriminate) K)|].
      destruct (IH (done ++ [w]) f D' T' K) as (f' & E & A & B).
      { intros ps x r s E N. rewrite <- app_assoc. apply (H (w :: ps) x r s); [rewrite E; reflexivity|assumption]. }
      exists f'. split; [exact E|]. split.
      * intros [|y ps] x r Q; [injection Q as <- <-; cbn [app]; rewrite (B (abs, done ++ [w])); [rewrite K; reflexivity|intros ps x r _; apply NE]|].
        injection Q as <- Q. specialize (A ps x r Q). rewrite <- app_assoc in A. exact A.
      * intros n N. apply B. intros ps x r Q. rewrite <- app_assoc. apply (N (w :: ps) x r). rewrite Q; reflexivity.
  - rewrite L. set (g := ((abs, done ++ [w]), None) :: f).
    assert (G : forall ps x, lookup (abs, (done ++ [w]) ++ ps ++ [x]) g = lookup (abs, (done ++ [w]) ++ ps ++ [x]) f) by (intros; apply lookup_other, NE).
    destruct (IH (done ++ [w]) g D' T') as (f' & E & A & B).
    { apply lookup_here. cbn [snd]. intro Q. apply app_eq_nil in Q as [_ Q]; discriminate. }
    { intros ps x r s E N. rewrite G. rewrite <- app_assoc. apply (H (w :: ps) x r s); [rewrite E; reflexivity|assumption]. }
    exists f'. split; [exact E|]. split.
    * intros [|y ps] x r Q; [injection Q as <- <-; cbn [app]; rewrite (B (abs, done ++ [w])); [rewrite K; apply lookup_here; cbn [snd]; intro Q; apply app_eq_nil in Q as [_ Q]; discriminate|intros ps x r _; apply NE]|].
      injection Q as <- Q. specialize (A ps x r Q). rewrite G, <- app_assoc in A. exact A.
    * intros n N. rewrite B; [apply lookup_other; intro Q; apply (N [] w ts eq_refl); symmetry; exact Q|].
      intros ps x r Q. rewrite <- app_assoc. apply (N (w :: ps) x r). rewrite Q; reflexivity.
Qed.
(** a file in the way *)
Lemma loop_file abs f ts ps w r s : wf f -> Forall named ts -> ts = ps ++ w :: r -> r <> [] -> lookup (abs, ps ++ [w]) f = Some (Some s) ->
  create_loop (pre abs []) ts f = (f, false).
Proof.
  intros W T -> R L. destruct r as [|x r]; [contradiction|].
  replace (ps ++ w :: x :: r) with ((ps ++ [w]) ++ x :: r) in * by (rewrite <- app_assoc; reflexivity).
  apply Forall_app in T as [T1 T2]. rewrite loop_skip; [|constructor|assumption|].
  - cbn [app]. inversion_clear T2. rewrite step_loop by assumption.
    destruct (lookup (abs, (ps ++ [w]) ++ [x]) f) eqn:E; [|rewrite L; reflexivity].
    assert (K : lookup (abs, ps ++ [w]) f = Some None) by (apply (W _ _ x); rewrite E; discriminate). congruence.
  - intros qs y u E. cbn [app]. destruct u as [|z u] using rev_ind.
    + apply app_inj_tail in E as [<- <-]. rewrite L. discriminate.
    + clear IHu. change (y :: u ++ [z]) with ((y :: u) ++ [z]) in E. rewrite app_assoc in E. apply app_inj_tail in E as [-> ->].
      rewrite <- app_assoc in L. cbn [app] in L. change ((y :: u) ++ [z]) with (y :: u ++ [z]) in L.
      assert (K : lookup (abs, (qs ++ [y]) ++ u ++ [z]) f <> None) by (rewrite <- app_assoc; cbn [app]; rewrite L; discriminate).
      destruct u as [|a u]; [rewrite (wf_up f W abs [] z _ K); discriminate|].
      rewrite (wf_up f W abs (u ++ [z]) a _ K); discriminate.
Qed.
