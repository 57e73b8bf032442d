(** Properties C24, C25: the threshold table of the innovation gate. *)
From Coq Require Import ZArith List Bool Lia.
From Flocq Require Import IEEE754.BinarySingleNaN.
From Verif Require Import Outcome TimestampModel DoubleModel Chi2Model.
Import ListNotations.
Local Open Scope Z_scope.

(** The tabulated confidences in per mille. *)
Definition tabulated : list Z := [380; 500; 680; 950; 997].
(** A double that means [k] per mille: times thousand it rounds to [k]. *)
Definition means_permille (p : double) (k : Z) : Prop := permille p = Ok k.

(** The column of the table for confidence [k]. *)
Definition column (k : Z) : list Z := match map_find k lookup with Some v => v | None => [] end.

Lemma lookup_keys : map fst lookup = tabulated.
Proof. reflexivity. Qed.
Lemma map_find_some k : (exists v, map_find k lookup = Some v) <-> In k tabulated.
Proof.
  rewrite <- lookup_keys. generalize lookup. intros m. induction m as [|[k' v] r IH]; cbn; [split; [intros [? H]; discriminate|tauto]|].
  destruct (Z.eqb_spec k k') as [->|N]; [split; [now left|eauto]|]. rewrite IH. split; [now right|intros [E|H]; [congruence|exact H]].
Qed.
Lemma column_length k : In k tabulated -> length (column k) = 50%nat.
Proof. cbn [tabulated In]. intros [<-|[<-|[<-|[<-|[<-|[]]]]]]; reflexivity. Qed.

(** What the code returns at a tabulated confidence: entry number [df] counted from zero, i.e. the threshold the
    table lists for df+1 degrees of freedom, and 0 (reject everything) from 50 degrees of freedom on. *)
Theorem C24_lookup : forall p k df, means_permille p k -> In k tabulated ->
  ((df < 50)%nat -> exists v, nth_error (column k) df = Some v /\ chi2inv p df = Ok v) /\
  ((50 <= df)%nat -> chi2inv p df = Ok 0).
Proof.
  intros p k df H I. pose proof (column_length k I) as L.
  apply map_find_some in I. destruct I as [v E].
  assert (C : chi2inv p df = if (df <? length v)%nat then Ok (nth df v 0) else Ok 0).
  { unfold chi2inv. red in H. rewrite H. cbn [obind]. now rewrite E. }
  rewrite C. clear C. unfold column in *. rewrite E in *. split; intros D.
  - destruct (nth_error v df) as [x|] eqn:N; [|apply nth_error_None in N; lia]. exists x. split; [reflexivity|].
    replace (df <? length v)%nat with true by (symmetry; apply Nat.ltb_lt; lia). f_equal. now apply nth_error_nth.
  - replace (df <? length v)%nat with false by (symmetry; apply Nat.ltb_ge; lia). reflexivity.
Qed.

(** the returned threshold grows strictly with the degrees of freedom and with the confidence *)
Theorem C24_monotone : forall p p' k k' df df' v v',
  means_permille p k -> means_permille p' k' -> In k tabulated -> In k' tabulated ->
  chi2inv p df = Ok v -> chi2inv p' df' = Ok v' -> k <= k' -> (df <= df' < 50)%nat -> (k, df) <> (k', df') -> v < v'.
Proof.
  intros p p' k k' df df' v v' H H' I I' E E' Lk Ld N.
  destruct (C24_lookup p k df H I) as [A _]. destruct (C24_lookup p' k' df' H' I') as [A' _].
  destruct A as [x [X1 X2]]; [lia|]. destruct A' as [x' [X1' X2']]; [lia|].
  rewrite X2 in E. rewrite X2' in E'. injection E as <-. injection E' as <-.
  assert (T : forallb (fun k => forallb (fun k' => forallb (fun d => forallb (fun d' =>
      implb ((k <=? k') && (d <=? d')%nat && negb ((k =? k') && (d =? d')%nat))
            (nth d (column k) 0 <? nth d' (column k') 0)) (seq 0 50)) (seq 0 50)) tabulated) tabulated = true)
    by (vm_compute; reflexivity).
  rewrite forallb_forall in T. specialize (T k I). rewrite forallb_forall in T. specialize (T k' I').
  rewrite forallb_forall in T. specialize (T df ltac:(apply in_seq; lia)). rewrite forallb_forall in T.
  specialize (T df' ltac:(apply in_seq; lia)).
  rewrite (nth_error_nth _ _ _ X1), (nth_error_nth _ _ _ X1') in T.
  replace (k <=? k') with true in T by (symmetry; lia).
  replace (df <=? df')%nat with true in T by (symmetry; apply Nat.leb_le; lia).
  replace ((k =? k') && (df =? df')%nat) with false in T.
  - cbn in T. now apply Z.ltb_lt.
  - symmetry. apply andb_false_iff. destruct (Z.eqb_spec k k') as [->|]; [right|now left].
    apply Nat.eqb_neq. congruence.
Qed.
Definition conf (k : Z) : double := Bdiv mode_NE (d_of_Z k) (d_of_Z 1000).
Example C24_example : Forall (fun k => means_permille (conf k) k) tabulated /\ chi2inv (conf 950) 3 = Ok 948770.
Proof. split; [repeat constructor|]; vm_compute; reflexivity. Qed.
(** One degree of freedom at 95 percent: the table's own entry is 3.8415, the function returns 5.9915; and the
    last tabulated row (50 degrees of freedom) is never used: 0 is returned. *)
Theorem C24_off_by_one :
  exists p, means_permille p 950 /\
    hd_error (column 950) = Some 384150 /\ chi2inv p 1 = Ok 599150 /\
    nth_error (column 950) 49 = Some 6750480 /\ chi2inv p 50 = Ok 0.
Proof. exists (conf 950). repeat split; vm_compute; reflexivity. Qed.

Lemma chi2inv_no_abort p df r : chi2inv p df <> Abort r.
Proof.
  unfold chi2inv, permille, d_to_int32. destruct (_ && _); [|discriminate]. cbn [obind].
  destruct (map_find _ _) as [v|]; [|discriminate]. destruct (_ <? _)%nat; discriminate.
Qed.

(** ** C25 *)
(** memory-safe exactly at the tabulated confidences *)
Theorem C25_safe_iff_tabulated : forall p k df, means_permille p k ->
  (In k tabulated -> exists v, chi2inv p df = Ok v) /\ (~ In k tabulated -> chi2inv p df = UB EndIterDeref).
Proof.
  intros p k df H. split.
  - intros I. destruct (C24_lookup p k df H I) as [A B]. destruct (Nat.lt_ge_cases df 50) as [L|L].
    + destruct (A L) as [v [_ E]]. eauto.
    + eauto.
  - intros N. unfold chi2inv. red in H. rewrite H. cbn [obind]. destruct (map_find k lookup) as [v|] eqn:E; [|reflexivity].
    exfalso. apply N. apply map_find_some. eauto.
Qed.
Theorem C25_untabulated_undefined :
  exists p, is_finite p = true /\ Bltb (d_of_Z 0) p = true /\ Bltb p (d_of_Z 1) = true /\ means_permille p 990 /\
    forall df, chi2inv p df = UB EndIterDeref.
Proof.
  exists (conf 990). assert (M : means_permille (conf 990) 990) by (vm_compute; reflexivity).
  split; [vm_compute; reflexivity|]. split; [vm_compute; reflexivity|]. split; [vm_compute; reflexivity|]. split; [exact M|].
  intros df. apply (C25_safe_iff_tabulated (conf 990) 990 df M). cbn. lia.
Qed.
Example C25_example : chi2inv (conf 997) 3 = Ok 1601430.
Proof. vm_compute. reflexivity. Qed.

Print Assumptions C24_lookup.
Print Assumptions C24_monotone.
Print Assumptions C24_off_by_one.
Print Assumptions C25_safe_iff_tabulated.
Print Assumptions C25_untabulated_undefined.
