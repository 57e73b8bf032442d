(** C81: the threshold table against the chi-square distribution. *)
From Coq Require Import Reals ZArith List Bool Lia Lra.
From Coquelicot Require Import Coquelicot.
From Verif Require Import Outcome TimestampModel DoubleModel Chi2Model Props_Chi2 Spec_Chi2 Chi2Proofs.
Import ListNotations.
Local Open Scope R_scope.

(** the real number meant by a threshold (the model keeps the decimal literals in units of 1e-5) *)
Definition threshold (v : Z) : R := IZR v / 100000.

(** every entry, with its degrees of freedom and its confidence *)
Definition lo24 (v : Z) : Z := (Z.shiftl (v - 5) 24 / 100000 + 1)%Z.   (* just above threshold - 5e-5, in units of 2^-24 *)
Definition hi24 (v : Z) : Z := (Z.shiftl (v + 5) 24 / 100000)%Z.       (* just below threshold + 5e-5 *)
Definition entry_ok (k : Z) (df : nat) (v : Z) : bool := below (S df) (lo24 v) k && above (S df) (hi24 v) k && (5 <=? v)%Z && (0 <=? k)%Z.
Fixpoint column_ok (k : Z) (df : nat) (l : list Z) : bool := match l with [] => true | v :: r => entry_ok k df v && column_ok k (S df) r end.
Lemma table_checked : forallb (fun k => column_ok k 0 (column k)) tabulated = true.
Proof. vm_compute. reflexivity. Qed.
Lemma column_ok_nth k l : forall d df v, column_ok k d l = true -> nth_error l df = Some v -> entry_ok k (df + d) v = true.
Proof.
  induction l as [|a l IH]; intros d df v C E; [destruct df; discriminate|].
  cbn in C. apply andb_true_iff in C. destruct C as [C1 C2]. destruct df as [|df]; cbn in E; [now injection E as <-|].
  rewrite Nat.add_succ_comm. now apply IH.
Qed.
Lemma entry k p df v : means_permille p k -> In k tabulated -> (df < 50)%nat -> chi2inv p df = Ok v -> entry_ok k df v = true.
Proof.
  intros M I D E. destruct (proj1 (C24_lookup p k df M I) D) as [v' [N E']]. rewrite E in E'. injection E' as <-.
  rewrite <- (Nat.add_0_r df). apply (column_ok_nth k (column k)); [|exact N].
  exact (proj1 (forallb_forall _ _) table_checked k I).
Qed.

Lemma at_lo v : threshold v - 5 / 100000 < xr 24 (lo24 v).
Proof.
  unfold lo24, xr. rewrite Z.shiftl_mul_pow2 by lia. pose proof (proj2 (div_le ((v - 5) * 2 ^ 24) 100000 ltac:(lia))) as D. pose proof (sh_pos 24 ltac:(lia)).
  rewrite plus_IZR. rewrite mult_IZR, minus_IZR in D. set (q := IZR ((v - 5) * 2 ^ 24 / 100000)) in *. set (d := IZR (2 ^ 24)) in *.
  apply (Rmult_lt_reg_r d); [lra|]. replace ((q + 1) / d * d) with (q + 1) by (field; lra). unfold threshold. lra.
Qed.
Lemma at_hi v : xr 24 (hi24 v) <= threshold v + 5 / 100000.
Proof.
  unfold hi24, xr. rewrite Z.shiftl_mul_pow2 by lia. pose proof (proj1 (div_le ((v + 5) * 2 ^ 24) 100000 ltac:(lia))) as D. pose proof (sh_pos 24 ltac:(lia)).
  rewrite mult_IZR, plus_IZR in D. set (q := IZR ((v + 5) * 2 ^ 24 / 100000)) in *. set (d := IZR (2 ^ 24)) in *.
  apply (Rmult_le_reg_r d); [lra|]. replace (q / d * d) with q by (field; lra). unfold threshold. lra.
Qed.

(** C81. For every tabulated confidence k/1000 and every dimension argument below fifty, the threshold handed out is the
    (k/1000)-quantile of the chi-square distribution with ONE MORE degree of freedom than the argument, to within 5e-5:
    the distribution function is below k/1000 at threshold - 5e-5 and above it at threshold + 5e-5. *)
Theorem C81_accuracy : forall p k df v F, means_permille p k -> In k tabulated -> (df < 50)%nat -> chi2inv p df = Ok v ->
  chi2_cdf (S df) F ->
  F (threshold v - 5 / 100000) < IZR k / 1000 < F (threshold v + 5 / 100000).
Proof.
  intros p k df v F M I D E HF. pose proof (entry k p df v M I D E) as C. unfold entry_ok in C. rewrite !andb_true_iff in C.
  destruct C as [[[B A] L] U]. apply Z.leb_le in L. apply Z.leb_le in U.
  assert (H0 : (0 <= lo24 v)%Z) by (unfold lo24; rewrite Z.shiftl_mul_pow2 by lia; assert (0 <= (v - 5) * 2 ^ 24 / 100000)%Z by (apply Z.div_pos; lia); lia).
  assert (H1 : (0 <= hi24 v)%Z) by (unfold hi24; rewrite Z.shiftl_mul_pow2 by lia; apply Z.div_pos; lia).
  apply IZR_le in L. split.
  - eapply Rlt_trans; [|exact (below_ok df (lo24 v) k F HF H0 U B)]. apply (cdf_increasing df F); [exact HF|]. split; [unfold threshold; lra|apply at_lo].
  - eapply Rlt_le_trans; [exact (above_ok df (hi24 v) k F HF H1 U A)|]. destruct (at_hi v) as [N|N]; [|rewrite N; lra].
    left. apply (cdf_increasing df F); [exact HF|]. split; [apply xr_ge0; [lia|exact H1]|exact N].
Qed.
(** the quantile itself exists, is unique, and the threshold is within 5e-5 of it *)
Theorem C81_quantile : forall p k df v F, means_permille p k -> In k tabulated -> (df < 50)%nat -> chi2inv p df = Ok v ->
  chi2_cdf (S df) F ->
  exists q, F q = IZR k / 1000 /\ (forall q', F q' = IZR k / 1000 -> q' = q) /\ Rabs (threshold v - q) < 5 / 100000.
Proof.
  intros p k df v F M I D E HF. destruct (C81_accuracy p k df v F M I D E HF) as [B A].
  pose proof (entry k p df v M I D E) as C. unfold entry_ok in C. rewrite !andb_true_iff in C.
  destruct C as [[_ L] U]. apply Z.leb_le in L. apply IZR_le in L.
  assert (T0 : 0 <= threshold v - 5 / 100000) by (unfold threshold; lra).
  destruct (IVT_gen F (threshold v - 5 / 100000) (threshold v + 5 / 100000) (IZR k / 1000)) as [q [Q1 Q2]].
  - intros x. apply continuity_pt_filterlim. exact (proj1 (proj2 HF) x).
  - rewrite Rmin_left, Rmax_right by lra. lra.
  - rewrite Rmin_left, Rmax_right in Q1 by lra. exists q. split; [exact Q2|]. split.
    + intros q' H. assert (K0 : 0 < IZR k / 1000).
      { rewrite <- Q2. assert (Fz : F (threshold v - 5 / 100000) >= 0). { destruct (Req_dec (threshold v - 5 / 100000) 0) as [->|N]; [rewrite (proj1 HF) by lra; lra|].
          pose proof (cdf_increasing df F 0 (threshold v - 5 / 100000) HF ltac:(lra)) as W. rewrite (proj1 HF 0) in W by lra. lra. } lra. }
      assert (Hq' : 0 < q'). { apply Rnot_le_lt. intros N. rewrite (proj1 HF q' N) in H. lra. }
      destruct (Rtotal_order q' q) as [N|[N|N]]; [|exact N|]; exfalso.
      * pose proof (cdf_increasing df F q' q HF ltac:(lra)). lra.
      * pose proof (cdf_increasing df F q q' HF ltac:(lra)). lra.
    + destruct (Req_dec q (threshold v - 5 / 100000)) as [N|N]; [rewrite N in Q2; lra|].
      destruct (Req_dec q (threshold v + 5 / 100000)) as [N'|N']; [rewrite N' in Q2; lra|].
      apply Rabs_def1; lra.
Qed.
(** so the gate, which passes the innovation dimension itself, uses a threshold whose coverage for that dimension is
    larger than the confidence asked for: a consistent innovation is rejected LESS often than configured *)
Theorem C81_gate_lenient : forall p k df v F, means_permille p k -> In k tabulated -> (1 <= df < 50)%nat -> chi2inv p df = Ok v ->
  chi2_cdf df F -> IZR k / 1000 < F (threshold v).
Proof.
  intros p k df v F M I D E HF.
  (* the previous entry v0 + 5 is still below v *)
  destruct df as [|df]; [lia|].
  destruct (proj1 (C24_lookup p k df M I) ltac:(lia)) as [v0 [_ E0]].
  destruct (C81_accuracy p k df v0 F M I ltac:(lia) E0 HF) as [_ A]. eapply Rlt_trans; [exact A|].
  assert (V : (v0 + 5 < v)%Z).
  { assert (W : forallb (fun k => forallb (fun d => (nth d (column k) 0 + 5 <? nth (S d) (column k) 0)%Z) (seq 0 49)) tabulated = true) by (vm_compute; reflexivity).
    destruct (proj1 (C24_lookup p k (S df) M I) ltac:(lia)) as [w [Nw Ew]]. rewrite E in Ew. injection Ew as <-.
    destruct (proj1 (C24_lookup p k df M I) ltac:(lia)) as [w0 [Nw0 Ew0]]. rewrite E0 in Ew0. injection Ew0 as <-.
    pose proof (proj1 (forallb_forall _ _) (proj1 (forallb_forall _ _) W k I) df ltac:(apply in_seq; lia)) as Z. cbv beta in Z.
    rewrite (nth_error_nth _ _ _ Nw0), (nth_error_nth _ _ _ Nw) in Z. now apply Z.ltb_lt in Z. }
  apply (cdf_increasing df); [exact HF|]. apply IZR_lt in V. rewrite plus_IZR in V.
  pose proof (entry k p df v0 M I ltac:(lia) E0) as C. unfold entry_ok in C. rewrite !andb_true_iff in C. destruct C as [[_ L] _]. apply Z.leb_le in L. apply IZR_le in L.
  unfold threshold. lra.
Qed.
(** the distribution function meant by the specification exists and is unique, for every number of degrees of freedom *)
Theorem C81_distribution_exists : forall k, (1 <= k)%nat -> exists F, chi2_cdf k F /\ forall F', chi2_cdf k F' -> forall x, F' x = F x.
Proof.
  intros [|k] H; [lia|]. destruct (cdf_exists k) as [F HF]. exists F. split; [exact HF|]. intros F' HF' x. exact (cdf_unique k F' F HF' HF x).
Qed.
(** a non-trivial instance: two degrees of freedom, where the distribution function is 1 - exp (-x/2) *)
Example C81_example : exists p F, means_permille p 950 /\ chi2inv p 1 = Ok 599150%Z /\ chi2_cdf 2 F /\
  F (599145 / 100000) < 95 / 100 < F (599155 / 100000).
Proof.
  destruct (C81_distribution_exists 2 ltac:(lia)) as [F [HF _]]. exists (conf 950), F.
  assert (M : means_permille (conf 950) 950) by (vm_compute; reflexivity).
  assert (I : In 950%Z tabulated) by (cbn; tauto).
  assert (E : chi2inv (conf 950) 1 = Ok 599150%Z) by (vm_compute; reflexivity).
  split; [exact M|]. split; [exact E|]. split; [exact HF|].
  pose proof (C81_accuracy (conf 950) 950 1 599150 F M I ltac:(lia) E HF) as [B A]. unfold threshold in *.
  replace (599150 / 100000 - 5 / 100000) with (599145 / 100000) in B by lra.
  replace (599150 / 100000 + 5 / 100000) with (599155 / 100000) in A by lra. lra.
Qed.
Print Assumptions C81_accuracy.
Print Assumptions C81_quantile.
Print Assumptions C81_gate_lenient.
Print Assumptions C81_distribution_exists.
