(** Buffers whose times lie in a window. *)
From Coq Require Import ZArith List Bool Lia Sorted.
From Verif Require Import Outcome DoubleModel BufModel Spec_Buf BufProofs HorizonModel HorizonProofs MeasModel HandlerModel Spec_Handler ClockProofs.
Import ListNotations.
Local Open Scope Z_scope.
(** times up to 24 days fit the exactness results *)
Definition span_max : Z := 2097151 * 1000000000.
Lemma okb_ins {T} wa wb t (v : T) (b : buf T) : wa <= t -> t <= wb -> okb wa wb b -> okb wa wb (hb_insert t v b).
Proof.
  intros H1 H2 [S H]. split; [now apply hb_insert_ssorted|].
  intros e I. apply hb_insert_In in I; [|exact S]. destruct I as [->|[I _]]; [cbn; lia|now apply H].
Qed.
Lemma okb_eq {T} wa wb (b b' : buf T) : okb wa wb b -> okb wa wb b' -> (forall k, get_at_t k b = get_at_t k b') -> b = b'.
Proof.
  intros [S _] [S' _] H. apply wsorted_ext; try now apply ssorted_w. intros s.
  assert (Q : forall l : buf T, ssorted l -> elements_at s l = match get_at_t s l with Some v => [(s, v)] | None => [] end).
  { clear. intros l. induction 1 as [|[k v] r S IH F]; [reflexivity|]. unfold elements_at in *. cbn [filter fst].
    rewrite get_at_first in *. cbn [find fst]. destruct (Z.eqb_spec k s) as [->|N]; [|exact IH]. cbn. f_equal. apply filter_all_false.
    rewrite Forall_forall in *. intros e I. specialize (F e I). unfold klt in F. cbn in F. lia. }
  now rewrite !Q, H.
Qed.
Lemma trim_noop {T} tmax sl hor hz wa wb (b : buf T) : clock tmax sl -> h_near hor hz -> 0 <= hz < span_max -> 0 <= wa -> wb < tmax -> wb - wa <= hz - sl ->
  okb wa wb b -> check_horizon_restricted hor 4 b = Ok b.
Proof.
  unfold span_max. intros Ck N H0 A0 B0 L [S H]. apply (check_restricted_clock tmax sl Ck hor hz); [now apply ssorted_w|exact N|exact H0| |].
  - intros e I. specialize (H e I). lia.
  - intros e e' I I'. pose proof (H e I). pose proof (H e' I'). lia.
Qed.
