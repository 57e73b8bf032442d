(** Specification for the lazily corrected isolated filter: the ordered product of the correction terms in a time interval. *)
From Coq Require Import ZArith List.
From mathcomp Require Import all_ssreflect all_algebra.
From Verif Require Import DMat BufModel BufProofs.
Set Implicit Arguments. Unset Strict Implicit. Unset Printing Implicit Defensive.
Local Open Scope ring_scope.

Section Spec.
Variable F : realFieldType.
(** a run-time sized matrix read as an m x n matrix *)
Definition mx_of m n (A : dmat F) : 'M[F]_(m, n) := \matrix_(i, j) entry A i j.
(** the product of a list of n x n matrices in order of application: the last one leftmost *)
Fixpoint applied n (l : list (dmat F)) : 'M[F]_n :=
  match l with nil => 1%:M | A :: r => applied n r *m mx_of n n A end.
(** the terms with ta < time <= tb *)
Definition terms (ta tb : Z) (h : list (Z * dmat F)) : list (dmat F) :=
  List.map snd (List.filter (fun e => Z.ltb ta e.1 && Z.leb e.1 tb) h).
Definition product n (ta tb : Z) (h : list (Z * dmat F)) : 'M[F]_n := applied n (terms ta tb h).
(** every term is n x n *)
Definition square n (h : list (Z * dmat F)) : Prop := forall e, List.In e h -> drows e.2 = n /\ dcols e.2 = n.
(** times of the exactness results for the horizon buffers: 2^21 - 1 seconds in ns *)
Definition tmax : Z := Z.mul (Zpos 2097151) (Zpos 1000000000).
(** a correction history as it arises from propagations of at most [step] ns: in time order, n x n terms, the newest at [cur],
    consecutive terms at most [step] apart, and not longer than [span] ns *)
Record regular (n : nat) (step span cur : Z) (h : buf (dmat F)) : Prop := {
  ho_sorted : ssorted h;
  ho_sq : square n h;
  ho_latest : get_latest_t h = Some cur;
  ho_range : forall e, List.In e h -> Z.le 0 e.1 /\ Z.lt (Z.add e.1 span) tmax;
  ho_gap : forall e, List.In e h -> Z.lt e.1 cur -> exists e', List.In e' h /\ Z.lt e.1 e'.1 /\ Z.le e'.1 (Z.add e.1 step);
  ho_span : forall e, List.In e h -> Z.le (Z.sub cur span) e.1 }.
End Spec.
