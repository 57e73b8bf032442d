(** Vocabulary for the DecoupledPropagationHandler: a centralized Kalman filter over the stacked state of all instances, and what it
    means that the registry shows its mean and covariance. *)
From Coq Require Import ZArith List.
From mathcomp Require Import all_ssreflect all_algebra.
From Verif Require Import Outcome DoubleModel BufModel HandlerModel Spec_Handler DMat KFModel Spec_Mat BeliefModel IsoModel IsoProofs Spec_Joint Props_Joint.
Set Implicit Arguments. Unset Strict Implicit. Unset Printing Implicit Defensive.
Import GRing.Theory Num.Theory.
Local Open Scope ring_scope.

Section Spec.
Variable F : realFieldType.
Notation dmat := (dmat F).
Notation dict := (dict (belief F) dmat).
Variables (ids : list nat) (ds : seq nat).   (* the instances in ascending order and their dimensions *)
Notation N := (sumn ds).

(** the rows of the k-th instance in the stacked state *)
Definition sel (k : nat) : 'M[F]_(dim_k ds k, N) := \matrix_(a, c) ((c : nat) == off ds k + a)%N%:R.
(** the identity with the k-th diagonal block replaced by Phi, and zero with the k-th diagonal block replaced by Q *)
Definition only (k : nat) (Phi : 'M[F]_(dim_k ds k)) : 'M[F]_N := 1%:M + (sel k)^T *m (Phi - 1%:M) *m sel k.
Definition at_block (k : nat) (Q : 'M[F]_(dim_k ds k)) : 'M[F]_N := (sel k)^T *m Q *m sel k.

(** the registry shows mean [mu] and covariance [P] at time [t] *)
Definition shows (t : Z) (mu : 'cV[F]_N) (P : 'M[F]_N) (d : dict) : Prop :=
  (forall k id, List.nth_error ids k = Some id -> exists b, bel_of d id t = Some b /\
     dblock (DM mu) (off ds k) 0 (dim_k ds k) 1 = Ok (b_mean b) /\ blk ds (DM P) k k = Ok (b_Sigma b)) /\
  (forall k l i j, List.nth_error ids k = Some i -> List.nth_error ids l = Some j -> (k < l)%N ->
     exists X, get_Sigma_IJ i j t d = Ok X /\ blk ds (DM P) k l = Ok (zero_if_none (dim_k ds k) (dim_k ds l) X)).
(** exactly the instances [ids] are registered, all unfixed, with a belief at [t] and a newest belief of the right dimension *)
Record registered (t : Z) (d : dict) : Prop := Registered {
  g_ids : forall id, List.In id (List.map fst d) <-> List.In id ids;
  g_once : List.NoDup (List.map fst d);
  g_asc : forall k l i j, List.nth_error ids k = Some i -> List.nth_error ids l = Some j -> (k < l)%N -> (i < j)%N;
  g_some : ids <> nil;
  g_len : seq.size ids = seq.size ds;
  g_pos : forall k, (k < seq.size ds)%N -> (0 < dim_k ds k)%N;
  g_bel : forall id i, d_find id d = Some i -> exists b tl bl, get_at_t t (i_bel i) = Some b /\ b_fixed b = false /\
            get_latest (i_bel i) = Some (tl, bl) /\ bel_dim bl = bel_dim b
}.
(** the measurement matrix over all instances: the given blocks, zero for the instances that do not take part *)
Definition spread (dH : list (nat * dmat)) m (Hs : 'M[F]_(m, N)) : Prop := forall k id, List.nth_error ids k = Some id ->
  (forall X, List.In (id, X) dH -> dblock (DM Hs) 0 (off ds k) m (dim_k ds k) = Ok X) /\
  (~ List.In id (List.map fst dH) -> dblock (DM Hs) 0 (off ds k) m (dim_k ds k) = Ok (dzero F m (dim_k ds k))).
(** what the caller must respect: a std::map of matrices with m rows and the columns of their instance *)
Record fits (dH : list (nat * dmat)) (m : nat) : Prop := Fits {
  h_once : List.NoDup (List.map fst dH);
  h_some : dH <> nil;
  h_rows : forall id X, List.In (id, X) dH -> drows X = m;
  h_cols : forall k id X, List.nth_error ids k = Some id -> List.In (id, X) dH -> dcols X = dim_k ds k
}.
End Spec.
