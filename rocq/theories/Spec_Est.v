(** What is asked of estimators and measurements: the dimensions fit.  [n id] is the dimension of instance id's state. *)
From Coq Require Import ZArith List.
From mathcomp Require Import all_ssreflect all_algebra.
From Verif Require Import Outcome DoubleModel BufModel MeasModel HandlerModel Spec_Handler DMat KFModel BeliefModel EstModel.
Set Implicit Arguments. Unset Strict Implicit. Unset Printing Implicit Defensive.
Section SpecEst.
Variable F : realFieldType.
Notation dmat := (dmat F).
Notation belief := (belief F).
Notation inst := (inst belief dmat).
Notation dict := (dict belief dmat).
Variable P : Type.
Notation meas := (meas P).
Variable u : models F P.
Variable n : nat -> nat.
Variable reg : list nat.                            (* the registered IDs *)
(** an r x c matrix *)
Definition shaped (r c : nat) (A : dmat) : Prop := drows A = r /\ dcols A = c.
(** a belief stored by id at k: right dimensions, not fixed, stamped with the time it is stored at *)
Definition bel_typed (id : nat) (k : Z) (b : belief) : Prop :=
  shaped (n id) 1 (b_mean b) /\ shaped (n id) (n id) (b_Sigma b) /\ b_fixed b = false /\ b_t b = k.
(** beliefs, and factors towards j (square roots of the cross-covariance, n id x n (max id j)) *)
Definition inst_typed (id : nat) (i : inst) : Prop :=
  (forall k b, bel_at k i = Some b -> bel_typed id k b) /\
  (forall j k f, ccf_at j k i = Some f -> shaped (n id) (n (maxn id j)) f).
(** all instances *)
Definition typed (d : dict) : Prop := List.map fst d = reg /\ forall id i, d_find id d = Some i -> inst_typed id i.
Definition ascending_ids (ids : list nat) : Prop := sorted ltn ids.
(** a measurement addressed to a registered instance whose models return matrices that fit; a joint one names registered
    participants in std::map order *)
Definition okm (m : meas) : Prop :=
  List.In (m_id m) reg /\
  match m_ty m with
  | PROPAGATION => forall ta mean, shaped (n (m_id m)) 1 mean ->
      let '(mb, Phi, Q) := u_prop u (m_id m) (m_dat m) ta (m_t m) mean in
      shaped (n (m_id m)) 1 mb /\ shaped (n (m_id m)) (n (m_id m)) Phi /\ shaped (n (m_id m)) (n (m_id m)) Q
  | PRIVATE => let '(H, R, z) := u_priv u (m_id m) (m_dat m) in
      exists p, shaped p (n (m_id m)) H /\ shaped p p R /\ shaped p 1 z
  | JOINT => let '(dH, z, R) := u_joint u (m_id m) (m_dat m) in
      dH <> nil /\ ascending_ids (List.map fst dH) /\ (forall id, List.In id (List.map fst dH) -> List.In id reg) /\
      exists p, (forall id X, List.In (id, X) dH -> shaped p (n id) X) /\ shaped p p R /\ shaped p 1 z
  | UNKNOWN => False
  end.
End SpecEst.
