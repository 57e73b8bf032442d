(** Specification side of C89: the other agents, and what it means that all agents together act as one handler. *)
From Coq Require Import ZArith List Bool Arith.
From mathcomp Require Import all_ssreflect all_algebra.
From Verif Require Import Outcome DoubleModel BufModel HandlerModel DMat KFModel BeliefModel IsoModel MultiModel.
Set Implicit Arguments. Unset Strict Implicit. Unset Printing Implicit Defensive.
Import GRing.Theory Num.Theory.
Local Open Scope outcome_scope.
Section Spec.
Variable F : realFieldType.
Variable junk : forall n, 'M[F]_n -> 'M[F]_n.
Notation dmat := (dmat F).
Notation belief := (belief F).
Notation dict := (dict belief dmat).
Notation inst := (inst belief dmat).
Notation keys m := (List.map fst m).
Variable predict : nat -> Z -> inst -> outcome (inst * bool).
(** the other agents: the estimators registered there, and the requests to redo updates they have received.  Their agent
    handlers answer with the access methods of their own handlers *)
Definition world := (dict * list (nat * Z))%type.
Definition w_bel (id : nat) (t : Z) (w : world) : outcome (world * option belief) :=
  let! (d, ob) := acc_get_bel predict id t (fst w) in Ok ((d, snd w), ob).
Definition w_set_bel (id : nat) (t : Z) (b : belief) (w : world) : outcome world := Ok (fst (acc_set_bel id b t (fst w)), snd w).
Definition w_fact (w : world) (I J : nat) (t : Z) : dmat := acc_get_fact I t J (fst w).
Definition w_set_fact (I J : nat) (X : dmat) (t : Z) (w : world) : outcome world := Ok (fst (acc_set_fact I t J X (fst w)), snd w).
Definition w_correct (id : nat) (t : Z) (Sapri Sapos : dmat) (w : world) : outcome world :=
  let! i := dinv junk Sapri in let! L := dmul Sapos i in let! (d, _) := acc_correct id t L (fst w) in Ok (d, snd w).
Definition w_redo (a : nat) (t : Z) (w : world) : outcome world := Ok (fst w, snd w ++ [:: (a, t)]).

(** the handler and the other agents together did what one handler with all the estimators does: same result, the
    registries side by side are the one registry, nobody moved, and the requests [lg] were sent *)
Definition as_one (kd kr : list nat) (lg : bool -> list (nat * Z)) (o : outcome (dict * world * bool)) (u : outcome (dict * bool)) : Prop :=
  match o, u with
  | Ok ((d, w), x), Ok (u, y) => u = d ++ fst w /\ x = y /\ keys d = kd /\ keys (fst w) = kr /\ snd w = lg x
  | Abort e, Abort e' => e = e'
  | UB e, UB e' => e = e'
  | _, _ => False
  end.
End Spec.
