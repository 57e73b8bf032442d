(** Specification for C101: a predicate on all beliefs a registry stores; which public calls bring in only acceptable data. *)
From Coq Require Import ZArith List Bool Arith.
From Verif Require Import BufModel MeasModel HandlerModel.

Section Spec.
Context {B M P : Type}.
Variable good : B -> Prop.
Variable okm : meas P -> Prop.
Definition good_inst (i : inst B M) : Prop := forall k b, In (k, b) (i_bel i) -> good b.
Definition good_dict (d : dict B M) : Prop := forall id i, In (id, i) d -> good_inst i.
(** the calls: measurements are acceptable and added instances come with acceptable beliefs; all other calls are arbitrary *)
Definition ok_call (o : @hop B M P) : Prop :=
  match o with
  | OProcess m | OInsert m => okm m
  | OAdd _ i => good_inst i
  | _ => True
  end.
End Spec.
