(** Printing what buffers and estimators hold.
    Sources: THistoryBuffer.hpp (THB), TMultiHistoryBuffer.hpp (TMB), Estimator/IKalmanFilter.cpp (IKF),
    Estimator/IIsolatedKalmanFilterCorr.cpp (CRR), EstimatorHandler/IDICOHandler.cpp (IDH).
    The layout of a line is not modelled: a line is the entry it shows. *)
From Coq Require Import ZArith List Bool Arith.
From Verif Require Import Outcome BufModel.
Import ListNotations.
Local Open Scope outcome_scope.

Section Print.
Context {T : Type}.
(** THB 177-185, 194-202; TMB 214-223: the loop with its counter *)
Fixpoint print_loop (len cnt : nat) (l : list (Z * T)) : list (Z * T) :=
  match l with
  | [] => []
  | e :: r => if Nat.ltb cnt len then e :: print_loop len (S cnt) r else [] end.
Definition print_len (N : nat) (l : list (Z * T)) : nat := if Nat.eqb N 0 then length l else N.
(** THB 171-186; TMB 207-224: print(out, N) *)
Definition buf_print (N : nat) (l : list (Z * T)) := print_loop (print_len N l) 0 l.
(** THB 188-203: print_reverse(out, N) *)
Definition buf_print_reverse (N : nat) (l : list (Z * T)) := print_loop (print_len N l) 0 (rev l).
(** THB 163-169; TMB 198-205: operator<<: the number of entries and all entries *)
Definition buf_show (l : list (Z * T)) : nat * list (Z * T) := (length l, l).

(** IKF 262-278 print_HistMeas, CRR 195-209 print_HistCorr: the callback with its counter; what it shows never fails *)
Definition show_one (max : nat) (s : nat * list T) (x : T) : nat * list T :=
  let '(cnt, out) := s in (S cnt, if Nat.ltb cnt max then out ++ [x] else out).
Definition print_hist (max : nat) (reverse : bool) (l : list (Z * T)) : list T :=
  snd (if reverse then foreach_reverse (show_one max) (0%nat, []) l else foreach (show_one max) (0%nat, []) l).
(** IDH 138-152: print_HistMeas(out, max) of a handler; [locked]: its mutex was obtained in time *)
Definition handler_print (locked : bool) (max : nat) (l : list (Z * T)) : list T :=
  if locked then snd (foreach (show_one max) (0%nat, []) l) else [].
End Print.
(** IKF 280-297 print_HistBelief: entries are pointers and shown by dereferencing *)
Definition show_bel {B} (max : nat) (s : outcome (nat * list B)) (x : option B) : outcome (nat * list B) :=
  let! (cnt, out) := s in
  if Nat.ltb cnt max then match x with Some b => Ok (S cnt, out ++ [b]) | None => UB NullDeref end else Ok (S cnt, out).
Definition print_beliefs {B} (max : nat) (reverse : bool) (l : list (Z * option B)) : outcome (list B) :=
  let! s := (if reverse then foreach_reverse (show_bel max) (Ok (0%nat, [])) l else foreach (show_bel max) (Ok (0%nat, [])) l) in
  Ok (snd s).
