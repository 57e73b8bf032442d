(** The random number singletons.
    Sources (under /repo/source/ikf): source/utils/GaussianNoiseGen.cpp (GNG), include/ikf/utils/GaussianNoiseGen.hpp (GNH),
    include/ikf/utils/RandomSampler.hpp (RSH).

    The engine std::mt19937 is a parameter: its states [G] and its seeding from a 32 bit number.  std::normal_distribution<double>
    is modelled as libstdc++ has it (bits/random.tcc, Marsaglia's polar method): two numbers are made at a time, [pair], and the
    second one is kept in the distribution for the next call. *)
From Coq Require Import ZArith List Bool Arith.
From Verif Require Import Outcome.
Import ListNotations.
Local Open Scope outcome_scope.

Section Gauss.
Variables G V : Type.
Variable mt : Z -> G.
Variable pair : G -> V * V * G.
(** GNH 50-51: the members gen and distribution *)
Record gauss := Gauss { g_eng : G; g_saved : option V }.
(** GNG 15-23: the constructor; the engine starts in a random state *)
Definition gauss_new (g0 : G) : gauss := Gauss g0 None.
(** GNG 25: seed(seed); mt19937::seed takes its argument modulo 2^32, and the distribution is not reset *)
Definition gauss_seed (s : Z) (g : gauss) : gauss := Gauss (mt (s mod 2 ^ 32)) (g_saved g).
(** GNG 27-29, GNH 43-45: randn(), operator() *)
Definition randn (g : gauss) : V * gauss :=
  match g_saved g with
  | Some v => (v, Gauss (g_eng g) None)
  | None => let '(y, x, e) := pair (g_eng g) in (y, Gauss e (Some x))
  end.
(** GNG 31-37: randn(N) *)
Fixpoint randns (N : nat) (g : gauss) : list V * gauss :=
  match N with
  | O => ([], g)
  | S n => let '(x, g) := randn g in let '(xs, g) := randns n g in (x :: xs, g)
  end.
(** any use of the singleton: numbers drawn, or seeds set *)
Inductive use := Draw (N : nat) | Seed (s : Z).
Definition use1 (g : gauss) (u : use) : gauss := match u with Draw N => snd (randns N g) | Seed s => gauss_seed s g end.
Definition uses (us : list use) (g : gauss) : gauss := fold_left use1 us g.
End Gauss.
Arguments Gauss {G V}.

(** RSH 40-48: RandomSampler::sample(vec, N) = std::sample, in libstdc++ the selection sampling of bits/stl_algo.h (N small enough for reserve(N)); [u k m] is the
    k-th number drawn, uniform in 0..m *)
Section Sample.
Variable T : Type.
Fixpoint select (u : nat -> nat -> nat) (k : nat) (first : list T) (n unsampled : nat) : outcome (list T) :=
  match n with
  | O => Ok []
  | S n' =>
      match first with
      | [] => UB EndIterDeref
      | x :: r =>
          if (u k (unsampled - 1) <? n)%nat then let! out := select u (S k) r n' (unsampled - 1) in Ok (x :: out)
          else select u (S k) r n (unsampled - 1)
      end
  end.
Definition sample (u : nat -> nat -> nat) (vec : list T) (N : nat) : outcome (list T) :=
  select u 0 vec (Nat.min N (length vec)) (length vec).
End Sample.
