(** Concurrency models: the timed lock guard and the cyclic thread.
    Sources under /repo/source/ikf: include/ikf/utils/lock_guard_timed.hpp (LG), source/utils/CyclicThread.cpp (CT).
    One model step = one atomic action of one thread; every interleaving is a sequence of steps. *)
From Coq Require Import List Bool Arith.
From Verif Require Import Outcome.
Import ListNotations.

(** ** std::recursive_timed_mutex (the type of m_mtx, include/ikf/EstimatorHandler/IDICOHandler.hpp 117) *)
(** owner and recursion depth; None = free *)
Definition mutex := option (nat * nat).
(** try_lock_for: succeeds when free or owned by the caller.  Simplification: it fails (times out) only while another
    thread owns the mutex; spurious failures are not modelled. *)
Definition mtx_try_lock (i : nat) (m : mutex) : option mutex :=
  match m with
  | None => Some (Some (i, 1))
  | Some (o, c) => if o =? i then Some (Some (i, S c)) else None
  end.
(** unlock: undefined behaviour unless the caller owns the mutex *)
Definition mtx_unlock (i : nat) (m : mutex) : outcome mutex :=
  match m with
  | Some (o, c) => if o =? i then Ok (match c with S (S c') => Some (i, S c') | _ => None end) else UB UnlockNotOwned
  | None => UB UnlockNotOwned
  end.

(** ** LG 26-43: lock_guard_timed.  Every API call of the handlers is:  guard(m_mtx, timeout); if (guard.try_lock()) {body}
    else {log}; ~guard().  Bodies may call further guarded functions (recursion).  A thread is the stack of its live guards,
    each with the result of its try_lock. *)
Record lstate := LS { l_mtx : mutex; l_guards : nat -> list bool }.
Definition l_init : lstate := LS None (fun _ => []).
Definition upd {T} (f : nat -> T) (i : nat) (v : T) : nat -> T := fun j => if j =? i then v else f j.
Inductive laction := Enter (i : nat) | Leave (i : nat).
Definition lstep (s : lstate) (a : laction) : outcome lstate :=
  match a with
  | Enter i =>                                             (* LG 33 and the if of the caller *)
      match mtx_try_lock i (l_mtx s) with
      | Some m => Ok (LS m (upd (l_guards s) i (true :: l_guards s i)))
      | None => Ok (LS (l_mtx s) (upd (l_guards s) i (false :: l_guards s i)))
      end
  | Leave i =>
      match l_guards s i with
      | [] => Ok s                                         (* no live guard: nothing to destroy *)
      | _ :: r => match mtx_unlock i (l_mtx s) with        (* LG 34: ~lock_guard_timed() { _M_device.unlock(); } *)
                  | Ok m => Ok (LS m (upd (l_guards s) i r)) | UB e => UB e | Abort e => Abort e end
      end
  end.
Fixpoint lrun (s : lstate) (l : list laction) : outcome lstate :=
  match l with [] => Ok s | a :: r => match lstep s a with Ok s' => lrun s' r | UB e => UB e | Abort e => Abort e end end.

(** ** CT: the worker loop (73-87) and the controlling thread *)
(** program counter of threadFunc: at the while condition, at the if, about to call run_(), inside run_(), sleeping, returned *)
Inductive wpc := WWhile | WIf | WCall | WRun | WSleep | WDone.
Record cstate := CS { c_shutdown : bool; c_run : bool; c_pc : wpc; c_derived : bool; c_starts : nat }.
(** CT 19-26: the constructor stores mbShutdown = false and mbRun = false before the thread is created.  [c_derived] tells whether
    the object of the derived class, whose run_ is called, is alive. *)
Definition c_init : cstate := CS false false WWhile true 0.
Inductive caction :=
| AWork        (* one step of the worker *)
| AResume      (* CT 36-39 *)
| AStop        (* CT 41-44 *)
| AShutdown    (* CT 46-51 terminate(): stop() is [AStop]; this is mbShutdown = true *)
| ADerivedDtor (* the derived destructor has finished; ~CyclicThread() (CT 28-34) has not run yet *).
Definition cstep (s : cstate) (a : caction) : outcome cstate :=
  match a with
  | AResume => Ok (CS (c_shutdown s) true (c_pc s) (c_derived s) (c_starts s))
  | AStop => Ok (CS (c_shutdown s) false (c_pc s) (c_derived s) (c_starts s))
  | AShutdown => Ok (CS true (c_run s) (c_pc s) (c_derived s) (c_starts s))
  | ADerivedDtor => Ok (CS (c_shutdown s) (c_run s) (c_pc s) false (c_starts s))
  | AWork =>
      match c_pc s with
      | WWhile => Ok (CS (c_shutdown s) (c_run s) (if c_shutdown s then WDone else WIf) (c_derived s) (c_starts s))
      | WIf => Ok (CS (c_shutdown s) (c_run s) (if c_run s then WCall else WSleep) (c_derived s) (c_starts s))
      | WCall => if c_derived s then Ok (CS (c_shutdown s) (c_run s) WRun (c_derived s) (S (c_starts s)))
                 else UB NullDeref                         (* the call of a pure virtual function *)
      | WRun => Ok (CS (c_shutdown s) (c_run s) WSleep (c_derived s) (c_starts s))
      | WSleep => Ok (CS (c_shutdown s) (c_run s) WWhile (c_derived s) (c_starts s))
      | WDone => Ok s
      end
  end.
Fixpoint crun (s : cstate) (l : list caction) : outcome cstate :=
  match l with [] => Ok s | a :: r => match cstep s a with Ok s' => crun s' r | UB e => UB e | Abort e => Abort e end end.
