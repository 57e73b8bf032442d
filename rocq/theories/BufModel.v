(** Models of THistoryBuffer (std::map<int64,T>) and TMultiHistoryBuffer (std::multimap<int64,T>).
    Sources: /repo/source/ikf/include/ikf/Container/THistoryBuffer.hpp  (cited as THB)
             /repo/source/ikf/include/ikf/Container/TMultiHistoryBuffer.hpp (cited as TMB).

    A container is the list of its (key, value) pairs in iteration order.  An iterator is a position in
    that list; [length l] is end().  A timestamp argument is represented by its key stamp_ns(t) (properties
    C01-C03); the guards [t1 <= t2], [t1 < t2] compare timestamps, which agrees with comparing keys (C02).
    Methods returning [bool] plus an output parameter return an [option]. *)
From Coq Require Import ZArith List Bool Arith.
From Verif Require Import Outcome.
Import ListNotations.
Local Open Scope Z_scope.

Section Buf.
Context {T : Type}.
Definition buf := list (Z * T).

(** ** Shared by both containers *)

(** THB 219-223, TMB 243-247: std::lower_bound, first position whose key is not < t.
    On a key-sorted container the library's bisection returns this position. *)
Fixpoint lower_bound (t : Z) (l : buf) : nat :=
  match l with
  | [] => O
  | (k, _) :: r => if k <? t then S (lower_bound t r) else O
  end.

(** THB 213-217, TMB 237-241: std::upper_bound, first position whose key is > t. *)
Fixpoint upper_bound (t : Z) (l : buf) : nat :=
  match l with
  | [] => O
  | (k, _) :: r => if t <? k then O else S (upper_bound t r)
  end.

(** std::map::find / std::multimap::find: first element with that key (end() if none). *)
Fixpoint find_pos (t : Z) (l : buf) : nat :=
  match l with
  | [] => O
  | (k, _) :: r => if k =? t then O else S (find_pos t r)
  end.

(** THB 241-244, 49; TMB 276-279: size, empty. *)
Definition size (l : buf) : nat := length l.
Definition empty (l : buf) : bool := match l with [] => true | _ => false end.

(** THB 246-278; TMB 281-291: at(idx) (the three overloads return the pair, the value or the stamp). *)
Definition at_idx (idx : nat) (l : buf) : option (Z * T) :=
  if (idx <? size l)%nat then nth_error l idx else None.

(** THB 305-312; TMB 312-319: exist_at_t. *)
Definition exist_at_t (t : Z) (l : buf) : bool :=
  if negb (empty l) then negb (find_pos t l =? length l)%nat else false.

(** THB 314-323; TMB 321-330: exist_after_t. *)
Definition exist_after_t (t : Z) (l : buf) : bool :=
  if negb (empty l) then negb (upper_bound t l =? length l)%nat else false.

(** THB 341-375; TMB 346-381: get_oldest(_t), get_latest(_t); rbegin() is the last element. *)
Definition get_oldest (l : buf) : option (Z * T) :=
  if negb (empty l) then nth_error l 0 else None.
Definition get_latest (l : buf) : option (Z * T) :=
  if negb (empty l) then nth_error l (length l - 1) else None.
Definition get_oldest_t (l : buf) : option Z := option_map fst (get_oldest l).
Definition get_latest_t (l : buf) : option Z := option_map fst (get_latest l).

(** THB 377-401; TMB 383-396: get_at_t. *)
Definition get_at_t (t : Z) (l : buf) : option T :=
  let it := find_pos t l in
  if negb (it =? length l)%nat then option_map snd (nth_error l it) else None.

(** THB 403-457; TMB 398-455: get_before_t (three overloads). *)
Definition get_before_t (t : Z) (l : buf) : option (Z * T) :=
  let it := lower_bound t l in
  if negb (it =? length l)%nat then
    (if negb (it =? 0)%nat then nth_error l (it - 1) else None)
  else if negb (length l =? 0)%nat then nth_error l (it - 1) else None.

(** THB 459-488; TMB 458-487: get_after_t (three overloads). *)
Definition get_after_t (t : Z) (l : buf) : option (Z * T) :=
  let it := upper_bound t l in
  if negb (it =? length l)%nat then nth_error l it else None.

(** THB 541-544; TMB 489-492: erase by key removes every element with that key. *)
Definition remove_at_t (t : Z) (l : buf) : buf := filter (fun e => negb (fst e =? t)) l.

(** THB 551-557; TMB 499-505: remove_before_t. *)
Definition remove_before_t (t : Z) (l : buf) : buf :=
  let it := lower_bound t l in
  if negb (it =? length l)%nat then skipn it l else l.

(** THB 564-570; TMB 512-518: remove_after_t. *)
Definition remove_after_t (t : Z) (l : buf) : buf :=
  let it := upper_bound t l in
  if negb (it =? length l)%nat then firstn it l else l.

(** THB 280-283; TMB 293-296: clear. *)
Definition clear (l : buf) : buf := [].

(** THB 577-588 and 590-601; TMB 525-549: remove_every_N, subsample_by_N; [cnt] is the loop counter.
    The modulo by zero is undefined as soon as the loop body runs. *)
Fixpoint every_loop (keep_multiples : bool) (n cnt : nat) (l : buf) : buf :=
  match l with
  | [] => []
  | e :: r =>
      let multiple := (cnt mod n =? 0)%nat in
      if Bool.eqb multiple keep_multiples then e :: every_loop keep_multiples n (S cnt) r
      else every_loop keep_multiples n (S cnt) r
  end.
Definition every_N (keep_multiples : bool) (n : nat) (l : buf) : outcome buf :=
  match n, l with
  | O, _ :: _ => UB DivByZero
  | _, _ => Ok (every_loop keep_multiples n 0 l)
  end.
Definition remove_every_N := every_N false.
Definition subsample_by_N := every_N true.

(** THB 97-103, 115-140; TMB 109-116, 144-169: accumulate, foreach, foreach_t, foreach_reverse with a
    stateful operation [op] (the callback's effect on the caller's state [s]). *)
Definition accumulate {A} (op : A -> T -> A) (init : A) (l : buf) : A :=
  fold_left (fun a e => op a (snd e)) l init.
Definition foreach {S} (op : S -> T -> S) (s : S) (l : buf) : S := accumulate op s l.
Definition foreach_t {S} (op : S -> Z -> S) (s : S) (l : buf) : S :=
  fold_left (fun a e => op a (fst e)) l s.
Definition foreach_reverse {S} (op : S -> T -> S) (s : S) (l : buf) : S :=
  fold_left (fun a e => op a (snd e)) (rev l) s.

(** the iterator range [lower_bound(t1), upper_bound(t2)) *)
Definition segment (t1 t2 : Z) (l : buf) : buf :=
  let a := lower_bound t1 l in firstn (upper_bound t2 l - a) (skipn a l).

(** ** THistoryBuffer *)

(** THB 210, 226-239: insert overwrites the element with the same key. *)
Fixpoint hb_insert (t : Z) (v : T) (l : buf) : buf :=
  match l with
  | [] => [(t, v)]
  | (k, w) :: r => if t <? k then (t, v) :: (k, w) :: r
                   else if t =? k then (t, v) :: r
                   else (k, w) :: hb_insert t v r
  end.

(** THB 285-298: index_at_t. *)
Definition hb_index_at_t (t : Z) (l : buf) : option nat :=
  if negb (empty l) then
    let it := find_pos t l in
    if (it =? 0)%nat then Some 0%nat
    else if negb (it =? length l)%nat then Some it
    else None
  else None.

(** THB 325-339: exist_before_t. *)
Definition hb_exist_before_t (t : Z) (l : buf) : bool :=
  if negb (empty l) then
    let it := lower_bound t l in
    if negb (it =? length l)%nat then negb (it =? 0)%nat
    else negb (length l =? 0)%nat
  else false.

(** THB 70-79: get_between_t1_t2 (strict guard t1 < t2). *)
Definition hb_get_between (t1 t2 : Z) (l : buf) : buf :=
  if (t1 <? t2) && negb (length l =? 0)%nat then segment t1 t2 l else [].

(** THB 86-95: accumulate_between_t1_t2; THB 105-113: foreach_between_t1_t2. *)
Definition hb_accumulate_between {A} (t1 t2 : Z) (op : A -> T -> A) (init : A) (l : buf) : A :=
  if (t1 <=? t2) && negb (length l =? 0)%nat
  then fold_left (fun a e => op a (snd e)) (segment t1 t2 l) init else init.
Definition hb_foreach_between {S} (t1 t2 : Z) (op : S -> T -> S) (s : S) (l : buf) : S :=
  hb_accumulate_between t1 t2 op s l.

(** ** TMultiHistoryBuffer *)

(** TMB 229-234, 251-274: std::multimap::insert places the element after all elements of the same key. *)
Fixpoint mb_insert (t : Z) (v : T) (l : buf) : buf :=
  match l with
  | [] => [(t, v)]
  | (k, w) :: r => if t <? k then (t, v) :: (k, w) :: r else (k, w) :: mb_insert t v r
  end.

(** TMB 298-305: index_at_t sets idx when the element exists but always returns false. *)
Definition mb_index_at_t (t : Z) (l : buf) : bool * option nat :=
  (false, if exist_at_t t l then Some (find_pos t l) else None).

(** TMB 332-344: exist_before_t. *)
Definition mb_exist_before_t (t : Z) (l : buf) : bool :=
  if negb (empty l) then
    let it := lower_bound t l in
    match nth_error l it with
    | Some (k, _) => if k =? t then negb (it =? 0)%nat else true   (* it != end() *)
    | None => false
    end
  else false.

(** std::multimap::equal_range. *)
Definition equal_range (t : Z) (l : buf) : buf := segment t t l.

(** TMB 173-182: get_all_at_t. *)
Definition mb_get_all_at_t (t : Z) (l : buf) : list T :=
  if exist_at_t t l then map snd (equal_range t l) else [].

(** std::set<int64_t>::insert: ascending, no duplicates. *)
Fixpoint set_insert (k : Z) (s : list Z) : list Z :=
  match s with
  | [] => [k]
  | x :: r => if k <? x then k :: x :: r else if k =? x then x :: r else x :: set_insert k r
  end.

(** TMB 118-128: get_timestamps_between_t1_t2. *)
Definition mb_stamps_between (t1 t2 : Z) (l : buf) : list Z :=
  if (t1 <=? t2) && negb (length l =? 0)%nat
  then fold_left (fun s e => set_insert (fst e) s) (segment t1 t2 l) [] else [].

(** TMB 72-86: get_between_t1_t2 re-inserts the equal ranges of the collected stamps. *)
Definition mb_get_between (t1 t2 : Z) (l : buf) : buf :=
  if (t1 <=? t2) && negb (length l =? 0)%nat
  then fold_left (fun h k => fold_left (fun h e => mb_insert (fst e) (snd e) h) (equal_range k l) h)
         (mb_stamps_between t1 t2 l) []
  else [].

(** TMB 93-107: accumulate_between_t1_t2; TMB 130-142: foreach_between_t1_t2. *)
Definition mb_accumulate_between {A} (t1 t2 : Z) (op : A -> T -> A) (init : A) (l : buf) : A :=
  if (t1 <=? t2) && negb (length l =? 0)%nat
  then fold_left (fun a k => fold_left (fun a e => op a (snd e)) (equal_range k l) a)
         (mb_stamps_between t1 t2 l) init
  else init.
Definition mb_foreach_between {S} (t1 t2 : Z) (op : S -> T -> S) (s : S) (l : buf) : S :=
  mb_accumulate_between t1 t2 op s l.
End Buf.
Arguments buf : clear implicits.

(** Operation sequences on a THistoryBuffer. *)
Inductive hb_op (T : Type) :=
| HInsert (t : Z) (v : T) | HRemoveAt (t : Z) | HRemoveBefore (t : Z) | HRemoveAfter (t : Z) | HClear.
Arguments HInsert {T}. Arguments HRemoveAt {T}. Arguments HRemoveBefore {T}.
Arguments HRemoveAfter {T}. Arguments HClear {T}.

Definition hb_step {T} (l : buf T) (o : hb_op T) : buf T :=
  match o with
  | HInsert t v => hb_insert t v l
  | HRemoveAt t => remove_at_t t l
  | HRemoveBefore t => remove_before_t t l
  | HRemoveAfter t => remove_after_t t l
  | HClear => clear l
  end.
Definition hb_run {T} (ops : list (hb_op T)) : buf T := fold_left hb_step ops [].

Inductive mb_op (T : Type) :=
| MInsert (t : Z) (v : T) | MRemoveAt (t : Z) | MRemoveBefore (t : Z) | MRemoveAfter (t : Z) | MClear.
Arguments MInsert {T}. Arguments MRemoveAt {T}. Arguments MRemoveBefore {T}.
Arguments MRemoveAfter {T}. Arguments MClear {T}.

Definition mb_step {T} (l : buf T) (o : mb_op T) : buf T :=
  match o with
  | MInsert t v => mb_insert t v l
  | MRemoveAt t => remove_at_t t l
  | MRemoveBefore t => remove_before_t t l
  | MRemoveAfter t => remove_after_t t l
  | MClear => clear l
  end.
Definition mb_run {T} (ops : list (mb_op T)) : buf T := fold_left mb_step ops [].
