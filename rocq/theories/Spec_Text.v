(** Specification vocabulary for C91 (CSV files), C92 (paths and tokens) and C93 (directories), independent of the model's helpers. *)
From Coq Require Import List Ascii Bool Arith.
Import ListNotations.

(** a text made of lines, each of which ends with [sep] *)
Definition unlines (sep : ascii) (ws : list (list ascii)) : list ascii := concat (map (fun w => w ++ [sep]) ws).
(** [ws] separated by [sep] *)
Fixpoint separated (sep : ascii) (ws : list (list ascii)) : list ascii :=
  match ws with [] => [] | [w] => w | w :: r => w ++ sep :: separated sep r end.
(** [ws] are the lines of [s]: the last line need not end with [sep] *)
Definition lines_of (sep : ascii) (s : list ascii) (ws : list (list ascii)) : Prop :=
  (forall w, In w ws -> ~ In sep w) /\
  (s = unlines sep ws \/ exists vs w, ws = vs ++ [w] /\ w <> [] /\ s = unlines sep vs ++ w).
(** [s] split at the occurrences of [d], from the left *)
Inductive splits (d : list ascii) : list ascii -> list (list ascii) -> Prop :=
| splits_last s : (forall a b, s <> a ++ d ++ b) -> splits d s [s]
| splits_cons a r ps : (forall a' b', a ++ d ++ r = a' ++ d ++ b' -> length a <= length a') -> splits d r ps -> splits d (a ++ d ++ r) (a :: ps).
(** the maximal words of [s] without characters of the set [sp] *)
Inductive words (sp : ascii -> Prop) : list ascii -> list (list ascii) -> Prop :=
| words_nil s : Forall sp s -> words sp s []
| words_cons u w r ws : Forall sp u -> w <> [] -> Forall (fun c => ~ sp c) w -> (forall c r', r = c :: r' -> sp c) ->
    words sp r ws -> words sp (u ++ w ++ r) (w :: ws).
(** white space of the C locale: space, \t \n \v \f \r *)
Definition white (c : ascii) : Prop := In c [" "; "009"; "010"; "011"; "012"; "013"]%char.
(** blanks that may precede the first character of a line *)
Definition blank (c : ascii) : Prop := In c [" "; "009"]%char.
Definition digit (c : ascii) : Prop := In c ["0"; "1"; "2"; "3"; "4"; "5"; "6"; "7"; "8"; "9"]%char.
(** a line of values: the first character after the blanks is a digit or a sign *)
Definition value_line (l : list ascii) : Prop := exists u c r, l = u ++ c :: r /\ Forall blank u /\ (digit c \/ c = "-"%char \/ c = "+"%char).
(** a line that belongs to the header *)
Definition header_line (l : list ascii) : Prop :=
  exists u c r, l = u ++ c :: r /\ Forall blank u /\ ~ blank c /\ ~ digit c /\ c <> "-"%char /\ c <> "+"%char.
(** [ps] is an initial part of [ws] *)
Definition initial (ps ws : list (list ascii)) : Prop := exists r, ws = ps ++ r.
(** the cells of column [j] of a table with [n] columns read from rows of tokens: rows with another number of tokens are skipped; the cell is
    the number its token denotes, or if it denotes none the last number at this place in the rows skipped just before it, or zero *)
Section Cells.
Variables (V : Type) (zero : V) (parse : list ascii -> option V).
Definition number (j : nat) (row : list (list ascii)) (other : V) : V :=
  match nth_error row j with Some w => match parse w with Some v => v | None => other end | None => other end.
Fixpoint cells (n j : nat) (pending : V) (rows : list (list (list ascii))) : list V :=
  match rows with
  | [] => []
  | row :: rest => if length row =? n then number j row pending :: cells n j zero rest else cells n j (number j row pending) rest
  end.
End Cells.
