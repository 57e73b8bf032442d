(** Text: std::string operations, std::getline, path and token helpers, CSV files.
    Sources (under /repo/source/ikf): source/utils/IO.cpp (IO), source/utils/CSVTool.cpp (CSV), include/ikf/utils/CSVTool.hpp.
    A std::string is a list of characters; a std::map is an association list (only lookups are observed). *)
From Coq Require Import List Ascii Bool Arith ZArith.
From Verif Require Import Outcome.
Import ListNotations.
Local Open Scope outcome_scope.

Notation text := (list ascii).
Definition comma : ascii := ","%char.
Definition slash : ascii := "/"%char.
Definition dot : ascii := "."%char.
Definition nl : ascii := "010"%char.
Definition minus : ascii := "-"%char.
Definition plus : ascii := "+"%char.
(** std::isdigit, std::isspace in the C locale *)
Definition is_digit (c : ascii) : bool := let n := nat_of_ascii c in (48 <=? n)%nat && (n <=? 57)%nat.
Definition is_space (c : ascii) : bool := let n := nat_of_ascii c in (n =? 32)%nat || ((9 <=? n)%nat && (n <=? 13)%nat).
(** the set " \t" of CSV 250 *)
Definition is_blank (c : ascii) : bool := let n := nat_of_ascii c in (n =? 32)%nat || (n =? 9)%nat.

(** repeated std::getline(stream, line, sep) until it fails; [cur] is what has been extracted since the last separator *)
Fixpoint getlines_from (sep : ascii) (cur : option text) (s : text) : list text :=
  match s with
  | [] => match cur with None => [] | Some w => [w] end
  | c :: r => let w := match cur with None => [] | Some w => w end in
      if (c =? sep)%char then w :: getlines_from sep None r else getlines_from sep (Some (w ++ [c])) r
  end.
Definition getlines (sep : ascii) (s : text) : list text := getlines_from sep None s.

(** ** strings *)
(** s starts with p *)
Fixpoint prefix_of (p s : text) : bool :=
  match p, s with
  | [], _ => true
  | a :: p, b :: s => (a =? b)%char && prefix_of p s
  | _ :: _, [] => false
  end.
(** std::string::find(p, 0) relative to the given suffix; None is npos *)
Fixpoint find (p s : text) : option nat :=
  if prefix_of p s then Some 0 else match s with [] => None | _ :: r => option_map S (find p r) end.
(** std::string::rfind(c) *)
Fixpoint rfind (c : ascii) (s : text) : option nat :=
  match s with
  | [] => None
  | a :: r => match rfind c r with Some i => Some (S i) | None => if (a =? c)%char then Some 0 else None end
  end.
(** std::string::substr(pos, len) with pos <= size; a negative len converted to size_t is the rest *)
Definition substr (s : text) (pos len : nat) : text := firstn len (skipn pos s).
Definition substr_int (s : text) (pos : nat) (len : Z) : text := if (len <? 0)%Z then skipn pos s else substr s pos (Z.to_nat len).

(** ** paths *)
(** IO 175-178: isAbsolutePath; data()[0] of an empty string is '\0' *)
Definition isAbsolutePath (p : text) : bool := match p with c :: _ => (c =? slash)%char | [] => false end.
(** IO 180-194: getFileExtension *)
Definition getFileExtension (f : text) : text := match rfind dot f with Some i => skipn (i + 1) f | None => [] end.
(** IO 196-210: getFileDir *)
Definition getFileDir (f : text) : text := match rfind slash f with Some i => substr f 0 i | None => [] end.
(** IO 212-235: getFileName *)
Definition getFileName (f : text) : text :=
  match rfind slash f, rfind dot f with
  | None, Some i2 => substr f 0 i2
  | Some i1, Some i2 => substr_int f (i1 + 1) (Z.of_nat i2 - Z.of_nat (i1 + 1))
  | _, None => []
  end.
(** IO 252-265: getLastDirName *)
Definition getLastDirName (p : text) : text := match rfind slash p with Some i => substr p (i + 1) (length p) | None => [] end.
(** IO 237-250: getFileParentDirName *)
Definition getFileParentDirName (f : text) : text := getLastDirName (getFileDir f).
(** IO 61-77: checkPathString; every iteration removes one character, the loop is given one iteration more than there are
    characters (C92 shows that it has ended by then).  The conversion of the position to int is exact for paths below 2 GB *)
Fixpoint check_loop (fuel : nat) (s : text) : option text :=
  match fuel with
  | O => None
  | S n => match find [slash; slash] s with
           | None => Some s
           | Some i => check_loop n (firstn i s ++ [slash] ++ skipn (i + 2) s)
           end
  end.
Definition checkPathString (s : text) : option text := check_loop (S (length s)) s.
(** IO 95-119, 149-154: getTokens(tokens, str, delim); the second disjunct of the test (pos == 0 && prev != 0) cannot hold since pos >= prev.
    None: still running after [fuel] iterations *)
Fixpoint tokens_loop (fuel : nat) (d : text) (prev : nat) (str : text) (acc : list text) : option (list text) :=
  match fuel with
  | O => None
  | S n =>
      let pos := match find d (skipn prev str) with Some i => prev + i | None => length str end in
      let token := substr str prev (pos - prev) in
      let acc := match token with [] => acc | _ => acc ++ [token] end in
      let prev := pos + length d in
      if (pos <? length str)%nat && (prev <? length str)%nat then tokens_loop n d prev str acc else Some acc
  end.
Definition getTokens (str d : text) : option (list text) := tokens_loop (S (length str)) d 0 str [].
(** IO 121-133: getTokens(str): operator>> skips white space and reads up to the next white space *)
Fixpoint words_from (cur : option text) (s : text) : list text :=
  match s with
  | [] => match cur with None => [] | Some w => [w] end
  | c :: r => if is_space c then match cur with None => words_from None r | Some w => w :: words_from None r end
              else words_from (Some (match cur with None => [c] | Some w => w ++ [c] end)) r
  end.
Definition getWords (s : text) : list text := words_from None s.
(** IO 135-147: getFirstToken *)
Definition getFirstToken (str d : text) : text := match find d str with Some i => substr str 0 i | None => str end.
(** IO 42-59: getAbsPathsFromFile; the lines of the file are given ([] if it cannot be opened) *)
Definition getAbsPaths (list_file : text) (lines : list text) (acc : list text) : list text :=
  match list_file with
  | [] => acc
  | _ => acc ++ map (fun x => if negb (isAbsolutePath x) then getFileDir list_file ++ [slash] ++ x else x) lines
  end.

(** ** the file system *)
(** which paths exist and what they are: None is a directory, Some s a file with the contents s.  A path names the same object as
    its list of non-empty components; relative paths start at the working directory, a tree of its own.  "." and ".." are
    ordinary names, and all permissions are granted.  The first entry of a path counts *)
Definition node := (bool * list text)%type.
Definition fs := list (node * option text).
Fixpoint eq_text (a b : text) : bool := match a, b with [], [] => true | x :: a, y :: b => (x =? y)%char && eq_text a b | _, _ => false end.
Fixpoint eq_comps (a b : list text) : bool := match a, b with [], [] => true | x :: a, y :: b => eq_text x y && eq_comps a b | _, _ => false end.
Definition eq_node (a b : node) : bool := Bool.eqb (fst a) (fst b) && eq_comps (snd a) (snd b).
Definition nonempty (w : text) : bool := match w with [] => false | _ => true end.
Definition comps (p : text) : list text := filter nonempty (getlines slash p).
Definition node_of (p : text) : node := (isAbsolutePath p, comps p).
(** the two roots are directories *)
Definition lookup (n : node) (f : fs) : option (option text) :=
  match snd n with [] => Some None | _ => option_map snd (List.find (fun e => eq_node (fst e) n) f) end.
(** resolution of a path: "" names nothing, and a file cannot be named with a trailing '/' *)
Definition ends_slash (p : text) : bool := match rev p with c :: _ => (c =? slash)%char | [] => false end.
Definition resolve (p : text) (f : fs) : option (option text) :=
  match p with
  | [] => None
  | _ => match lookup (node_of p) f with Some (Some s) => if ends_slash p then None else Some (Some s) | r => r end
  end.
(** IO 156-160: fileExists (an ifstream opens directories too), IO 162-173: dirExist *)
Definition fileExists (p : text) (f : fs) : bool := match resolve p f with Some _ => true | None => false end.
Definition dirExist (p : text) (f : fs) : bool := match resolve p f with Some None => true | _ => false end.
(** the parent of the last component is a directory *)
Definition parent_dir (p : text) (f : fs) : bool :=
  match lookup (fst (node_of p), removelast (snd (node_of p))) f with Some None => true | _ => false end.
(** IO 267-285: createDirectory; mkdir fails if the path exists or its parent is not a directory *)
Definition createDirectory (p : text) (f : fs) : fs * bool :=
  match p, lookup (node_of p) f with
  | _ :: _, None => if parent_dir p f then ((node_of p, None) :: f, true) else (f, false)
  | _, _ => (f, false)
  end.
(** IO 303-324: the loop of createDirectoryRecursive *)
Fixpoint create_loop (path : text) (nodes : list text) (f : fs) : fs * bool :=
  match nodes with
  | [] => (f, true)
  | w :: r =>
      match w with
      | [] => create_loop path r f
      | _ => let path := path ++ w in
             if negb (fileExists path f) then
               let (f, ok) := createDirectory path f in if negb ok then (f, false) else create_loop (path ++ [slash]) r f
             else create_loop (path ++ [slash]) r f
      end
  end.
(** IO 287-325: createDirectoryRecursive *)
Definition createDirectoryRecursive (d : text) (f : fs) : option (fs * bool) :=
  match getTokens d [slash] with
  | None => None
  | Some [] => Some (f, false)
  | Some ts => Some (create_loop (if isAbsolutePath d then [slash] else []) ts f)
  end.
(** IO 468-482: createDirectoryFull *)
Definition createDirectoryFull (d : text) (f : fs) : option (fs * bool) :=
  if negb (dirExist d f) then match createDirectoryRecursive d f with None => None | Some (f, _) => Some (f, dirExist d f) end else Some (f, true).
(** std::fstream::open(p, out): creates a missing file in an existing directory and empties an existing one *)
Definition opens (p : text) (f : fs) : fs * bool :=
  match p, lookup (node_of p) f with
  | [], _ | _, Some None => (f, false)
  | _, None => if parent_dir p f && negb (ends_slash p) then ((node_of p, Some []) :: f, true) else (f, false)
  | _, Some (Some _) => if ends_slash p then (f, false) else ((node_of p, Some []) :: f, true)
  end.
(** IO 434-466: openFile *)
Definition openFile (p : text) (f : fs) : option (fs * bool) :=
  if negb (fileExists p f) then
    match getFileDir p with
    | [] => Some (f, false)
    | b => if negb (dirExist b f) then
             match createDirectoryRecursive b f with
             | None => None
             | Some (f, _) => if negb (dirExist b f) then Some (f, false) else Some (opens p f)
             end
           else Some (opens p f)
    end
  else Some (opens p f).

(** ** CSV files *)
Section Csv.
Variable V : Type.                 (** double *)
Variable zero : V.
Variable fmt : V -> text.          (** ostream << double with precision 16 *)
Variable parse : text -> option V. (** istringstream >> double *)
Definition table := list (text * list V).
(** CSV 122-170 (CsvDataType), 172-218 (CsvDataUnorderedType): what is written to the file; the table is given in iteration order.
    A column shorter than the first one is read past its end *)
Fixpoint join (sep : ascii) (ws : list text) : text :=
  match ws with [] => [] | [w] => w | w :: r => w ++ [sep] ++ join sep r end.
Fixpoint write_row (row : nat) (cols : table) : outcome (list text) :=
  match cols with
  | [] => Ok []
  | (_, vs) :: r => match nth_error vs row with
                    | Some v => let! ws := write_row row r in Ok (fmt v :: ws)
                    | None => UB EndIterDeref
                    end
  end.
Fixpoint write_rows (delim : ascii) (row n : nat) (cols : table) : outcome text :=
  match n with
  | O => Ok []
  | S n => let! ws := write_row row cols in let! s := write_rows delim (S row) n cols in Ok (join delim ws ++ [nl] ++ s)
  end.
Definition write_table (delim : ascii) (cols : table) : outcome text :=
  match cols with
  | [] => Ok []
  | (_, vs) :: _ => let! s := write_rows delim 0 (length vs) cols in Ok (join delim (map fst cols) ++ [nl] ++ s)
  end.
(** CSV 244-262: check_for_header; on a line without a character that is not blank line[npos] is out of bounds *)
Fixpoint check_for_header (lines : list text) : outcome nat :=
  match lines with
  | [] => Ok 0
  | l :: r => match List.find (fun c => negb (is_blank c)) l with
              | None => UB EndIterDeref
              | Some c => if is_digit c || (c =? minus)%char || (c =? plus)%char then Ok 0 else let! n := check_for_header r in Ok (S n)
              end
  end.
(** CSV 220-242: get_header(file, row) *)
Definition get_header (delim : ascii) (lines : list text) (row : nat) : list text :=
  map (fun w => filter (fun c => negb (is_space c)) w) (getlines delim (nth row lines [])).

Definition csv_set (k : text) (vs : list V) (m : table) : table :=
  if List.existsb (fun e => eq_text (fst e) k) m then map (fun e => if eq_text (fst e) k then (fst e, vs) else e) m else m ++ [(k, vs)].
Definition csv_get (k : text) (m : table) : option (list V) := option_map snd (List.find (fun e => eq_text (fst e) k) m).
(** csv_data[k]: a missing key is created *)
Definition csv_at (k : text) (m : table) : list V := match csv_get k m with Some vs => vs | None => [] end.
(** std::vector::resize(n, v) *)
Definition resize (n : nat) (v : V) (vs : list V) : list V := firstn n vs ++ repeat v (n - length vs).
Fixpoint vput (i : nat) (v : V) (vs : list V) : outcome (list V) :=
  match vs, i with
  | [], _ => UB EndIterDeref
  | _ :: r, O => Ok (v :: r)
  | x :: r, S i => let! r := vput i v r in Ok (x :: r)
  end.
(** CSV 77-92: the tokens of one row; the number of columns counted is returned *)
Fixpoint read_tokens (header : list text) (line : nat) (col : nat) (ts : list text) (m : table) : outcome (table * nat) :=
  match ts with
  | [] => Ok (m, col)
  | w :: r =>
      match nth_error header col with
      | None => Ok (m, S col)
      | Some k =>
          let! m := (match parse w with Some v => let! vs := vput line v (csv_at k m) in Ok (csv_set k vs m) | None => Ok m end) in
          read_tokens header line (S col) r m
      end
  end.
(** CSV 68-104 *)
Fixpoint read_lines (delim : ascii) (header : list text) (line : nat) (ls : list text) (m : table) : outcome (table * nat) :=
  match ls with
  | [] => Ok (m, line)
  | l :: r =>
      let! (m, col) := read_tokens header line 0 (getlines delim l) m in
      read_lines delim header (if negb (col =? length header)%nat then line else S line) r m
  end.
(** CSV 37-111: the part of read_csv behind the opening of the file; the result [None] is false *)
Definition read_table (delim : ascii) (s : text) : outcome (option table) :=
  let lines := getlines nl s in
  let! first := check_for_header lines in
  if (first <? 1)%nat then Ok None else
  let header := get_header comma lines (first - 1) in
  let rows := length lines in
  let m := fold_left (fun m k => csv_set k (resize (rows - 1) zero (csv_at k m)) m) header [] in
  let! (m, n) := read_lines delim header 0 (skipn first lines) m in
  Ok (Some (fold_left (fun m k => csv_set k (resize n zero (csv_at k m)) m) header m)).
(** CSV 23-112: read_csv; a directory is opened and read as an empty file *)
Definition read_csv (delim : ascii) (p : text) (f : fs) : outcome (option table) :=
  match resolve p f with
  | None => Ok None
  | Some None => read_table delim []
  | Some (Some s) => read_table delim s
  end.
(** CSV 122-218: write_csv; None: does not return *)
Definition write_csv (delim : ascii) (cols : table) (p : text) (f : fs) : outcome (option (fs * bool)) :=
  match openFile p f with
  | None => Ok None
  | Some (f, false) => Ok (Some (f, false))
  | Some (f, true) => let! s := write_table delim cols in Ok (Some ((node_of p, Some s) :: f, true))
  end.
(** CSV 114-120: write_csv(CsvRowDataType) *)
Definition write_csv_row (delim : ascii) (cols : list (text * V)) (p : text) (f : fs) : outcome (option (fs * bool)) :=
  write_csv delim (map (fun e => (fst e, [snd e])) cols) p f.
End Csv.
