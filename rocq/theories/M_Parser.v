(* Text utilities: /repo/src/basis/utilities/parser.h and parser.cpp.

   A std::string is the list of its characters.  A position is an index into
   the list; std::string::npos is [None].  std::string functions called by
   the code (find_first_of, substr, erase, ...) are modelled from the C++
   standard, right below.  std::tolower / std::toupper depend on the locale:
   they are arguments. *)
Require Import List ZArith Ascii Bool.
Require Import Verif.Base.
Import ListNotations.
Local Open Scope list_scope.
Local Open Scope out_scope.

Local Notation text := (list ascii).

(* ---- std::string, the part used by parser.cpp ------------------------- *)

(* c is one of the characters of the set *)
Definition has (set : text) (c : ascii) : bool := existsb (Ascii.eqb c) set.

(* first position whose character satisfies p *)
Fixpoint find_if (p : ascii -> bool) (s : text) : option nat :=
  match s with
  | [] => None
  | c :: s => if p c then Some 0 else option_map Datatypes.S (find_if p s)
  end.

(* last position whose character satisfies p *)
Fixpoint find_last_if (p : ascii -> bool) (s : text) : option nat :=
  match s with
  | [] => None
  | c :: s => match find_last_if p s with
              | Some i => Some (Datatypes.S i)
              | None => if p c then Some 0 else None
              end
  end.

Definition find_first_of (s set : text) := find_if (has set) s.
Definition find_first_not_of (s set : text) :=
  find_if (fun c => negb (has set c)) s.
Definition find_last_not_of (s set : text) :=
  find_last_if (fun c => negb (has set c)) s.

(* substr(0, n); npos takes everything *)
Definition prefix_to (s : text) (n : option nat) : text :=
  match n with Some n => firstn n s | None => s end.

(* erase(0, n); npos erases everything *)
Definition erase_front (s : text) (n : option nat) : text :=
  match n with Some n => skipn n s | None => [] end.

(* n + 1, where npos + 1 = 0 *)
Definition succ_pos (n : option nat) : nat :=
  match n with Some n => Datatypes.S n | None => 0 end.

(* ---- Parser ----------------------------------------------------------- *)

Definition newline : ascii := ascii_of_nat 10.
Definition tab : ascii := ascii_of_nat 9.
Definition carriage : ascii := ascii_of_nat 13.
Definition blank : ascii := ascii_of_nat 32.
Definition hash : ascii := ascii_of_nat 35.
Definition comma : ascii := ascii_of_nat 44.
Definition digit0 : nat := 48.

(* parser.cpp:6-11; reads the memory from begin on: an ended memory without a
   line end is read outside of its bounds *)
Fixpoint get_line (s : text) : outcome text :=
  match s with
  | [] => UB
  | c :: s => if Ascii.eqb c newline then Ok [c]
              else (r <- get_line s ;; Ok (c :: r))
  end.

(* parser.cpp:13-17 *)
Definition uppercase (toupper : ascii -> ascii) (s : text) : text :=
  map toupper s.

(* parser.cpp:19-22 *)
Definition removecomments (line tags : text) : text :=
  prefix_to line (find_first_of line tags).

(* the set " \r\t\n" of parser.cpp:27-28 *)
Definition spaces : text := [blank; carriage; tab; newline].

(* parser.cpp:24-30 *)
Definition strip (line : text) : text :=
  let result := erase_front line (find_first_not_of line spaces) in
  let result := firstn (succ_pos (find_last_not_of result spaces)) result in
  prefix_to result (find_first_of result [hash]).

(* body of the loop, parser.cpp:42-52: the new piece and the reminder *)
Definition split_step (sep : text) (skip : bool) (reminder : text)
  : text * text :=
  (prefix_to reminder (find_first_of reminder sep),
   match find_first_of reminder sep with
   | None => erase_front reminder None
   | Some i =>
       if skip then
         let r := erase_front reminder (Some i) in
         erase_front r (find_first_not_of r sep)
       else erase_front reminder (Some (Datatypes.S i))
   end).

(* parser.cpp:41-53; fuel = number of iterations allowed *)
Fixpoint split_loop (fuel : nat) (sep : text) (skip : bool) (reminder : text)
    (result : list text) : list text :=
  match reminder, fuel with
  | [], _ | _, O => result
  | _, Datatypes.S fuel =>
      let '(piece, rest) := split_step sep skip reminder in
      split_loop fuel sep skip rest (result ++ [piece])
  end.

(* parser.cpp:32-55; every iteration erases a character, so the length of
   the line is enough fuel (split_loop_fuel in L_Parser.v) *)
Definition split (line sep : text) (skip : bool) : list text :=
  match line with
  | [] => [[]]
  | _ => split_loop (length line) sep skip line []
  end.

(* loop of parser.cpp:90-92 *)
Definition join_step (sep : text) (result v : text) : text :=
  result ++ sep ++ v.

(* parser.cpp:84-94 *)
Definition join (sep : text) (values : list text) : text :=
  match values with
  | [] => []
  | v :: vs => fold_left (join_step sep) vs v
  end.

(* std::to_string of an unsigned number *)
Fixpoint to_string_fuel (fuel : nat) (n : N) : text :=
  match fuel with
  | O => []
  | Datatypes.S fuel =>
      (if (n <? 10)%N then [] else to_string_fuel fuel (n / 10))
        ++ [ascii_of_nat (digit0 + N.to_nat (n mod 10))]
  end.
Definition to_string (n : N) : text := to_string_fuel (Datatypes.S (N.size_nat n)) n.

(* std::string(3 - size, '0'): size_t subtraction; a negative count wraps and
   the constructor throws std::length_error, the outcome Fail *)
Definition zeros3 (size : nat) : outcome text :=
  if Nat.leb size 3 then Ok (repeat (ascii_of_nat digit0) (3 - size))
  else Fail.

(* body of the loop, parser.cpp:62-75 *)
Definition commas_step (st : text * N * N * bool)
  : outcome (text * N * N * bool) :=
  let '(result, number, value, zeros) := st in
  let q := (number / value)%N in
  result <- (if zeros then
               if (q =? 0)%N
               then Ok (result ++ repeat (ascii_of_nat digit0) 3 ++ [comma])
               else (z <- zeros3 (length (to_string q)) ;; Ok (result ++ z))
             else Ok result) ;;
  let '(result, zeros) :=
    if (q =? 0)%N then (result, zeros)
    else (result ++ to_string q ++ [comma], true) in
  Ok (result, (number mod value)%N, (value / 1000)%N, zeros).

(* parser.cpp:57-82; size_t holds every number used here *)
Definition stringwithcommas (number : N) : outcome text :=
  st <- commas_step ([], number, 1000000000%N, false) ;;
  st <- commas_step st ;;
  st <- commas_step st ;;
  let '(result, number, value, zeros) := st in
  result <- (if zeros then
               (z <- zeros3 (length (to_string number)) ;; Ok (result ++ z))
             else Ok result) ;;
  Ok (result ++ to_string number).

(* ---- StringCompare ---------------------------------------------------- *)

(* std::equal(b1, e1, b2, eq): the second range must not be shorter than the
   first one up to the first difference *)
Fixpoint std_equal (eq : ascii -> ascii -> bool) (a b : text) : outcome bool :=
  match a, b with
  | [], _ => Ok true
  | _ :: _, [] => UB
  | x :: a, y :: b => if eq x y then std_equal eq a b else Ok false
  end.

(* std::lexicographical_compare *)
Fixpoint lexicographical (lt : ascii -> ascii -> bool) (a b : text) : bool :=
  match a, b with
  | _, [] => false
  | [], _ :: _ => true
  | x :: a, y :: b => if lt x y then true else if lt y x then false
                      else lexicographical lt a b
  end.

(* operator< and == on char (signed char on the supported platforms) *)
Definition char_value (c : ascii) : Z :=
  let v := Z.of_nat (nat_of_ascii c) in (if v <? 128 then v else v - 256)%Z.

Definition char_lt (a b : ascii) : bool := (char_value a <? char_value b)%Z.

(* parser.h:84-87, 89-92 *)
Definition lower_lt (tolower : ascii -> Z) (a b : ascii) : bool :=
  (tolower a <? tolower b)%Z.
Definition lower_eq (tolower : ascii -> Z) (a b : ascii) : bool :=
  (tolower a =? tolower b)%Z.

(* parser.h:17-20 *)
Definition case_sensitive_eq (a b : text) : outcome bool :=
  if Nat.eqb (length a) (length b) then std_equal Ascii.eqb a b else Ok false.

(* parser.h:22-25 *)
Definition case_insensitive_eq (tolower : ascii -> Z) (a b : text)
  : outcome bool :=
  if Nat.eqb (length a) (length b) then std_equal (lower_eq tolower) a b
  else Ok false.

(* parser.h:27-30 *)
Definition case_sensitive (a b : text) : bool := lexicographical char_lt a b.

(* parser.h:32-35; operator(), parser.h:12-15 *)
Definition case_insensitive (tolower : ascii -> Z) (a b : text) : bool :=
  lexicographical (lower_lt tolower) a b.

(* parser.h:37-40: no test of the sizes *)
Definition case_sensitive_preffix (a b : text) : outcome bool :=
  std_equal Ascii.eqb a b.

(* parser.h:42-48 *)
Definition case_insensitive_preffix (tolower : ascii -> Z) (a b : text)
  : outcome bool :=
  if Nat.leb (length a) (length b) then std_equal (lower_eq tolower) a b
  else Ok false.

(* parser.h:50-56 *)
Definition case_sensitive_suffix (a b : text) : outcome bool :=
  if Nat.leb (length b) (length a)
  then std_equal Ascii.eqb (skipn (length a - length b) a) b
  else Ok false.

(* parser.h:58-64 *)
Definition case_insensitive_suffix (tolower : ascii -> Z) (a b : text)
  : outcome bool :=
  if Nat.leb (length b) (length a)
  then std_equal (lower_eq tolower) (skipn (length a - length b) a) b
  else Ok false.

(* conversion of the int returned by tolower back to char *)
Definition to_char (v : Z) : ascii := ascii_of_nat (Z.to_nat (v mod 256)).

(* lower.find(lvariable) != npos *)
Fixpoint starts_with (s v : text) : bool :=
  match v, s with
  | [], _ => true
  | _ :: _, [] => false
  | x :: v, y :: s => Ascii.eqb x y && starts_with s v
  end.
Fixpoint occurs (s v : text) : bool :=
  starts_with s v || match s with [] => false | _ :: s => occurs s v end.

(* parser.h:66-81 *)
Definition contains (tolower : ascii -> Z) (s : text) (variables : list text)
  : bool :=
  let lower := map (fun c => to_char (tolower c)) s in
  existsb (fun v => occurs lower (map (fun c => to_char (tolower c)) v))
    variables.
