(* The tokenizer of configuration files: /repo/src/config/reader/tokenizer.h
   and tokenizer.cpp.

   The file (tokenizer.h:9-31) is represented by its unread part: get and
   peek read its first character, reading at the end of the file is an access
   outside of the vector (UB).  Reading the file and its broadcast to the
   other processes (tokenizer.cpp:16-39) and the error messages (lastLines,
   tokenizer.cpp:286-319) are not modelled. *)
Require Import List Ascii Bool.
Require Import Verif.Base Verif.M_Parser.
Import ListNotations.
Local Open Scope list_scope.
Local Open Scope out_scope.

Local Notation text := (list ascii).

(* tokenizer.h:35-46 *)
Inductive token :=
| STRING | LINK | ENV | DELIMITER | ASSIGN | OBJECT_OPEN | OBJECT_CLOSE
| EXPRESSION_END | LINE_END | END.

(* tokenizer.cpp:47-50 *)
Definition is_white (c : ascii) : bool := has [" "%char; tab; carriage] c.
(* tokenizer.cpp:52-80 *)
Definition is_delimiter (c : ascii) : bool := Ascii.eqb c ",".
Definition is_assign (c : ascii) : bool := Ascii.eqb c "=".
Definition is_expression_end (c : ascii) : bool := Ascii.eqb c ";".
Definition is_line_end (c : ascii) : bool := Ascii.eqb c newline.
Definition is_object_open (c : ascii) : bool := Ascii.eqb c "{".
Definition is_object_close (c : ascii) : bool := Ascii.eqb c "}".
(* tokenizer.cpp:82-95 *)
Definition is_link_start (c : ascii) : bool := Ascii.eqb c "[".
Definition is_link_end (c : ascii) : bool := Ascii.eqb c "]".
Definition is_env (c : ascii) : bool := Ascii.eqb c "$".
(* tokenizer.cpp:97-105: both quotes *)
Definition is_quote (c : ascii) : bool :=
  Ascii.eqb c (ascii_of_nat 34) || Ascii.eqb c (ascii_of_nat 39).
(* tokenizer.cpp:107-110 *)
Definition is_hash (c : ascii) : bool := Ascii.eqb c "#".
(* tokenizer.cpp:112-125: the last character of the buffer and the next one *)
Definition is_line_comment (last c : ascii) : bool :=
  Ascii.eqb last "/" && Ascii.eqb c "/".
Definition is_comment_start (last c : ascii) : bool :=
  Ascii.eqb last "/" && Ascii.eqb c "*".
Definition is_comment_end (last c : ascii) : bool :=
  Ascii.eqb last "*" && Ascii.eqb c "/".

(* tokenizer.cpp:127-132: peek is evaluated before the test of the end *)
Fixpoint skip_white (rest : text) : outcome text :=
  match rest with
  | [] => UB
  | c :: r => if is_white c then skip_white r else Ok rest
  end.

(* first loop of skipLine, tokenizer.cpp:151-153 *)
Fixpoint skip_to_eol (rest : text) : text :=
  match rest with
  | [] => []
  | c :: r => if Ascii.eqb c newline || Ascii.eqb c carriage then rest
              else skip_to_eol r
  end.

(* second loop of skipLine, tokenizer.cpp:154-159 *)
Fixpoint skip_eols (rest : text) (line : nat) : text * nat :=
  match rest with
  | [] => ([], line)
  | c :: r => if Ascii.eqb c newline || Ascii.eqb c carriage
              then skip_eols r (if is_line_end c then Datatypes.S line else line)
              else (rest, line)
  end.

(* tokenizer.cpp:150-160 *)
Definition skip_line (rest : text) (line : nat) : text * nat :=
  skip_eols (skip_to_eol rest) line.

(* loop of tokenizer.cpp:184-189 and the get at line 190 *)
Fixpoint comment_body (last : ascii) (rest : text) (line : nat)
  : outcome (text * nat) :=
  match rest with
  | [] => UB
  | c :: r => if is_comment_end last c then Ok (r, line)
              else comment_body c r (if is_line_end c then Datatypes.S line else line)
  end.

(* tokenizer.cpp:182-190; rest starts with '*' *)
Definition skip_comment (rest : text) (line : nat) : outcome (text * nat) :=
  match rest with
  | _ :: last :: r => comment_body last r line
  | _ => UB
  end.

(* loop of tokenizer.cpp:223-234 and the get at line 235; at the end of the
   file the loop condition already reads outside of the file *)
Fixpoint link_body (stacked : nat) (rest buffer : text)
  : outcome (text * text) :=
  match rest with
  | [] => UB
  | c :: r =>
      if is_link_end c && Nat.eqb stacked 0 then Ok (r, buffer)
      else
        let stacked := if is_link_start c then Datatypes.S stacked else stacked in
        let stacked := if is_link_end c then pred stacked else stacked in
        link_body stacked r (buffer ++ [c])
  end.

(* loop of tokenizer.cpp:242-247 and the get at line 248 *)
Fixpoint env_body (rest buffer : text) : outcome (text * text) :=
  match rest with
  | [] => UB
  | c :: r =>
      if is_object_close c then Ok (r, buffer)
      else if is_line_end c then Fail
      else env_body r (buffer ++ [c])
  end.

(* loop of tokenizer.cpp:261-272; the loop is left at the first quote since
   [stacked] stays 0.  Returns also the quote. *)
Fixpoint quote_body (rest buffer : text) : outcome (text * text * ascii) :=
  match rest with
  | [] => UB
  | c :: r => if is_quote c then Ok (r, buffer, c)
              else quote_body r (buffer ++ [c])
  end.

(* how an iteration of the main loop ends: with the next iteration or by
   returning a token; then the unread part, the buffer and the line *)
Inductive loop_result :=
| Continue (rest buffer : text) (line : nat)
| Return (t : token) (rest buffer : text) (line : nat).

(* specialToken, tokenizer.cpp:142-148; c :: r is the unread part *)
Definition special_token (t : token) (c : ascii) (r buffer : text) (line : nat)
  : loop_result :=
  match buffer with
  | [] => Return t r [c] line
  | _ => Return STRING (c :: r) buffer line
  end.

(* after a comment: tokenizer.cpp:165-169, 174-178 *)
Definition after_line_comment (rest buffer : text) (line : nat)
  : outcome loop_result :=
  match buffer with
  | [] => (rest <- skip_white rest ;; Ok (Continue rest [] line))
  | _ => Ok (Return STRING rest buffer line)
  end.

(* one iteration of the loop, tokenizer.cpp:163-280; c :: r is the unread
   part.  [back] is the last character of the buffer. *)
Definition next_step (c : ascii) (r buffer : text) (line : nat)
  : outcome loop_result :=
  let full := negb (Nat.eqb (length buffer) 0) in
  let back := last buffer "000"%char in
  if is_hash c then
    let '(rest, line) := skip_line (c :: r) line in
    after_line_comment rest buffer line
  else if full && is_line_comment back c then
    let '(rest, line) := skip_line (c :: r) line in
    after_line_comment rest (removelast buffer) line
  else if full && is_comment_start back c then
    rl <- skip_comment (c :: r) line ;;
    rest <- skip_white (fst rl) ;;
    Ok (Continue rest (removelast buffer) (snd rl))
  else if full && is_white c then Ok (Return STRING r buffer line)
  else if is_delimiter c then Ok (special_token DELIMITER c r buffer line)
  else if is_assign c then Ok (special_token ASSIGN c r buffer line)
  else if is_expression_end c then
    Ok (special_token EXPRESSION_END c r buffer line)
  else if is_line_end c then
    Ok (special_token LINE_END c r buffer (Datatypes.S line))
  else if is_object_open c then Ok (special_token OBJECT_OPEN c r buffer line)
  else if is_object_close c then Ok (special_token OBJECT_CLOSE c r buffer line)
  else if is_link_start c && full then Ok (Return STRING (c :: r) buffer line)
  else if is_link_start c then
    rb <- link_body 0 r buffer ;;
    Ok (Return LINK (fst rb) (snd rb) line)
  else if is_env c then
    match r with
    | [] => UB
    | d :: r' => if is_object_open d then
                   (rb <- env_body r' buffer ;;
                    Ok (Return ENV (fst rb) (snd rb) line))
                 else Fail
    end
  else if is_quote c then
    rbq <- quote_body r (if full then buffer ++ [c] else buffer) ;;
    let '(rest, buffer, q) := rbq in
    Ok (Return STRING rest (if full then buffer ++ [q] else buffer) line)
  else Ok (Continue r (buffer ++ [c]) line).

(* the main loop, tokenizer.cpp:162-283; [None] = not finished within the
   fuel *)
Fixpoint next_loop (fuel : nat) (rest buffer : text) (line : nat)
  : option (outcome (token * text * text * nat)) :=
  match rest with
  | [] => Some (Ok (match buffer with [] => END | _ => STRING end, [], buffer, line))
  | c :: r =>
      match fuel with
      | O => None
      | Datatypes.S fuel =>
          match next_step c r buffer line with
          | Ok (Continue rest buffer line) => next_loop fuel rest buffer line
          | Ok (Return t rest buffer line) => Some (Ok (t, rest, buffer, line))
          | Fail => Some Fail
          | UB => Some UB
          end
      end
  end.

(* _next, tokenizer.cpp:134-284: the token, the unread part, the buffer
   (value()) and the line *)
Definition next (fuel : nat) (rest buffer : text) (line : nat)
  : option (outcome (token * text * text * nat)) :=
  match rest with
  | [] => Some (Ok (END, [], buffer, line))
  | _ => match skip_white rest with
         | Ok rest => next_loop fuel rest [] line
         | Fail => Some Fail
         | UB => Some UB
         end
  end.

(* next is called until it returns END, as by the reader (reader.cpp:214-219)
   for a file without included files; the tokens with their values and lines.
   Both loops get the same fuel. *)
Fixpoint tokenize (calls fuel : nat) (rest buffer : text) (line : nat)
  : option (outcome (list (token * text * nat))) :=
  match calls with
  | O => None
  | Datatypes.S calls =>
      match next fuel rest buffer line with
      | None => None
      | Some Fail => Some Fail
      | Some UB => Some UB
      | Some (Ok (END, _, _, _)) => Some (Ok [])
      | Some (Ok (t, rest, buffer, line)) =>
          match tokenize calls fuel rest buffer line with
          | Some (Ok l) => Some (Ok ((t, buffer, line) :: l))
          | o => o
          end
      end
  end.
