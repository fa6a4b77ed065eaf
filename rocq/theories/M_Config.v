(* The configuration tree, its printing and reading:
   /repo/src/config/configuration.cpp, holders/objectholder.h and
   reader/reader.cpp.

   Values are held by holders given by contract: [get k x] is getValue and
   [set k x t] is setValue of the holder of kind k that keeps the value x;
   [None] = refused.  M_Holder.v has some of them.
   Not modelled: listeners; two keys of a map that denote the same entry
   ("1" and "01"); metadata.isallowed() is a flag instead of a function. *)
Require Import List ZArith Ascii Bool.
Require Import Verif.Base Verif.M_Parser Verif.M_Tokenizer.
Import ListNotations.
Local Open Scope list_scope.
Local Open Scope out_scope.

Local Notation text := (list ascii).

(* configuration.h:11-98:
   PValue name raw allowed k x: ECFValue; raw = its datatype is STRING,
     BOUNDARY_REGION or MATERIAL;
   PObject name keys allowed pattern parameters: ECFObject; keys =
     metadata.datatype.size() is not zero; the pattern of the maps of
     objectholder.h is a test of the key and the parameter that is created
     for a new key;
   PSep name: ECFSeparator (always allowed, configuration.cpp:143-153). *)
Inductive param (K X : Type) :=
| PValue (name : text) (raw allowed : bool) (k : K) (x : X)
| PObject (name : text) (keys allowed : bool)
    (pattern : option ((text -> bool) * param K X)) (parameters : list (param K X))
| PSep (name : text).
Arguments PValue {K X}.
Arguments PObject {K X}.
Arguments PSep {K X}.

Section Config.
Context {K X : Type}.
Variable get : K -> X -> text.
Variable set : K -> X -> text -> option X.
Variable toupper : ascii -> ascii.
Variable tolower : ascii -> Z.
Local Notation param := (param K X).

Definition pname (p : param) : text :=
  match p with PValue n _ _ _ _ | PObject n _ _ _ _ | PSep n => n end.
Definition is_value (p : param) : bool :=
  match p with PValue _ _ _ _ _ => true | _ => false end.
Definition is_object (p : param) : bool :=
  match p with PObject _ _ _ _ _ => true | _ => false end.
Definition allowed (p : param) : bool :=
  match p with PValue _ _ a _ _ | PObject _ _ a _ _ => a | PSep _ => true end.
Definition has_keys (p : param) : bool :=
  match p with PObject _ k _ _ _ => k | _ => false end.
Definition rename (p : param) (n : text) : param :=
  match p with
  | PValue _ r a k x => PValue n r a k x
  | PObject _ k a pat l => PObject n k a pat l
  | PSep _ => PSep n
  end.

(* ---- printing (printPatterns = false) ---------------------------------- *)

(* reader.cpp:431-435 *)
Definition print_indent (n : nat) : text := repeat blank n.

(* body of the loop, reader.cpp:438-445 *)
Definition max_size_step (onlyAllowed : bool) (maxSize : nat) (p : param) : nat :=
  match p with
  | PValue n _ a k x =>
      if a || negb onlyAllowed then Nat.max maxSize (length n + length (get k x))
      else maxSize
  | _ => maxSize
  end.
Definition max_size (onlyAllowed : bool) (parameters : list param) : nat :=
  fold_left (max_size_step onlyAllowed) parameters 0.

(* reader.cpp:477-481 and 498-502 *)
Definition print_name (hasDataType : bool) (n : text) : text :=
  if hasDataType then n else uppercase toupper n.

(* reader.cpp:483-490 *)
Definition print_value (raw : bool) (v : text) : text :=
  if raw then v else uppercase toupper v.

(* printSpace, firstParameter, firstValue: reader.cpp:447-449 *)
Record flags := Flags { printSpace : bool; firstParameter : bool; firstValue : bool }.

(* reader.cpp:456-491; the subtraction does not underflow since maxSize is
   the maximum *)
Definition print_value_param (maxSize indent : nat) (hasDataType : bool)
    (n : text) (raw : bool) (v : text) (f : flags) : text :=
  let space := if Nat.eqb maxSize 0 then 3 else maxSize - length n - length v in
  (if printSpace f && negb (firstValue f) then [newline] else []) ++
  print_indent indent ++ print_name hasDataType n ++ print_indent (space + 3) ++
  print_value raw v ++ [";"%char; newline].

(* reader.cpp:492-506 *)
Definition print_object_param (indent : nat) (hasDataType : bool) (n : text)
    (f : flags) (content : text) : text :=
  (if negb (firstParameter f) then [newline] else []) ++
  print_indent indent ++ print_name hasDataType n ++ [blank; "{"%char; newline] ++
  content ++ print_indent indent ++ ["}"%char; newline].

(* printparameter, reader.cpp:451-513; content = what the recursive call
   prints for an object *)
Definition print_param (onlyAllowed : bool) (maxSize indent : nat)
    (hasDataType : bool) (p : param) (content : text) (f : flags) : text * flags :=
  if onlyAllowed && negb (allowed p) then ([], f) else
  match p with
  | PValue n raw _ k x =>
      (print_value_param maxSize indent hasDataType n raw (get k x) f,
       Flags false false false)
  | PObject n _ _ _ _ =>
      (print_object_param indent hasDataType n f content, Flags false false false)
  | PSep _ => ([], Flags true (firstParameter f) (firstValue f))
  end.

(* reader.cpp:515-530; rec = the recursive call *)
Definition print_loop (rec : param -> text) (onlyAllowed : bool)
    (maxSize indent : nat) (hasDataType : bool)
  : list param -> bool -> flags -> text :=
  fix loop parameters (spaceAfterObject : bool) f :=
  match parameters with
  | [] => []
  | p :: parameters =>
      let '(t, f) := print_param onlyAllowed maxSize indent hasDataType p (rec p) f in
      (if spaceAfterObject && is_value p then [newline] else []) ++ t ++
      loop parameters (is_object p) f
  end.

(* printECF, reader.cpp:429-543 *)
Fixpoint print_ecf (onlyAllowed : bool) (p : param) (indent : nat)
    (hasDataType : bool) {struct p} : text :=
  match p with
  | PObject _ _ _ _ parameters =>
      print_loop (fun c => print_ecf onlyAllowed c (indent + 2) (has_keys c))
        onlyAllowed (max_size onlyAllowed parameters) indent hasDataType
        parameters false (Flags false true true)
  | _ => []
  end.

(* "# ESPRESO Configuration File" *)
Definition header : text :=
  ["#"; " "; "E"; "S"; "P"; "R"; "E"; "S"; "O"; " "; "C"; "o"; "n"; "f"; "i"; "g"; "u";
   "r"; "a"; "t"; "i"; "o"; "n"; " "; "F"; "i"; "l"; "e"]%char.

(* reader.cpp:545-549 *)
Definition store (onlyAllowed : bool) (configuration : param) : text :=
  header ++ [newline; newline] ++ print_ecf onlyAllowed configuration 0 false.

(* ---- reading ------------------------------------------------------------ *)

(* ECFObject::_getNamedParameter, configuration.cpp:89-97: the index *)
Fixpoint find_param (name : text) (parameters : list param) (i : nat)
  : outcome (option nat) :=
  match parameters with
  | [] => Ok None
  | p :: parameters =>
      e <- case_insensitive_eq tolower name (pname p) ;;
      if e then Ok (Some i) else find_param name parameters (S i)
  end.

(* _getNamedParameter of an object and of the maps (objectholder.h:17-30,
   61-73, 102-117, 155-166, 206-217): the index of the parameter and the
   object, where a new parameter may have been added at the end *)
Definition get_parameter (name : text) (o : param) : outcome (option nat * param) :=
  match o with
  | PObject n keys a pattern parameters =>
      i <- find_param name parameters 0 ;;
      match i, pattern with
      | Some i, _ => Ok (Some i, o)
      | None, Some (key_ok, p) =>
          if key_ok name then
            Ok (Some (length parameters),
                PObject n keys a pattern (parameters ++ [rename p name]))
          else Ok (None, o)
      | None, None => Ok (None, o)
      end
  | _ => Ok (None, o) (* configuration.h:60, 72: only objects are on the stack *)
  end.

Definition parameter_at (o : param) (i : nat) : outcome param :=
  match o with PObject _ _ _ _ l => rd l i | _ => UB end.
Definition replace_parameter (o : param) (i : nat) (p : param) : param :=
  match o with PObject n k a pat l => PObject n k a pat (upd l i p) | _ => o end.

(* The state of ECFReader::_read, reader.cpp:202-213.  The stack of pointers
   to open objects is kept as the open object itself (top) and its parents
   with the place of the open one; a closed object is written to its place.
   prefix has the same size as the stack of parents. *)
Record state := State {
  top : param;
  parents : list (param * nat);
  values : list text;
  unfinishedLine : bool
}.

(* the environment and the links ([ARG], files, variables, ranges:
   reader.cpp:226-303) are arguments; included files are not modelled *)
Variable getenv : text -> text.
Variable link : list text -> text -> outcome (list text).

(* OBJECT_OPEN, reader.cpp:314-334 *)
Definition object_open (s : state) : outcome state :=
  match values s with
  | [name] =>
      r <- get_parameter name (top s) ;;
      match fst r with
      | None => Fail
      | Some i =>
          p <- parameter_at (snd r) i ;;
          if is_object p then
            Ok (State p ((snd r, i) :: parents s) [] (unfinishedLine s))
          else Fail
      end
  | _ => Fail
  end.

(* OBJECT_CLOSE, reader.cpp:335-341 *)
Definition object_close (s : state) : outcome state :=
  match parents s with
  | [] => Fail
  | (o, i) :: parents =>
      Ok (State (replace_parameter o i (top s)) parents (values s) (unfinishedLine s))
  end.

(* the assignment, reader.cpp:366-391 *)
Definition assign (s : state) (name t : text) : outcome state :=
  r <- get_parameter name (top s) ;;
  match fst r with
  | None => Fail
  | Some i =>
      p <- parameter_at (snd r) i ;;
      match p with
      | PValue n raw a k x =>
          match set k x t with
          | Some x' =>
              Ok (State (replace_parameter (snd r) i (PValue n raw a k x'))
                    (parents s) [] false)
          | None => Fail
          end
      | _ => Fail
      end
  end.

(* EXPRESSION_END, reader.cpp:347-393 *)
Definition expression_end (s : state) : outcome state :=
  match values s with
  | [] => Ok (State (top s) (parents s) [] false)
  | [name] => assign s name []
  | name :: vs => assign s name (join [blank] vs)
  end.

(* the switch, reader.cpp:215-401 *)
Definition process (s : state) (tv : token * text) : outcome state :=
  let push v := State (top s) (parents s) (values s ++ [v]) (unfinishedLine s) in
  match fst tv with
  | END => Ok s
  | STRING =>
      if unfinishedLine s then
        r <- get_parameter (snd tv) (top s) ;;
        match fst r with Some _ => Fail | None => Ok (push (snd tv)) end
      else Ok (push (snd tv))
  | LINK =>
      vs <- link (values s) (snd tv) ;;
      Ok (State (top s) (parents s) vs (unfinishedLine s))
  | ENV => Ok (push (getenv (snd tv)))
  | OBJECT_OPEN => object_open s
  | OBJECT_CLOSE => object_close s
  | ASSIGN => Ok s
  | DELIMITER => Ok (push [","%char])
  | EXPRESSION_END => expression_end s
  | LINE_END =>
      Ok (State (top s) (parents s) (values s)
            (if Nat.ltb 1 (length (values s)) then true else unfinishedLine s))
  end.

(* ECFReader::_read, reader.cpp:194-427, for a file with this content.  The
   tokens are read before the first one is processed; [None] does not occur
   (tokenizer_terminates). *)
Definition read (configuration : param) (file : text) : option (outcome param) :=
  match tokenize (S (length file)) (length file) file [] 1 with
  | None => None
  | Some (Ok toks) =>
      Some (s <- foldM process (map fst toks) (State configuration [] [] false) ;;
            match parents s with [] => Ok (top s) | _ => Fail end)
  | Some Fail => Some Fail
  | Some UB => Some UB
  end.

End Config.
