(* Holders of configuration values: /repo/src/config/holders/valueholder.h
   and vectorholder.h.

   A value of an enumeration is the integer it stands for (underlying type
   int).  std::stringstream is an argument: [parse t] is the number read by
   the generic ECFValueHolder<size_t> (valueholder.h:26-36), or None if it
   refuses the text. *)
Require Import List ZArith Ascii Bool.
Require Import Verif.Base Verif.M_Parser.
Import ListNotations.
Local Open Scope list_scope.
Local Open Scope out_scope.

Local Notation text := (list ascii).

(* metadata.datatype.front() *)
Inductive enum_kind := OPTION | ENUM_FLAGS | OTHER_TYPE.

(* static_cast<int> of an integer *)
Definition to_int (z : Z) : Z :=
  let w := wrap 32 z in if (w <? 2 ^ 31)%Z then w else (w - 2 ^ 32)%Z.

(* 1 << i of type int; 1 << 31 is not representable (C++11) *)
Definition shift1 (i : nat) : outcome Z :=
  if Nat.ltb i 31 then Ok (2 ^ Z.of_nat i)%Z else UB.

Definition bar : ascii := ascii_of_nat 124.
Definition bar_text : text := [blank; bar; blank].

(* options[i] with the int value converted to size_t: a negative value is
   outside of the vector *)
Definition option_at (options : list text) (value : Z) : outcome text :=
  if (value <? 0)%Z then UB else rd options (Z.to_nat value).

(* body of the loop, valueholder.h:149-156 *)
Definition get_flag_step (options : list text) (value : Z) (flags : text)
    (i : nat) : outcome text :=
  s <- shift1 i ;;
  if (Z.land value s =? 0)%Z then Ok flags else
  name <- rd options i ;;
  Ok ((match flags with [] => [] | _ => flags ++ bar_text end) ++ name).

(* valueholder.h:143-160 *)
Definition enum_get (kind : enum_kind) (options : list text) (value : Z)
  : outcome text :=
  match kind with
  | OPTION => option_at options value
  | ENUM_FLAGS =>
      foldM (get_flag_step options value) (seq 0 (length options)) []
  | OTHER_TYPE => Ok []
  end.

Section Set_value.
Variable tolower : ascii -> Z.

(* the loops at valueholder.h:172-177 and 185-190: the first option with the
   name; i = number of options before *)
Fixpoint find_option (name : text) (options : list text) (i : nat)
  : outcome (option nat) :=
  match options with
  | [] => Ok None
  | o :: options =>
      e <- case_insensitive_eq tolower name o ;;
      if e then Ok (Some i) else find_option name options (S i)
  end.

(* valueholder.h:167-182; the result of the function and the new value *)
Fixpoint set_flags (options values : list text) (value : Z)
  : outcome (bool * Z) :=
  match values with
  | [] => Ok (true, value)
  | v :: values =>
      j <- find_option (strip v) options 0 ;;
      next <- match j with
              | Some j => s <- shift1 j ;; Ok (Z.lor value s)
              | None => Ok value
              end ;;
      if (next =? value)%Z then Ok (false, next)
      else set_flags options values next
  end.

(* valueholder.h:184-206 *)
Definition set_option (parse : text -> option N) (kind : enum_kind)
    (options : list text) (old : Z) (value : text) : outcome (bool * Z) :=
  j <- find_option (strip value) options 0 ;;
  let index := match j with
               | Some i => Some (N.of_nat i)
               | None => parse value
               end in
  match index with
  | None => Ok (false, old)
  | Some i =>
      match kind with
      | OPTION => Ok (true, to_int (Z.of_N i))
      | ENUM_FLAGS => s <- shift1 (N.to_nat i) ;; Ok (true, s)
      | OTHER_TYPE => Ok (false, old)
      end
  end.

(* valueholder.h:162-207; split is called without its third argument, whose
   default (parser.h) merges separators; old = the value before the call *)
Definition enum_set (parse : text -> option N) (kind : enum_kind)
    (options : list text) (old : Z) (value : text) : outcome (bool * Z) :=
  match kind, split value [bar] true with
  | ENUM_FLAGS, v :: vs => set_flags options (v :: vs) 0
  | _, _ => set_option parse kind options old value
  end.

Definition true_text : text := map ascii_of_nat [84; 82; 85; 69].
Definition false_text : text := map ascii_of_nat [70; 65; 76; 83; 69].

(* ECFValueHolder<bool>::_setValue, valueholder.h:105-126; [stream value] is
   what std::stringstream delivers for the text: (eof reached, value) *)
Definition bool_set (stream : text -> bool * bool) (old : bool) (value : text)
  : outcome (bool * bool) :=
  match value with
  | [] => Ok (true, true)
  | _ =>
      f <- case_insensitive_eq tolower value false_text ;;
      if f then Ok (true, false) else
      t <- case_insensitive_eq tolower value true_text ;;
      if t then Ok (true, true) else
      Ok (stream value)
  end.

End Set_value.

(* ECFValueHolder<bool>::getValue, valueholder.h:128-136 *)
Definition bool_get (value : bool) : text :=
  if value then true_text else false_text.

(* ECFVectorHolder, vectorholder.h; the elements are printed and parsed by
   std::stringstream: [show] and [read] *)
Definition comma_blank : text := [comma; blank].

(* body of the loop, vectorholder.h:22-24 *)
Definition vector_get_step {T} (show : T -> text) (s : text) (v : T) : text :=
  s ++ comma_blank ++ show v.

(* vectorholder.h:16-27 *)
Definition vector_get {T} (show : T -> text) (values : list T) : text :=
  match values with
  | [] => []
  | v :: values => fold_left (vector_get_step show) values (show v)
  end.

(* vectorholder.h:32-40 *)
Fixpoint vector_set_loop {T} (read : text -> option T) (parsed : list text)
    (values : list T) : bool * list T :=
  match parsed with
  | [] => (true, values)
  | p :: parsed =>
      match read p with
      | None => (false, values)
      | Some v => vector_set_loop read parsed (values ++ [v])
      end
  end.

(* vectorholder.h:29-42; the values are appended to the old ones *)
Definition vector_set {T} (read : text -> option T) (old : list T)
    (value : text) : bool * list T :=
  vector_set_loop read (split value comma_blank true) old.
