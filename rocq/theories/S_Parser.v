(* What the text utilities should do; independent of M_Parser.v. *)
Require Import List NArith Ascii Bool.
Import ListNotations.

Local Notation text := (list ascii).

(* no character of p belongs to the set *)
Definition free_of (set p : text) : Prop := forall c, In c p -> ~ In c set.
(* all characters of g belong to the set *)
Definition made_of (set g : text) : Prop := forall c, In c g -> In c set.

(* what stands between two fields: one separator, or any positive number of
   them when neighbouring separators are merged *)
Definition gap (sep : text) (merge : bool) (g : text) : Prop :=
  made_of sep g /\ g <> [] /\ (merge = false -> length g = 1).

(* [fields sep merge line ps]: ps are the fields of the line, in order.  The
   separators after the last field do not start a new one. *)
Inductive fields (sep : text) (merge : bool) : text -> list text -> Prop :=
| fields_last p : free_of sep p -> fields sep merge p [p]
| fields_closed p g : free_of sep p -> gap sep merge g ->
    fields sep merge (p ++ g) [p]
| fields_more p g c rest ps : free_of sep p -> gap sep merge g ->
    (merge = true -> ~ In c sep) ->
    fields sep merge (c :: rest) ps ->
    fields sep merge (p ++ g ++ c :: rest) (p :: ps).

(* blank characters *)
Definition is_space (c : ascii) : Prop :=
  In (nat_of_ascii c) [32; 13; 9; 10].

(* m is the line without the blanks around it *)
Definition trimmed (line m : text) : Prop :=
  exists a b, line = a ++ m ++ b /\ Forall is_space a /\ Forall is_space b /\
    (forall c r, m = c :: r -> ~ is_space c) /\
    (forall c r, m = r ++ [c] -> ~ is_space c).

(* u is the longest beginning of m without the characters of the set *)
Definition cut_at (set m u : text) : Prop :=
  free_of set u /\ (m = u \/ exists c r, m = u ++ c :: r /\ In c set).

(* decimal numbers *)
Definition digit (c : ascii) : Prop := 48 <= nat_of_ascii c <= 57.
Definition decimal (t : text) : N :=
  fold_left (fun v c => (10 * v + N.of_nat (nat_of_ascii c - 48))%N) t 0%N.

(* t is n in groups of three digits separated by commas *)
Definition grouped (n : N) (t : text) : Prop :=
  exists first groups,
    t = first ++ concat (map (cons ","%char) groups) /\
    Forall digit (first ++ concat groups) /\
    decimal (first ++ concat groups) = n /\
    1 <= length first <= 3 /\
    (hd "0"%char first = "0"%char -> n = 0%N /\ t = ["0"%char]) /\
    Forall (fun g => length g = 3) groups.
