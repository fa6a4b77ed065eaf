(* What configuration values should do; independent of M_Holder.v. *)
Require Import List ZArith Ascii Bool.
Require Import Verif.S_Parser.
Import ListNotations.

Local Notation text := (list ascii).

(* equal up to upper and lower case *)
Definition same_text (tolower : ascii -> Z) (a b : text) : Prop :=
  map tolower a = map tolower b.

(* u is the text without the blanks around it and without a comment *)
Definition stripped (t u : text) : Prop :=
  exists m, trimmed t m /\ cut_at ["#"%char] m u.

(* u is a name from the list *)
Definition named (tolower : ascii -> Z) (options : list text) (u : text) : Prop :=
  exists o, In o options /\ same_text tolower u o.

(* no two names of the list are equal up to case *)
Definition distinct (tolower : ascii -> Z) (names : list text) : Prop :=
  ForallOrdPairs (fun a b => ~ same_text tolower a b) names.

(* the names at the positions of the bits of v, in order *)
Definition flag_names (options : list text) (v : Z) : list text :=
  map snd (filter (fun p => Z.testbit v (Z.of_nat (fst p)))
    (combine (seq 0 (length options)) options)).
