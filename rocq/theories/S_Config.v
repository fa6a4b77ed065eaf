(* When a stored configuration can be read back, and what is read; uses the
   configuration tree of M_Config.v but not its printer and reader. *)
Require Import List ZArith Ascii Bool.
Require Import Verif.M_Config Verif.S_Holder Verif.S_Tokenizer.
Import ListNotations.

Local Notation text := (list ascii).

(* the words of a value: words and quoted texts, commas; equal signs are
   ignored *)
Definition value_words (i : item) : list text :=
  match i with
  | Word w | Quoted _ w _ => [w]
  | Sign c => if Ascii.eqb c "," then [[c]] else []
  | Link _ => []
  end.
Definition value_item (gi : list filler * item) : Prop :=
  only_blanks (fst gi) /\
  match snd gi with
  | Word _ | Quoted _ _ _ => True
  | Sign c => c = ","%char \/ c = "="%char
  | Link _ => False
  end.
Definition joined (ws : list text) : text :=
  match ws with [] => [] | w :: ws => w ++ flat_map (cons " "%char) ws end.

(* the value printed as p is read as t *)
Definition reread (p t : text) : Prop :=
  exists l, Forall value_item l /\ layout_ok None l [] /\ p = layout_text l [] /\
    t = joined (flat_map value_words (map snd l)).

Section Spec.
Context {K X : Type}.
Variable get : K -> X -> text.
Variable set : K -> X -> text -> option X.
Variable toupper : ascii -> ascii.
Variable tolower : ascii -> Z.
Variable onlyAllowed : bool.
Local Notation param := (param K X).

Definition is_sep (p : param) : Prop := exists n, p = PSep n.

(* only separators share names *)
Definition distinct_params (l : list param) : Prop :=
  ForallOrdPairs (fun a b => (is_sep a /\ is_sep b) \/
    ~ same_text tolower (pname a) (pname b)) l.

(* parameters that are not stored *)
Definition hidden (p : param) : Prop := onlyAllowed = true /\ allowed p = false.

Definition printed_name (keys : bool) (n : text) : text :=
  if keys then n else map toupper n.
Definition printed_value (raw : bool) (v : text) : text :=
  if raw then v else map toupper v.

(* [restored_child p0 p p']: the parameter p0 of the configuration that is
   read into becomes p' by reading the stored parameter p *)
Inductive restored_child : param -> param -> param -> Prop :=
| restored_value n raw a k x0 x t :
    reread (printed_value raw (get k x)) t -> set k x0 t = Some x ->
    restored_child (PValue n raw a k x0) (PValue n raw a k x) (PValue n raw a k x)
| restored_object n keys a pattern l0 l l' :
    distinct_params l -> restored_list keys pattern l0 l l' ->
    restored_child (PObject n keys a pattern l0) (PObject n keys a pattern l)
      (PObject n keys a pattern l')
(* the same for the parameters of an object; keys and pattern belong to the
   object *)
with restored_list : bool -> option ((text -> bool) * param) ->
    list param -> list param -> list param -> Prop :=
| restored_nil keys pattern : restored_list keys pattern [] [] []
| restored_sep keys pattern n l0 l l' : restored_list keys pattern l0 l l' ->
    restored_list keys pattern (PSep n :: l0) (PSep n :: l) (PSep n :: l')
| restored_hidden keys pattern p0 p l0 l l' :
    hidden p -> pname p0 = pname p -> restored_list keys pattern l0 l l' ->
    restored_list keys pattern (p0 :: l0) (p :: l) (p0 :: l')
| restored_hidden_new keys pattern p l l' :
    hidden p -> restored_list keys pattern [] l l' ->
    restored_list keys pattern [] (p :: l) l'
| restored_cons keys pattern p0 p p' l0 l l' :
    ~ hidden p -> is_word (printed_name keys (pname p)) ->
    restored_child p0 p p' -> restored_list keys pattern l0 l l' ->
    restored_list keys pattern (p0 :: l0) (p :: l) (p' :: l')
| restored_new key_ok q p p' l l' : (* created from the pattern *)
    ~ hidden p -> is_word (pname p) -> key_ok (pname p) = true ->
    restored_child (rename q (pname p)) p p' ->
    restored_list true (Some (key_ok, q)) [] l l' ->
    restored_list true (Some (key_ok, q)) [] (p :: l) (p' :: l').

End Spec.
