(* What a configuration file is made of; independent of M_Tokenizer.v except
   for the names of the tokens. *)
Require Import List Ascii Bool.
Require Import Verif.M_Tokenizer.
Import ListNotations.

Local Notation text := (list ascii).
Local Notation nl := (ascii_of_nat 10).
Local Notation cr := (ascii_of_nat 13).
Local Notation quote2 := (ascii_of_nat 34).
Local Notation quote1 := (ascii_of_nat 39).

(* characters with no special meaning: words are made of them *)
Definition reserved : text :=
  [" "; ascii_of_nat 9; cr; nl; ","; "="; ";"; "{"; "}"; "["; "$"; "#";
   quote2; quote1]%char.
Definition plain (c : ascii) : Prop := ~ In c reserved.

(* a word: a name, a number, a path, ...; it contains no start of a comment *)
Definition is_word (w : text) : Prop :=
  w <> [] /\ Forall plain w /\ last w " "%char <> "/"%char /\
  (forall a b c, w = a ++ "/"%char :: c :: b -> c <> "/"%char /\ c <> "*"%char).

(* the meaningful parts of a file *)
Inductive item :=
| Word (w : text)
| Quoted (q : ascii) (w : text) (q' : ascii)
| Link (w : text)
| Sign (c : ascii).

Definition item_ok (i : item) : Prop :=
  match i with
  | Word w => is_word w
  | Quoted q w q' => In q [quote1; quote2] /\ In q' [quote1; quote2] /\
                     forall c, In c w -> ~ In c [quote1; quote2]
  | Link w => forall c, In c w -> ~ In c ["["; "]"]%char
  | Sign c => In c [","; "="; ";"; "{"; "}"]%char
  end.

Definition item_text (i : item) : text :=
  match i with
  | Word w => w
  | Quoted q w q' => q :: w ++ [q']
  | Link w => "["%char :: w ++ ["]"%char]
  | Sign c => [c]
  end.

(* the token it should become, and its value *)
Definition item_token (i : item) : token * text :=
  match i with
  | Word w => (STRING, w)
  | Quoted _ w _ => (STRING, w)
  | Link w => (LINK, w)
  | Sign c => (if Ascii.eqb c "," then DELIMITER
               else if Ascii.eqb c "=" then ASSIGN
               else if Ascii.eqb c ";" then EXPRESSION_END
               else if Ascii.eqb c "{" then OBJECT_OPEN
               else OBJECT_CLOSE, [c])
  end.

(* white space and comments *)
Inductive filler :=
| Blank (c : ascii)
| Newline
| HashComment (body : text) (* # ... end of line *)
| SlashComment (body : text) (* // ... end of line *)
| StarComment (body : text). (* /* ... */ *)

Definition filler_ok (f : filler) : Prop :=
  match f with
  | Blank c => In c [" "%char; ascii_of_nat 9; cr]
  | Newline => True
  | HashComment b | SlashComment b => ~ In nl b /\ ~ In cr b
  | StarComment b => forall x y, b <> x ++ "*"%char :: "/"%char :: y
  end.

Definition filler_text (f : filler) : text :=
  match f with
  | Blank c => [c]
  | Newline => [nl]
  | HashComment b => "#"%char :: b ++ [nl]
  | SlashComment b => "/"%char :: "/"%char :: b ++ [nl]
  | StarComment b => "/"%char :: "*"%char :: b ++ ["*"; "/"]%char
  end.

Definition gap_text (g : list filler) : text := flat_map filler_text g.

(* a file: items, each one after a gap, and white space at the end *)
Definition layout_text (l : list (list filler * item)) (tail : list filler)
  : text :=
  flat_map (fun gi => gap_text (fst gi) ++ item_text (snd gi)) l ++ gap_text tail.

Definition starts_with_star (g : list filler) : Prop :=
  match g with StarComment _ :: _ => True | _ => False end.

(* [separated prev g next]: what has to hold for the gap g between two items
   to keep them apart *)
Definition separated (prev : item) (g : list filler) (next : option item) : Prop :=
  match prev with
  | Word _ => ~ starts_with_star g /\
              match next with
              | Some (Word _) | Some (Quoted _ _ _) => g <> []
              | _ => True
              end
  | _ => True
  end.

Fixpoint layout_ok (prev : option item) (l : list (list filler * item))
    (tail : list filler) : Prop :=
  match l with
  | [] => Forall filler_ok tail /\
          (* no comments after the last item, only blanks and line ends *)
          Forall (fun f => match f with Blank _ | Newline => True | _ => False end) tail /\
          last tail Newline = Newline
  | (g, i) :: l =>
      Forall filler_ok g /\ item_ok i /\
      match prev with Some p => separated p g (Some i) | None => True end /\
      layout_ok (Some i) l tail
  end.

Definition only_blanks (g : list filler) : Prop :=
  Forall (fun f => match f with Blank _ => True | _ => False end) g.

(* [delivered l tail toks]: the tokens of a file are its items; line ends may
   be reported, but only where more than blanks stands between two items *)
Inductive delivered : list (list filler * item) -> list filler ->
    list (token * text) -> Prop :=
| delivered_end tail : delivered [] tail []
| delivered_item g i l tail toks : delivered l tail toks ->
    delivered ((g, i) :: l) tail (item_token i :: toks)
| delivered_line g i l tail toks v : ~ only_blanks g ->
    delivered ((g, i) :: l) tail toks ->
    delivered ((g, i) :: l) tail ((LINE_END, v) :: toks)
| delivered_line_end tail toks v : delivered [] tail toks ->
    delivered [] tail ((LINE_END, v) :: toks).
