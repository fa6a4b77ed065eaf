(* C41: a stored configuration is read back. *)
Require Import List ZArith Ascii String Bool Lia.
Require Import Verif.Base Verif.M_Parser Verif.M_Tokenizer.
Require Import Verif.S_Tokenizer Verif.S_Holder Verif.S_Config.
Require Import Verif.L_Tokenizer2 Verif.P_Parser Verif.P_Holder Verif.P_Tokenizer.
Require Import Verif.M_Holder Verif.M_Config Verif.L_Config.
Import ListNotations.
Local Open Scope list_scope.
Local Notation length := List.length.
Local Notation txt := list_ascii_of_string.
Local Notation text := (list ascii).
Local Notation layout := (list (list filler * item)).

Section Roundtrip.
Context {K X : Type}.
Variable get : K -> X -> text.
Variable set : K -> X -> text -> option X.
Variable toupper : ascii -> ascii.
Variable tolower : ascii -> Z.
Variable getenv : text -> text.
Variable link : list text -> text -> outcome (list text).
Variable oa : bool.
Hypothesis case_ok : forall c, tolower (toupper c) = tolower c.
Local Notation param := (param K X).
Local Notation items_run := (@items_run K X set tolower getenv link).
Local Notation restored_child := (restored_child get set toupper tolower oa).
Local Notation restored_list := (restored_list get set toupper tolower oa).
Local Notation print_param := (print_param get toupper oa).
Local Notation print_ecf := (print_ecf get toupper oa).

Lemma print_name_same keys n : same_text tolower (print_name toupper keys n) n.
Proof.
  unfold print_name, uppercase, same_text. destruct keys; [easy|].
  rewrite map_map. apply map_ext. exact case_ok.
Qed.

(* what is known about the text printed behind a gap g *)
Definition tail_shape (g : list filler) (its : layout) (g' : list filler) : Prop :=
  (its = [] /\ exists k, g' = g ++ newlines k) \/ (its <> [] /\ exists k, g' = newlines (S k)).

Definition child_prop (c0 c c' : param) : Prop :=
  forall keys indent maxSize f g,
  Forall filler_ok g -> ~ hidden oa c -> is_word (printed_name toupper keys (pname c)) ->
  exists its,
    gap_text g ++ fst (print_param maxSize indent keys c (print_ecf c (indent + 2) (has_keys c)) f)
      = flat its ++ [newline] /\
    snd (print_param maxSize indent keys c (print_ecf c (indent + 2) (has_keys c)) f)
      = Flags false false false /\
    its <> [] /\ layout_ok None its [] /\ ends_sign its /\
    forall o o1 ps i,
      get_parameter tolower (printed_name toupper keys (pname c)) o = Ok (Some i, o1) ->
      parameter_at o1 i = Ok c0 ->
      items_run (State o ps [] false) its (State (replace_parameter o1 i c') ps [] false).

Definition list_prop (keys : bool) (pat : option ((text -> bool) * param)) (l0 l l' : list param) : Prop :=
  forall rec indent maxSize sao f g n k a done done',
  (forall c, rec c = print_ecf c (indent + 2) (has_keys c)) ->
  Forall filler_ok g -> distinct_params tolower (done ++ l) ->
  (forall d, In d done' -> exists e, In e done /\ pname d = pname e) ->
  exists its g',
    gap_text g ++ print_loop get toupper rec oa maxSize indent keys l sao f = flat its ++ gap_text g' /\
    tail_shape g its g' /\ (its = [] -> Forall (fun c => is_sep c \/ hidden oa c) l) /\
    layout_ok None its [] /\ ends_sign its /\
    forall ps, items_run (State (PObject n k a pat (done' ++ l0)) ps [] false) its
      (State (PObject n k a pat (done' ++ l')) ps [] false).

Lemma not_hidden c : ~ hidden oa c -> oa && negb (@allowed K X c) = false.
Proof.
  unfold hidden. destruct oa; [|easy]. destruct (allowed c); [easy|]. intros H. now destruct H.
Qed.

Lemma is_hidden c : hidden oa c -> oa && negb (@allowed K X c) = true.
Proof. intros [-> ->]. easy. Qed.

Lemma child_name c0 c c' : restored_child c0 c c' -> pname c0 = pname c /\ pname c' = pname c /\ ~ is_sep c.
Proof. intros [|]; cbn; repeat split; now intros [m E]. Qed.

Lemma value_case n raw a k x0 x t :
  reread (printed_value toupper raw (get k x)) t -> set k x0 t = Some x ->
  child_prop (PValue n raw a k x0) (PValue n raw a k x) (PValue n raw a k x).
Proof.
  intros (vl & V & OK & E & ET) S keys indent maxSize f g F NH W.
  pose proof (not_hidden _ NH) as NH'. unfold M_Config.print_param. rewrite NH'. cbn [fst snd].
  set (space := if Nat.eqb maxSize 0 then 3 else maxSize - length n - length (get k x)).
  set (NAME := printed_name toupper keys n).
  exists ((g ++ nls (printSpace f && negb (firstValue f)) ++ blanks indent, Word NAME) ::
    push_gap (blanks (space + 3)) (vl ++ [([], Sign ";"%char)])).
  split; [|split; [|split; [|split; [|split]]]].
  - unfold print_value_param. fold space. rewrite gap_nls.
    change (print_name toupper keys n) with NAME.
    change (print_value toupper raw (get k x)) with (printed_value toupper raw (get k x)).
    rewrite E. unfold flat at 1. cbn [flat_map fst snd item_text].
    fold (flat (push_gap (blanks (space + 3)) (vl ++ [([], Sign ";"%char)]))).
    rewrite flat_push by (now destruct vl). rewrite flat_app.
    rewrite layout_text_flat, !gap_text_app, !gap_blanks. cbn [gap_text flat_map].
    rewrite app_nil_r. rewrite <- !app_assoc. cbn [app]. do 5 f_equal.
  - reflexivity.
  - easy.
  - cbn [layout_ok]. split.
    { apply Forall_app. split; [easy|]. apply Forall_app. split; [apply nls_ok|apply blanks_ok]. }
    split; [exact W|]. split; [easy|]. replace (space + 3) with (Datatypes.S (space + 2)) by lia.
    apply push_ok. apply layout_snoc; [cbn; tauto|easy].
  - right. destruct vl as [|[g0 i0] vl]; cbn [app push_gap].
    + eexists [_], _, _. reflexivity.
    + eexists (_ :: _ :: vl), [], _. reflexivity.
  - intros o o1 ps i G P. eapply run_assign; try eassumption; [reflexivity|]. now rewrite <- ET.
Qed.

Lemma object_case n keys a pat l0 l l' :
  distinct_params tolower l -> list_prop keys pat l0 l l' ->
  child_prop (PObject n keys a pat l0) (PObject n keys a pat l) (PObject n keys a pat l').
Proof.
  intros D IH hd indent maxSize f g F NH W.
  pose proof (not_hidden _ NH) as NH'. unfold M_Config.print_param. rewrite NH'. cbn [fst snd].
  set (NAME := printed_name toupper hd n). cbn [has_keys M_Config.print_ecf].
  destruct (IH (fun c => print_ecf c (indent + 2 + 2) (has_keys c)) (indent + 2)
    (max_size get oa l) false (Flags false true true) [Newline] n keys a [] [])
    as (its & g' & E & TS & _ & OK & ES & R); [easy|repeat constructor|easy|easy|].
  cbn [app] in R.
  assert (GN : exists k, g' = newlines k).
  { destruct TS as [(_ & k & ->)|(_ & k & ->)]; [now exists (Datatypes.S k)|now exists (Datatypes.S k)]. }
  exists ((g ++ nls (negb (firstParameter f)) ++ blanks indent, Word NAME) ::
    ([Blank " "%char], Sign "{"%char) :: its ++ [(g' ++ blanks indent, Sign "}"%char)]).
  split; [|split; [|split; [|split; [|split]]]].
  - unfold print_object_param. rewrite gap_nls. change (print_name toupper hd n) with NAME.
    unfold flat at 1. cbn [flat_map fst snd item_text].
    fold (flat (its ++ [(g' ++ blanks indent, Sign "}"%char)])). rewrite flat_app.
    rewrite !gap_text_app, !gap_blanks. rewrite <- !app_assoc. do 4 f_equal.
    cbn [app gap_text flat_map filler_text]. do 2 f_equal.
    cbn [gap_text flat_map filler_text app] in E.
    unfold flat at 2. cbn [flat_map fst snd item_text]. rewrite gap_text_app, gap_blanks, app_nil_r.
    rewrite <- !app_assoc. rewrite (app_assoc (flat its)). rewrite <- E. reflexivity.
  - reflexivity.
  - easy.
  - cbn [layout_ok]. split.
    { apply Forall_app. split; [easy|]. apply Forall_app. split; [apply nls_ok|apply blanks_ok]. }
    split; [exact W|]. split; [easy|]. split; [repeat constructor|]. split; [cbn; tauto|].
    split; [cbn; split; [now intros []|easy]|].
    destruct GN as [k ->].
    assert (OKE : layout_ok None [(newlines k ++ blanks indent, Sign "}"%char)] []).
    { cbn [layout_ok]. split; [|split; [cbn; tauto|split; [easy|repeat constructor]]].
      apply Forall_app. split; [apply newlines_ok|apply blanks_ok]. }
    pose proof (layout_app _ [] OKE its ES None ltac:(easy) OK) as L.
    destruct (its ++ _) as [|[g1 i1] rest] eqn:EI; [now destruct its|].
    cbn [layout_ok] in L |- *. cbn [separated]. tauto.
  - right. exists ((g ++ nls (negb (firstParameter f)) ++ blanks indent, Word NAME) ::
      ([Blank " "%char], Sign "{"%char) :: its), (g' ++ blanks indent), "}"%char. reflexivity.
  - intros o o1 ps i G P. eapply run_object; [exact G|exact P|easy|]. apply R.
Qed.

Lemma shape_step g its g' its2 g2 : tail_shape g its g' -> tail_shape g' its2 g2 -> tail_shape g (its ++ its2) g2.
Proof.
  intros [(-> & k & ->)|(N & k & ->)] [(-> & k2 & ->)|(N2 & k2 & ->)].
  - left. split; [easy|]. exists (k + k2). unfold newlines. now rewrite repeat_app, app_assoc.
  - right. split; [easy|]. now exists k2.
  - right. rewrite app_nil_r. split; [easy|]. exists (k + k2). unfold newlines.
    now rewrite <- repeat_app.
  - right. split; [now destruct its|]. now exists k2.
Qed.

Lemma distinct_move (done : list param) c l : distinct_params tolower (done ++ c :: l) ->
  distinct_params tolower ((done ++ [c]) ++ l).
Proof. now rewrite <- app_assoc. Qed.

Lemma names_move (done done' : list param) c c' :
  (forall d, In d done' -> exists e, In e done /\ pname d = pname e) -> pname c' = pname c ->
  forall d, In d (done' ++ [c']) -> exists e, In e (done ++ [c]) /\ pname d = pname e.
Proof.
  intros H E d I. apply in_app_or in I as [I|[<-|[]]].
  - destruct (H d I) as (e & I2 & E2). exists e. split; [|easy]. apply in_or_app. now left.
  - exists c. split; [|easy]. apply in_or_app. right. now left.
Qed.

Lemma distinct_done (done : list param) c l : distinct_params tolower (done ++ c :: l) -> ~ is_sep c ->
  forall e, In e done -> ~ same_text tolower (pname e) (pname c).
Proof.
  unfold distinct_params. induction done as [|d done IH]; intros D N e I; [easy|].
  cbn [app] in D. inversion D as [|? ? F D']; subst. destruct I as [<-|I].
  - rewrite Forall_forall in F. destruct (F c) as [[_ C]|C]; [|easy|easy].
    apply in_or_app. right. now left.
  - now apply IH.
Qed.

(* a printed child and the rest of the list *)
Lemma cons_case keys pat l0 l l' c0 c c' init :
  child_prop c0 c c' -> list_prop keys pat l0 l l' -> restored_child c0 c c' ->
  ~ hidden oa c -> is_word (printed_name toupper keys (pname c)) ->
  (forall n k a done', (forall d, In d done' -> ~ same_text tolower (pname d) (pname c)) ->
     get_parameter tolower (printed_name toupper keys (pname c)) (PObject n k a pat (done' ++ init)) =
     Ok (Some (length done'), PObject n k a pat (done' ++ c0 :: l0))) ->
  list_prop keys pat init (c :: l) (c' :: l').
Proof.
  intros C IH RC NH W LOOK rec indent maxSize sao f g n k a done done' RECEQ F D H.
  destruct (child_name _ _ _ RC) as (N0 & N' & NS).
  change (print_loop get toupper rec oa maxSize indent keys (c :: l) sao f) with
    (let '(t, f) := print_param maxSize indent keys c (rec c) f in
      (if sao && is_value c then [newline] else []) ++ t ++
      print_loop get toupper rec oa maxSize indent keys l (is_object c) f).
  rewrite RECEQ.
  destruct (C keys indent maxSize f (g ++ nls (sao && is_value c))) as (its & E & EF & NE & OK & ES & R).
  { apply Forall_app. split; [easy|apply nls_ok]. }
  { easy. } { easy. }
  destruct (print_param maxSize indent keys c _ f) as [t f2]. cbn [fst snd] in E, EF. subst f2.
  destruct (IH rec indent maxSize (is_object c) (Flags false false false) [Newline] n k a
    (done ++ [c]) (done' ++ [c'])) as (its2 & g2 & E2 & TS2 & _ & OK2 & ES2 & R2).
  { easy. } { repeat constructor. } { now apply distinct_move. } { now apply names_move. }
  exists (its ++ its2), g2. split; [|split; [|split; [now destruct its|split; [|split]]]].
  - rewrite gap_nls. rewrite gap_text_app, <- app_assoc in E. rewrite !app_assoc.
    rewrite <- (app_assoc (gap_text g)), E. rewrite flat_app, <- !app_assoc. f_equal. exact E2.
  - apply shape_step with (g' := newlines 1).
    + right. split; [easy|]. now exists 0.
    + exact TS2.
  - apply layout_app; easy.
  - now apply ends_sign_app.
  - intros ps. eapply run_app.
    + eapply R.
      * apply LOOK. intros d I. destruct (H d I) as (e & I2 & ->).
        apply distinct_done with (done := done) (l := l); easy.
      * cbn [parameter_at]. apply rd_mid.
    + cbn [replace_parameter]. rewrite upd_mid. specialize (R2 ps).
      rewrite <- !app_assoc in R2. exact R2.
Qed.

Lemma loop_cons_eq rec maxSize indent keys c (l : list param) sao f :
  print_loop get toupper rec oa maxSize indent keys (c :: l) sao f =
  (let '(t, f) := print_param maxSize indent keys c (rec c) f in
      (if sao && is_value c then [newline] else []) ++ t ++
      print_loop get toupper rec oa maxSize indent keys l (is_object c) f).
Proof. reflexivity. Qed.

(* a child that prints nothing *)
Lemma skip_case keys pat l0 l l' c (a b : list param) :
  list_prop keys pat l0 l l' ->
  (forall maxSize indent f content, fst (print_param maxSize indent keys c content f) = []) ->
  is_sep c \/ hidden oa c ->
  (a = [] /\ b = [] \/ exists p, a = [p] /\ b = [p] /\ pname p = pname c) ->
  list_prop keys pat (a ++ l0) (c :: l) (b ++ l').
Proof.
  intros IH P SH AB rec indent maxSize sao f g n k al done done' RECEQ F D H.
  rewrite loop_cons_eq. specialize (P maxSize indent f (rec c)).
  destruct (print_param maxSize indent keys c (rec c) f) as [t f2]. cbn [fst] in P. subst t.
  assert (EQ : a = b) by (destruct AB as [[-> ->]|(p & -> & -> & _)]; easy).
  destruct (IH rec indent maxSize (is_object c) f2 (g ++ nls (sao && is_value c)) n k al
    (done ++ [c]) (done' ++ b)) as (its & g2 & E & TS & EM & OK & ES & R).
  { easy. } { apply Forall_app. split; [easy|apply nls_ok]. } { now apply distinct_move. }
  { destruct AB as [[_ ->]|(p & _ & -> & NP)]; [|now apply names_move].
    rewrite app_nil_r. intros d I. destruct (H d I) as (e & I2 & E2). exists e.
    split; [apply in_or_app; now left|easy]. }
  exists its, g2. split; [|split; [|split; [|split; [|split]]]]; try easy.
  - cbn [app]. rewrite gap_nls, app_assoc, <- gap_text_app. exact E.
  - destruct TS as [(-> & j & ->)|TS]; [|now right]. left. split; [easy|].
    destruct (sao && is_value c); cbn [nls].
    + exists (Datatypes.S j). rewrite <- app_assoc. reflexivity.
    + exists j. now rewrite app_nil_r.
  - intros EI. constructor; [easy|now apply EM].
  - intros ps. specialize (R ps). rewrite <- !app_assoc in R. now rewrite EQ.
Qed.

Scheme child_ind := Induction for S_Config.restored_child Sort Prop
  with list_ind2 := Induction for S_Config.restored_list Sort Prop.

Lemma list_run keys pat l0 l l' : restored_list keys pat l0 l l' -> list_prop keys pat l0 l l'.
Proof.
  intros H.
  induction H using list_ind2 with (P := fun c0 c c' _ => child_prop c0 c c').
  - now apply value_case with t.
  - now apply object_case.
  - intros rec indent maxSize sao f g n k a done done' RECEQ F D HN.
    exists [], g. split; [cbn; now rewrite app_nil_r|]. split; [|split; [|split; [|split]]].
    + left. split; [easy|]. exists 0. cbn. now rewrite app_nil_r.
    + constructor.
    + repeat constructor.
    + now left.
    + intros ps. constructor.
  - apply (skip_case keys pattern l0 l l' (PSep n) [PSep n] [PSep n]); [easy| |left; now exists n|right; now exists (PSep n)].
    intros. unfold M_Config.print_param. cbn [allowed negb]. now rewrite andb_false_r.
  - apply (skip_case keys pattern l0 l l' p [p0] [p0]); [easy| |now right|right; now exists p0].
    intros. unfold M_Config.print_param. now rewrite is_hidden.
  - apply (skip_case keys pattern [] l l' p [] []); [easy| |now right|now left].
    intros. unfold M_Config.print_param. now rewrite is_hidden.
  - apply cons_case with (c0 := p0) (l0 := l0); try easy.
    intros nm k a done' ND. unfold get_parameter.
    destruct (child_name _ _ _ r) as (N0 & _).
    rewrite find_param_some; [reflexivity| |].
    + intros d I E. apply (ND d I).
      apply same_trans with (printed_name toupper keys (pname p)); [easy|]. apply print_name_same.
    + rewrite N0. apply same_sym. apply print_name_same.
  - apply cons_case with (c0 := rename q (pname p)) (l0 := []); try easy.
    intros nm k a done' ND. unfold get_parameter. cbn [printed_name]. rewrite app_nil_r.
    rewrite find_param_none by easy. cbn [obind]. now rewrite e.
Qed.

(** The stored parameters are read back: reading the text stored for an object with the parameters l
    into an object with the parameters l0 gives the parameters l' (see S_Config.v). *)
Theorem stored_parameters_are_read (n : text) (k a : bool) pat (l0 l l' : list param) :
  distinct_params tolower l -> restored_list false pat l0 l l' ->
  (exists c, In c l /\ ~ is_sep c /\ ~ hidden oa c) ->
  read set tolower getenv link (PObject n k a pat l0) (store get toupper oa (PObject n k a pat l))
  = Some (Ok (PObject n k a pat l')).
Proof.
  intros D R (c & I & NS & NH).
  destruct (list_run _ _ _ _ _ R (fun c => print_ecf c (0 + 2) (has_keys c)) 0 (max_size get oa l) false
    (Flags false true true) [HashComment (skipn 1 header); Newline] n k a [] [])
    as (its & g & E & TS & EM & OK & ES & RUN); [easy| |easy|easy|].
  { repeat constructor; cbn; intuition congruence. }
  assert (ST : store get toupper oa (PObject n k a pat l) = layout_text its g).
  { rewrite layout_text_flat, <- E. reflexivity. }
  destruct TS as [(NI & j & EG)|(NI & j & EG)].
  { exfalso. specialize (EM NI). rewrite Forall_forall in EM. destruct (EM c I); easy. }
  assert (LOK : layout_ok None its g).
  { pose proof (layout_app [] g) as LA. rewrite <- (app_nil_r its). apply LA; [|easy|easy|easy].
    subst g. cbn [layout_ok]. split; [apply newlines_ok|]. split.
    - clear. induction (Datatypes.S j); constructor; easy.
    - clear. induction j as [|j IH]; [easy|]. exact IH. }
  destruct (layout_line_ends its g LOK) as (toks & T & DL).
  unfold read. rewrite ST, T by lia. specialize (RUN []). cbn [app] in RUN.
  rewrite (run_delivered _ _ _ _ _ _ _ DL _ _ RUN); [reflexivity|cbn; lia].
Qed.

End Roundtrip.

(** a value made of words separated by one blank is read as it is *)
Theorem words_are_reread (ws : list text) : Forall is_word ws -> reread (joined ws) (joined ws).
Proof.
  intros F. destruct ws as [|w ws]; [exists []; repeat constructor|].
  inversion F as [|? ? W F']; subst.
  exists (([], Word w) :: map (fun v => ([Blank " "%char], Word v)) ws).
  split; [|split; [|split]].
  - constructor; [split; [constructor|easy]|]. apply Forall_map, Forall_forall. intros v _.
    split; [repeat constructor|easy].
  - cbn [layout_ok]. split; [constructor|]. split; [exact W|]. split; [easy|].
    clear W F. revert w. induction F' as [|v ws V F IH]; intros w; cbn [map layout_ok].
    + repeat constructor.
    + split; [repeat constructor; cbn; tauto|]. split; [exact V|]. split; [|apply IH].
      split; [now intros []|easy].
  - rewrite layout_text_flat. cbn [gap_text flat_map]. rewrite app_nil_r. cbn [joined flat flat_map fst snd item_text gap_text app].
    f_equal. clear. induction ws as [|v ws IH]; [easy|]. cbn [map flat_map fst snd item_text gap_text filler_text app].
    f_equal. f_equal. exact IH.
  - cbn [map snd flat_map value_words app]. f_equal. f_equal.
    clear. induction ws as [|v ws IH]; [easy|]. cbn [map snd flat_map value_words app]. now rewrite <- IH.
Qed.

(** if everything is stored, the result is the stored configuration *)
Lemma restored_all_list {K X} keys pat get set toupper tolower (l0 l l' : list (param K X)) :
  restored_list get set toupper tolower false keys pat l0 l l' -> l' = l.
Proof.
  intros H.
  induction H using list_ind2 with (P := fun c0 c c' _ => c' = c); try congruence.
  - now destruct h.
  - now destruct h.
Qed.

Theorem stored_configuration_is_read {K X} (get : K -> X -> text) (set : K -> X -> text -> option X)
    (toupper : ascii -> ascii) (tolower : ascii -> Z) getenv link
    (n : text) (k a : bool) pat (l0 l l' : list (param K X)) :
  (forall c, tolower (toupper c) = tolower c) ->
  distinct_params tolower l -> restored_list get set toupper tolower false false pat l0 l l' ->
  (exists c, In c l /\ ~ is_sep c) ->
  read set tolower getenv link (PObject n k a pat l0) (store get toupper false (PObject n k a pat l))
  = Some (Ok (PObject n k a pat l)).
Proof.
  intros C D R (c & I & NS). rewrite (stored_parameters_are_read get set toupper tolower getenv link
    false C n k a pat l0 l l' D R).
  - do 3 f_equal. now apply restored_all_list in R.
  - exists c. split; [easy|]. split; [easy|]. now intros [? _].
Qed.

(* ---- examples --------------------------------------------------------- *)

Definition c_toupper (c : ascii) : ascii :=
  let v := nat_of_ascii c in
  if (Nat.leb 97 v && Nat.leb v 122)%bool then ascii_of_nat (v - 32) else c.

Example case_ok_ex : forall c, c_tolower (c_toupper c) = c_tolower c.
Proof. intros [[] [] [] [] [] [] [] []]; reflexivity. Qed.

(* values are texts; kind true = a vector of words, false = a text *)
Definition ex_get (k : bool) (x : list text) : text :=
  if k then vector_get (fun w => w) x else List.concat x.
Definition ex_set (k : bool) (x : list text) (t : text) : option (list text) :=
  if k then (let '(ok, r) := vector_set (fun w => match w with [] => None | _ => Some w end) x t in
             if ok then Some r else None)
  else Some [t].

Definition ex_entry (v : text) : param bool (list text) :=
  PObject [] false true None [PValue (txt "type") false true false [v]; PSep (txt "SPACE");
    PValue (txt "file") true true false [[]]].

Definition ex_fresh : list (param bool (list text)) :=
  [PValue (txt "input") false true false [txt "NONE"];
   PSep (txt "SEPARATOR");
   PValue (txt "debug") false false false [txt "OFF"];
   PObject (txt "regions") true true (Some ((fun _ => true), ex_entry (txt "A"))) [];
   PValue (txt "frequencies") false true true []].

Definition ex_stored : list (param bool (list text)) :=
  [PValue (txt "input") false true false [txt "NODES + EDGES"];
   PSep (txt "SEPARATOR");
   PValue (txt "debug") false false false [txt "ON"];
   PObject (txt "regions") true true (Some ((fun _ => true), ex_entry (txt "A")))
     [rename (ex_entry (txt "BOX")) (txt "Left");
      PObject (txt "Right") false true None [PValue (txt "type") false true false [txt "B"]; PSep (txt "SPACE");
        PValue (txt "file") true true false [txt "path/to-file.txt"]]];
   PValue (txt "frequencies") false true true [txt "10"; txt "2.5"]].

Definition ex_read (oa : bool) :=
  read ex_set c_tolower (fun _ => []) (fun vs t => Ok vs)
    (PObject [] false true None ex_fresh) (store ex_get c_toupper oa (PObject [] false true None ex_stored)).

Example stored_ex : ex_read false = Some (Ok (PObject [] false true None ex_stored)).
Proof. vm_compute. reflexivity. Qed.

(* with onlyAllowed the parameter that is not allowed keeps its value *)
Example stored_allowed_ex : ex_read true = Some (Ok (PObject [] false true None
  (firstn 2 ex_stored ++ [nth 2 ex_fresh (PSep [])] ++ skipn 3 ex_stored))).
Proof. vm_compute. reflexivity. Qed.

Example stored_text_ex :
  store ex_get c_toupper true (PObject [] false true None ex_stored) = txt
"# ESPRESO Configuration File

INPUT   NODES + EDGES;

REGIONS {
  Left {
    TYPE   BOX;

    FILE      ;
  }

  Right {
    TYPE                  B;

    FILE   path/to-file.txt;
  }
}

FREQUENCIES   10, 2.5;
"%string.
Proof. vm_compute. reflexivity. Qed.

Definition word_b (w : text) : bool :=
  negb (Nat.eqb (length w) 0) && forallb (fun c => negb (has reserved c)) w &&
  negb (Ascii.eqb (last w " "%char) "/") &&
  (fix ok (w : text) := match w with
    | a :: ((c :: _) as r) => negb (Ascii.eqb a "/" && (Ascii.eqb c "/" || Ascii.eqb c "*")) && ok r
    | _ => true end) w.

Lemma word_b_ok w : word_b w = true -> is_word w.
Proof.
  unfold word_b. rewrite !andb_true_iff. intros [[[A B] C] D]. split; [|split; [|split]].
  - now intros ->.
  - apply Forall_forall. intros c I. rewrite forallb_forall in B. specialize (B c I).
    unfold plain. apply L_Parser.has_not_in. now destruct (has reserved c).
  - intros E. now rewrite E in C.
  - clear A B C. intros a b c ->. induction a as [|x a IH].
    + cbn [app] in D. apply andb_true_iff in D as [D _].
      split; intros ->; discriminate D.
    + apply IH. cbn [app] in D. destruct a; cbn [app] in D |- *; apply andb_true_iff in D as [_ D]; exact D.
Qed.

Lemma plain_reread ws p : forallb word_b ws = true -> p = joined ws -> reread p p.
Proof.
  intros H ->. apply words_are_reread. apply Forall_forall. intros w I.
  rewrite forallb_forall in H. now apply word_b_ok, H.
Qed.

Example vector_reread : reread (txt "10, 2.5") (txt "10 , 2.5").
Proof.
  exists [([], Word (txt "10")); ([], Sign ","%char); ([Blank " "%char], Word (txt "2.5"))].
  split; [|split; [|split; reflexivity]].
  - repeat constructor.
  - cbn [layout_ok]. split; [constructor|]. split; [now apply word_b_ok|]. split; [easy|].
    split; [constructor|]. split; [cbn; tauto|]. split; [cbn; intuition|].
    split; [repeat constructor; cbn; tauto|]. split; [now apply word_b_ok|]. split; [easy|]. repeat constructor.
Qed.

Ltac distinct_tac := unfold distinct_params;
  repeat (constructor; [repeat (constructor; [right; vm_compute; congruence|]); constructor|]); constructor.

Example ex_restored : restored_list ex_get ex_set c_toupper c_tolower false false None ex_fresh ex_stored ex_stored.
Proof.
  assert (NH : forall p : param bool (list text), ~ hidden false p) by now intros p [? _].
  unfold ex_fresh, ex_stored. apply restored_cons; [apply NH|now apply word_b_ok| |].
  { eapply restored_value; [|reflexivity]. now apply plain_reread with (ws := map txt ["NODES"; "+"; "EDGES"]%string). }
  apply restored_sep. apply restored_cons; [apply NH|now apply word_b_ok| |].
  { eapply restored_value; [|reflexivity]. now apply plain_reread with (ws := map txt ["ON"]%string). }
  apply restored_cons; [apply NH|now apply word_b_ok| |].
  { apply restored_object; [distinct_tac|].
    apply restored_new; [apply NH|now apply word_b_ok|easy| |].
    { apply restored_object; [distinct_tac|].
      apply restored_cons; [apply NH|now apply word_b_ok| |].
      { eapply restored_value; [|reflexivity]. now apply plain_reread with (ws := map txt ["BOX"]%string). }
      apply restored_sep. apply restored_cons; [apply NH|now apply word_b_ok| |constructor].
      eapply restored_value; [|reflexivity]. now apply plain_reread with (ws := []). }
    apply restored_new; [apply NH|now apply word_b_ok|easy| |constructor].
    apply restored_object; [distinct_tac|].
    apply restored_cons; [apply NH|now apply word_b_ok| |].
    { eapply restored_value; [|reflexivity]. now apply plain_reread with (ws := map txt ["B"]%string). }
    apply restored_sep. apply restored_cons; [apply NH|now apply word_b_ok| |constructor].
    eapply restored_value; [|reflexivity]. now apply plain_reread with (ws := map txt ["path/to-file.txt"]%string). }
  apply restored_cons; [apply NH|now apply word_b_ok| |constructor].
  eapply restored_value; [apply vector_reread|reflexivity].
Qed.

Example ex_distinct : distinct_params c_tolower ex_stored.
Proof. unfold ex_stored. distinct_tac. Qed.

(* ---- what is not restored --------------------------------------------- *)

Definition ex_text (v : text) : param bool (list text) :=
  PObject [] false true None [PValue (txt "A") true true false [v]].
Definition ex_text_read (v : text) (file : text) :=
  read ex_set c_tolower (fun _ => []) (fun vs t => Ok vs) (ex_text v) file.

(** blanks inside of a text are merged; quotes are lost *)
Theorem text_value_refuted :
  ex_text_read [] (store ex_get c_toupper false (ex_text (txt "a  b"))) = Some (Ok (ex_text (txt "a b"))) /\
  ex_text_read [] (store ex_get c_toupper false (ex_text (txt "'a'"))) = Some (Ok (ex_text (txt "a"))).
Proof. vm_compute. split; reflexivity. Qed.

(** a configuration without parameters cannot be read: the file ends by a comment *)
Theorem empty_configuration_refuted :
  ex_text_read [] (store ex_get c_toupper false (PObject [] false true None [])) = Some UB.
Proof. vm_compute. reflexivity. Qed.

(** an assignment without semicolon at the end of the file is ignored without an error *)
Theorem missing_semicolon_refuted :
  ex_text_read (txt "1") (txt "A 2") = Some (Ok (ex_text (txt "1"))).
Proof. vm_compute. reflexivity. Qed.

(** and one before the end of an object belongs to the outer object *)
Theorem missing_semicolon_in_object_refuted :
  let o v w := PObject [] false true None [PValue (txt "A") true true false [v];
    PObject (txt "B") false true None [PValue (txt "A") true true false [w]]] in
  read ex_set c_tolower (fun _ => []) (fun vs t => Ok vs) (o (txt "1") (txt "1")) (txt "B { A 2 } ;")
  = Some (Ok (o (txt "2") (txt "1"))).
Proof. vm_compute. reflexivity. Qed.

(** ** A file that is accepted closes every object it opens, and no other *)
Definition is_token (t : token) (tv : token * text) : bool :=
  match t, fst tv with OBJECT_OPEN, OBJECT_OPEN => true | OBJECT_CLOSE, OBJECT_CLOSE => true | _, _ => false end.
Definition opened (l : list (token * text)) : nat := length (filter (is_token OBJECT_OPEN) l).
Definition closed (l : list (token * text)) : nat := length (filter (is_token OBJECT_CLOSE) l).

Lemma process_depth {K X} set tolower getenv link (s s' : state (K := K) (X := X)) tv :
  process set tolower getenv link s tv = Ok s' -> (length (parents s') + closed [tv] = length (parents s) + opened [tv])%nat.
Proof.
  destruct tv as (t, v). unfold process, opened, closed, is_token. destruct t; cbn [fst snd filter length]; try (now intros [= <-]).
  - destruct (unfinishedLine s); [|now intros [= <-]]. destruct (get_parameter _ _ _) as [(o, q)| |]; cbn [obind fst]; try discriminate. destruct o; [discriminate|]. now intros [= <-].
  - destruct (link _ _); cbn [obind]; try discriminate. now intros [= <-].
  - unfold object_open. destruct (values s) as [|n [|]]; try discriminate. destruct (get_parameter _ _ _) as [(o, q)| |]; cbn [obind fst snd]; try discriminate.
    destruct o; [|discriminate]. destruct (parameter_at _ _); cbn [obind]; try discriminate. destruct (is_object _); [|discriminate]. intros [= <-]. cbn. lia.
  - unfold object_close. destruct (parents s) as [|(o, i) ps]; [discriminate|]. intros [= <-]. cbn. lia.
  - assert (A : forall n t, assign set tolower s n t = Ok s' -> parents s' = parents s).
    { intros n t. unfold assign. destruct (get_parameter _ _ _) as [(o, q)| |]; cbn [obind fst snd]; try discriminate. destruct o; [|discriminate].
      destruct (parameter_at _ _) as [p| |]; cbn [obind]; try discriminate. destruct p; try discriminate. destruct (set _ _ _); [|discriminate]. now intros [= <-]. }
    unfold expression_end. destruct (values s) as [|n [|v' vs]]; [now intros [= <-]| |]; intros E; apply A in E; rewrite E; reflexivity.
Qed.
Lemma foldM_depth {K X} set tolower getenv link l : forall (s s' : state (K := K) (X := X)),
  foldM (process set tolower getenv link) l s = Ok s' -> (length (parents s') + closed l = length (parents s) + opened l)%nat.
Proof.
  induction l as [|tv l IH]; cbn [foldM]; intros s s' E; [injection E as <-; reflexivity|].
  destruct (process _ _ _ _ s tv) as [s1| |] eqn:P; cbn [obind] in E; try discriminate. apply process_depth in P. apply IH in E.
  change (tv :: l) with ([tv] ++ l). unfold opened, closed in *. rewrite !filter_app, !app_length. lia.
Qed.
Theorem accepted_objects_are_closed {K X} set tolower getenv link (configuration result : param K X) file :
  read set tolower getenv link configuration file = Some (Ok result) ->
  exists toks, tokenize (S (length file)) (length file) file [] 1 = Some (Ok toks) /\ opened (map fst toks) = closed (map fst toks) /\
    forall pre post, map fst toks = pre ++ post -> (closed pre <= opened pre)%nat.
Proof.
  unfold read. destruct (tokenize _ _ _ _ _) as [[toks| |]|]; try discriminate. intros E. exists toks. split; [reflexivity|]. injection E as E.
  destruct (foldM _ _ _) as [s| |] eqn:F; cbn [obind] in E; try discriminate. destruct (parents s) eqn:P; [|discriminate]. split.
  - apply foldM_depth in F. rewrite P in F. cbn in F. lia.
  - intros pre post Ep. rewrite Ep, foldM_app in F. destruct (foldM _ pre _) as [s1| |] eqn:F1; cbn [obind] in F; try discriminate.
    apply foldM_depth in F1. cbn [parents length] in F1. lia.
Qed.
Example accepted_ex : exists r, read ex_set c_tolower (fun _ => []) (fun vs t => Ok vs)
  (PObject [] false true None [PObject (txt "B") false true None [PValue (txt "A") true true false [txt "1"]]]) (txt "B { A 2; }
") = Some (Ok r).
Proof. eexists. vm_compute. reflexivity. Qed.
(** and one that is not *)
Example unclosed_ex : read ex_set c_tolower (fun _ => []) (fun vs t => Ok vs)
  (PObject [] false true None [PObject (txt "B") false true None [PValue (txt "A") true true false [txt "1"]]]) (txt "B { A 2;
") = Some Fail.
Proof. vm_compute. reflexivity. Qed.

(** ** An assignment of some words that is not ended before the next line assigns another parameter is refused *)
Lemma foldM_strings {K X} set tolower getenv link ws : forall (s : state (K := K) (X := X)), unfinishedLine s = false ->
  foldM (process set tolower getenv link) (map (fun w => (STRING, w)) ws) s = Ok (State (top s) (parents s) (values s ++ ws) false).
Proof.
  induction ws as [|w ws IH]; intros s U; cbn [map foldM].
  - rewrite app_nil_r, <- U. now destruct s.
  - unfold process at 1. cbn [fst snd]. rewrite U. cbn [obind]. rewrite IH by reflexivity. cbn [top parents values]. now rewrite <- app_assoc.
Qed.
Theorem missing_semicolon_is_detected {K X} set0 tolower getenv link n k a pat (before after : list (param K X)) p file toks (name value next eol : text) words rest :
  tokenize (S (length file)) (length file) file [] 1 = Some (Ok toks) ->
  map fst toks = map (fun w => (STRING, w)) (name :: value :: words) ++ (LINE_END, eol) :: (STRING, next) :: rest ->
  (forall q, In q before -> ~ same_text tolower (pname q) next) -> same_text tolower (pname p) next ->
  read set0 tolower getenv link (PObject n k a pat (before ++ p :: after)) file = Some Fail.
Proof.
  intros T E B P. unfold read. rewrite T, E, foldM_app, foldM_strings by reflexivity. cbn [obind top parents values app].
  set (c := PObject n k a pat (before ++ p :: after)). set (vs := name :: value :: words).
  assert (P1 : process set0 tolower getenv link (State c [] vs false) (LINE_END, eol) = Ok (State c [] vs true)) by reflexivity.
  assert (P2 : process set0 tolower getenv link (State c [] vs true) (STRING, next) = Fail).
  { unfold process. cbn [fst snd unfinishedLine top]. unfold c, get_parameter. now rewrite (find_param_some tolower next before p after 0 B P). }
  cbn [foldM]. rewrite P1. cbn [obind]. rewrite P2. reflexivity.
Qed.
Example missing_semicolon_ex :
  ex_text_read (txt "1") (txt "B 2
A 3;") = Some Fail.
Proof. vm_compute. reflexivity. Qed.

Print Assumptions words_are_reread.
Print Assumptions stored_parameters_are_read.
Print Assumptions stored_configuration_is_read.
Print Assumptions text_value_refuted.
Print Assumptions empty_configuration_refuted.
Print Assumptions missing_semicolon_refuted.
Print Assumptions missing_semicolon_in_object_refuted.
Print Assumptions accepted_objects_are_closed.
Print Assumptions missing_semicolon_is_detected.
