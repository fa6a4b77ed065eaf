(** * C38, C39: tokenizing configuration files (tokenizer.cpp) *)
From Coq Require Import List Ascii String Bool Lia Arith.
From Verif Require Import Base M_Parser M_Tokenizer S_Tokenizer L_Parser L_Tokenizer L_Tokenizer2.
Import ListNotations.
Local Open Scope list_scope.

Local Notation text := (list ascii).
Local Notation length := List.length.
Local Notation txt := list_ascii_of_string.

(* ---- C38 -------------------------------------------------------------- *)

(** Tokenizing any file ends: within as many calls as characters (and one for END), each
    with at most as many iterations as characters, there is an END, an error or an access
    outside of the file.  At most one token per character is delivered. *)
Theorem tokenizer_terminates (file : text) :
  exists o, (forall calls fuel, length file < calls -> length file <= fuel ->
      tokenize calls fuel file [] 1 = Some o) /\
    forall l, o = Ok l -> length l <= length file.
Proof.
  destruct (tokenize_ends (S (length file)) (length file) file [] 1) as (o & E & P); [lia|lia|].
  exists o. split; [|exact P]. intros calls fuel LC LF. now rewrite tokenize_enough.
Qed.

(** every token except END consumes at least one character, and only END ends the file *)
Theorem token_consumes (fuel : nat) (rest buffer : text) (line : nat) t rest' value line' :
  length rest <= fuel ->
  next fuel rest buffer line = Some (Ok (t, rest', value, line')) ->
  (exists consumed, rest = consumed ++ rest' /\ (t <> END -> consumed <> [])) /\
  (t = END -> rest' = [] /\ forall fuel' b l, next fuel' rest' b l = Some (Ok (END, [], b, l))).
Proof.
  intros L E. destruct (next_ends fuel rest buffer line L) as (o & E2 & P).
  rewrite E in E2. injection E2 as <-.
  destruct (P t rest' value line' eq_refl) as ((w & W) & P1 & P2). split.
  - exists w. split; [easy|]. intros NE ->. specialize (P2 NE). subst rest. cbn in P2. lia.
  - intros T. split; [now apply P1|]. intros fuel' b l. now rewrite (P1 T).
Qed.

(** files without comments, links, quotes and environment variables that do not end by a blank
    are always tokenized *)
Definition harmless (file : text) : Prop :=
  (forall c, In c file -> ~ In c ["/"; "#"; "["; "$"; ascii_of_nat 34; ascii_of_nat 39]%char) /\
  ~ In (last file "000"%char) [" "%char; ascii_of_nat 9; ascii_of_nat 13].

Lemma harmless_suffix w rest : harmless (w ++ rest) -> harmless rest.
Proof.
  intros [H1 H2]. split.
  - intros c C. apply H1. apply in_or_app. now right.
  - destruct rest as [|c rest]; [intros [|[|[|[]]]]; easy|].
    destruct (exists_last (l := c :: rest) ltac:(easy)) as (r & z & E).
    rewrite E in *. rewrite app_assoc, last_last in H2. now rewrite last_last.
Qed.

Lemma harmless_skip rest : harmless rest -> rest <> [] -> exists r, skip_white rest = Ok r.
Proof.
  induction rest as [|c rest IH]; intros H N; [easy|]. cbn [skip_white].
  destruct (is_white c) eqn:W; [|now eexists].
  apply IH.
  - now apply (harmless_suffix [c]).
  - intros ->. destruct H as [_ H]. apply H. cbn [last].
    unfold is_white in W. apply has_in in W. exact W.
Qed.

Lemma harmless_loop n : forall rest b line, length rest <= n -> harmless rest -> ~ In "/"%char b ->
  exists r, loop rest b line = Some (Ok r).
Proof.
  induction n as [|n IH]; intros rest b line L H NB.
  - destruct rest as [|c r]; [|cbn in L; lia]. unfold loop. cbn. now eexists.
  - destruct rest as [|c r]; [unfold loop; cbn; now eexists|].
    rewrite loop_cons.
    assert (C : ~ In c ["/"; "#"; "["; "$"; ascii_of_nat 34; ascii_of_nat 39]%char)
      by (apply H; now left).
    assert (E : forall x, In x ["/"; "#"; "["; "$"; ascii_of_nat 34; ascii_of_nat 39]%char ->
      Ascii.eqb c x = false) by (intros x I; now apply eqb_false_in with (1 := C)).
    unfold next_step. cbv zeta.
    replace (is_hash c) with false by (symmetry; apply E; cbn; tauto).
    replace (negb (length b =? 0) && is_line_comment (last b "000"%char) c) with false.
    2: { symmetry. unfold is_line_comment. rewrite (E "/"%char) by (cbn; tauto).
         now rewrite !andb_false_r. }
    replace (negb (length b =? 0) && is_comment_start (last b "000"%char) c) with false.
    2: { symmetry. apply not_true_iff_false. intros T. apply andb_true_iff in T as [T1 T2].
         apply andb_true_iff in T2 as [T2 _]. apply Ascii.eqb_eq in T2. apply NB.
         rewrite <- T2. destruct b as [|x b]; [easy|].
         destruct (exists_last (l := x :: b) ltac:(easy)) as (b' & z & ->).
         rewrite last_last. apply in_or_app. right. now left. }
    destruct (negb (length b =? 0) && is_white c); [now eexists|].
    assert (SP : forall t l, exists r', match special_token t c r b l with
      | Continue rest b0 line0 => loop rest b0 line0
      | Return t0 rest b0 line0 => Some (Ok (t0, rest, b0, line0)) end = Some (Ok r'))
      by (intros t l; unfold special_token; destruct b; now eexists).
    destruct (is_delimiter c); [apply SP|]. destruct (is_assign c); [apply SP|].
    destruct (is_expression_end c); [apply SP|]. destruct (is_line_end c); [apply SP|].
    destruct (is_object_open c); [apply SP|]. destruct (is_object_close c); [apply SP|].
    unfold is_link_start, is_env, is_quote. rewrite !E by (cbn; tauto). cbn [andb orb].
    apply IH.
    + cbn [List.length] in L. lia.
    + now apply (harmless_suffix [c]).
    + intros I. apply in_app_or in I as [I|[->|[]]]; [easy|]. apply C. now left.
Qed.

Theorem harmless_file_tokenizes (file : text) : harmless file ->
  exists l, forall calls fuel, length file < calls -> length file <= fuel ->
    tokenize calls fuel file [] 1 = Some (Ok l).
Proof.
  intros H. generalize (@nil ascii) as b, 1 as line. remember (length file) as n eqn:En.
  assert (LN : length file <= n) by lia. clear En. revert file H LN.
  induction n as [n IH] using lt_wf_ind. intros file H LN b line.
  assert (NX : exists r, next (length file) file b line = Some (Ok r)).
  { rewrite next_eq by lia. destruct file as [|c file]; [now eexists|].
    destruct (harmless_skip (c :: file) H ltac:(easy)) as (r & E). rewrite E.
    apply skip_white_suffix in E as ((w & W) & _).
    apply harmless_loop with (n := length r); [lia| |easy].
    apply harmless_suffix with (w := w). now rewrite <- W. }
  destruct NX as ([[[t rest] v] l'] & NX).
  destruct (next_ends (length file) file b line (Nat.le_refl _)) as (o & E & P).
  rewrite NX in E. injection E as <-. destruct (P t rest v l' eq_refl) as ((w & W) & _ & P2).
  assert (ANY : forall fuel, length file <= fuel -> next fuel file b line = Some (Ok (t, rest, v, l'))).
  { intros fuel LF. rewrite next_eq by easy. rewrite next_eq in NX by lia. exact NX. }
  assert (D : t = END \/ t <> END) by (destruct t; auto; right; easy).
  destruct D as [->|NE].
  - exists []. intros calls fuel LC LF. destruct calls as [|calls]; [lia|].
    cbn [tokenize]. now rewrite ANY by lia.
  - specialize (P2 NE).
    destruct (IH (length rest)) with (file := rest) (b := v) (line := l') as (l & T); [lia| |lia|].
    + apply harmless_suffix with (w := w). now rewrite <- W.
    + exists ((t, v, l') :: l). intros calls fuel LC LF. destruct calls as [|calls]; [lia|].
      cbn [tokenize]. rewrite ANY by lia. rewrite T by lia. destruct t; easy.
Qed.

Example harmless_ex : harmless (txt "A { B  1, 2;} ;") /\
  tokenize 20 20 (txt "A B;") [] 1 = Some (Ok [(STRING, txt "A", 1); (STRING, txt "B", 1); (EXPRESSION_END, txt ";", 1)]).
Proof.
  split; [|vm_compute; reflexivity]. split.
  - intros c C. cbn in C. repeat destruct C as [<-|C]; try easy; intros D; cbn in D;
      repeat destruct D as [D|D]; easy.
  - vm_compute. intros D. repeat destruct D as [D|D]; easy.
Qed.

(** Nothing is left open in "a  " and in a file with a comment on its last line, but both are
    read behind their ends. *)
Theorem reads_outside_refuted :
  tokenize 10 10 (txt "a  ") [] 1 = Some UB /\
  tokenize 10 10 (txt "a;#b") [] 1 = Some UB.
Proof. vm_compute. split; reflexivity. Qed.

(** the reported line is not the number of line ends read (+ 1): a line end after a word counts twice *)
Theorem line_number_refuted :
  exists l, tokenize 10 10 ("a"%char :: newline :: txt ";") [] 1 = Some (Ok l) /\
    map snd l = [2; 3; 3].
Proof. eexists. split; vm_compute; reflexivity. Qed.

(* ---- C39 -------------------------------------------------------------- *)

(** the tokens without line ends, and their values *)
Definition values (l : list (token * text * nat)) : list (token * text) :=
  filter (fun tv => match fst tv with LINE_END => false | _ => true end) (map fst l).

Lemma ok_suffix a g : Forall filler_ok (a ++ g) -> Forall filler_ok g.
Proof. intros H. now apply Forall_app in H. Qed.

Lemma gap_len a g : length (gap_text g) <= length (gap_text (a ++ g)).
Proof. unfold gap_text. rewrite flat_map_app, app_length. lia. Qed.

Lemma filler_nonempty f : filler_text f <> [].
Proof. destruct f; easy. Qed.

(* one call of next in front of a gap *)
Lemma next_gap g r b line : Forall filler_ok g -> safe g r -> gap_text g ++ r <> [] ->
  (exists g1 g' line', g = g1 ++ g' /\ length (gap_text g') < length (gap_text g) /\
     ~ only_blanks g /\
     forall fuel, length (gap_text g ++ r) <= fuel ->
     next fuel (gap_text g ++ r) b line = Some (Ok (LINE_END, gap_text g' ++ r, [newline], line'))) \/
  (r <> [] /\ exists line', forall fuel, length (gap_text g ++ r) <= fuel ->
     next fuel (gap_text g ++ r) b line = loop r [] line').
Proof.
  intros F S N.
  destruct (gap_skip_white g r F S N) as (g1 & g' & EG & E & NB & N').
  assert (NX : forall fuel, length (gap_text g ++ r) <= fuel ->
    next fuel (gap_text g ++ r) b line = loop (gap_text g' ++ r) [] line).
  { intros fuel L. rewrite next_eq by easy. destruct (gap_text g ++ r); [easy|]. now rewrite E. }
  subst g.
  destruct (loop_gap (length g') g' r line (Nat.le_refl _) (ok_suffix _ _ F) (safe_suffix _ _ _ S) NB N')
    as [(a & g2 & l' & -> & NA & E2)|(NR & l' & E2)].
  - left. exists (g1 ++ a), g2, l'. split; [apply app_assoc|]. split.
    + unfold gap_text. rewrite !flat_map_app, !app_length.
      destruct a as [|f a]; [easy|]. cbn [flat_map]. rewrite app_length.
      pose proof (filler_nonempty f) as NF. destruct (filler_text f); [easy|]. cbn [List.length]. lia.
    + split; [|intros fuel L; rewrite NX by easy; exact E2].
      intros B. apply Forall_app in B as [_ B]. destruct a as [|f a]; [easy|].
      inversion B as [|? ? BF _]; subst. destruct f as [c| | | |]; try easy. now apply (NB c (a ++ g2)).
  - right. split; [easy|]. exists l'. intros fuel L. rewrite NX by easy. exact E2.
Qed.

Lemma layout_relax p l tail : layout_ok p l tail -> layout_ok None l tail.
Proof. destruct l as [|[g i] l]; [easy|]. cbn. tauto. Qed.

Lemma layout_gap a g i l tail : layout_ok None ((a ++ g, i) :: l) tail -> layout_ok None ((g, i) :: l) tail.
Proof. cbn. intros (F & H). split; [now apply ok_suffix in F|easy]. Qed.

Lemma layout_tail a tail : layout_ok None [] (a ++ tail) -> layout_ok None [] tail.
Proof.
  cbn. intros (F & S & L). split; [now apply ok_suffix in F|].
  apply Forall_app in S. split; [easy|].
  destruct tail as [|f tail]; [easy|].
  destruct (exists_last (l := f :: tail) ltac:(easy)) as (t & z & E).
  rewrite E in *. rewrite app_assoc, last_last in L. now rewrite last_last.
Qed.

Lemma delivered_tail tail tail' toks : delivered [] tail' toks -> delivered [] tail toks.
Proof.
  intros H. remember [] as l eqn:E. revert E.
  induction H; intros E; try discriminate; constructor. now apply IHdelivered.
Qed.

Lemma delivered_gap g1 g i l tail toks :
  delivered ((g, i) :: l) tail toks -> delivered ((g1 ++ g, i) :: l) tail toks.
Proof.
  intros H. remember ((g, i) :: l) as k eqn:E. revert E.
  induction H; intros E; try discriminate; injection E as -> -> ->; constructor; try easy.
  - intros B. apply H. now apply Forall_app in B.
  - now apply IHdelivered.
Qed.

(* what follows an item: a gap and a solid text, or the end *)
Lemma layout_next i l tail : layout_ok (Some i) l tail ->
  exists g r, layout_text l tail = gap_text g ++ r /\ Forall filler_ok g /\ (r = [] \/ solid r) /\
    (forall w, i = Word w -> ~ starts_with_star g /\ (g = [] -> ends_word r)) /\
    forall g1 g', g = g1 ++ g' ->
      exists l' tail', gap_text g' ++ r = layout_text l' tail' /\ layout_ok None l' tail' /\
        forall toks, delivered l' tail' toks -> delivered l tail toks.
Proof.
  destruct l as [|[g i2] l]; cbn [layout_ok].
  - intros (F & S & L). exists tail, []. unfold layout_text. cbn [flat_map app].
    split; [now rewrite app_nil_r|]. split; [easy|]. split; [now left|]. split.
    + intros w _. split; [|easy]. destruct tail as [|[]]; cbn; try easy. inversion S; easy.
    + intros g1 g' ->. exists [], g'. rewrite app_nil_r. split; [easy|]. split; [|apply delivered_tail].
      apply layout_tail with (a := g1). easy.
  - intros (F & OK & SEP & R).
    exists g, (item_text i2 ++ layout_text l tail). unfold layout_text. cbn [flat_map fst snd].
    split; [now rewrite <- !app_assoc|]. split; [easy|].
    split; [right; now apply item_solid|]. split.
    + intros w ->. destruct SEP as [SEP1 SEP2]. split; [easy|]. intros ->.
      destruct i2 as [w2|q w2 q'|w2|c]; try easy.
      * cbn. tauto.
      * cbn [item_text app ends_word]. cbn in OK. cbn. tauto.
    + intros g1 g' ->. exists ((g', i2) :: l), tail. cbn [flat_map fst snd map].
      split; [now rewrite <- !app_assoc|]. split; [|apply delivered_gap].
      apply layout_gap with (a := g1). cbn. easy.
Qed.

Lemma layout_tokens_from n : forall l tail b line, length (layout_text l tail) <= n ->
  layout_ok None l tail ->
  exists toks, (forall calls fuel, length (layout_text l tail) < calls ->
      length (layout_text l tail) <= fuel ->
      tokenize calls fuel (layout_text l tail) b line = Some (Ok toks)) /\
    delivered l tail (map fst toks).
Proof.
  induction n as [n IH] using lt_wf_ind. intros l tail b line LN OK.
  (* a line end: the rest is a shorter layout of the same items *)
  assert (LE : forall l' tail' line' v, layout_ok None l' tail' ->
    (forall toks, delivered l' tail' toks -> delivered l tail ((LINE_END, v) :: toks)) ->
    length (layout_text l' tail') < length (layout_text l tail) ->
    (forall fuel, length (layout_text l tail) <= fuel ->
       next fuel (layout_text l tail) b line = Some (Ok (LINE_END, layout_text l' tail', v, line'))) ->
    exists toks, (forall calls fuel, length (layout_text l tail) < calls ->
      length (layout_text l tail) <= fuel ->
      tokenize calls fuel (layout_text l tail) b line = Some (Ok toks)) /\
    delivered l tail (map fst toks)).
  { intros l' tail' line' v OK' EM SH NX.
    destruct (IH (length (layout_text l' tail'))) with (l := l') (tail := tail') (b := v) (line := line')
      as (toks & T & V); [lia|lia|easy|].
    exists ((LINE_END, v, line') :: toks). split.
    - intros calls fuel LC LF. destruct calls as [|calls]; [lia|]. cbn [tokenize].
      rewrite NX by easy. now rewrite T by lia.
    - cbn [map fst]. now apply EM. }
  destruct l as [|[g i] l].
  - assert (ET0 : gap_text tail = [] \/ gap_text tail <> []) by (destruct (gap_text tail); [now left|now right]).
    destruct ET0 as [ET|ET].
    + exists []. split; [|constructor]. intros calls fuel LC LF. unfold layout_text. cbn [flat_map app].
      rewrite ET. destruct calls as [|calls]; [lia|]. reflexivity.
    + pose proof OK as (F & S & L).
      destruct (next_gap tail [] b line F) as [(g1 & g' & l' & -> & SH & NBL & NX)|(NR & _)]; [| | |easy].
      * right. easy.
      * now rewrite app_nil_r.
      * apply (LE [] g' l' [newline]).
        -- now apply layout_tail with (a := g1).
        -- intros toks T. constructor. now apply delivered_tail with (tail' := g').
        -- unfold layout_text. cbn [flat_map app]. exact SH.
        -- intros fuel LF. unfold layout_text in *. cbn [flat_map app] in *.
           specialize (NX fuel). rewrite !app_nil_r in NX. now apply NX.
  - pose proof OK as (F & OKi & _ & R).
    set (r := item_text i ++ layout_text l tail).
    assert (ET : layout_text ((g, i) :: l) tail = gap_text g ++ r)
      by (unfold layout_text, r; cbn [flat_map fst snd]; now rewrite <- !app_assoc).
    assert (SR : solid r) by now apply item_solid.
    assert (NE : gap_text g ++ r <> []) by (destruct r; [easy|now destruct (gap_text g)]).
    destruct (next_gap g r b line F (or_introl SR) NE) as [(g1 & g' & l' & EG & SH & NBL & NX)|(NR & l' & NX)].
    + apply (LE ((g', i) :: l) tail l' [newline]).
      * apply layout_gap with (a := g1). now rewrite <- EG.
      * intros toks T. constructor; [easy|]. rewrite EG. now apply delivered_gap.
      * rewrite ET. unfold layout_text. cbn [flat_map fst snd]. rewrite <- !app_assoc.
        fold (layout_text l tail). fold r. rewrite !app_length. lia.
      * intros fuel LF. rewrite ET in *. rewrite NX by easy.
        unfold layout_text. cbn [flat_map fst snd]. now rewrite <- !app_assoc.
    + destruct (layout_next i l tail R) as (g2 & r2 & E2 & F2 & S2 & SEP & NEXT).
      destruct (loop_item i g2 r2 l' OKi F2 S2 SEP) as (g3 & g4 & l4 & -> & E4).
      destruct (NEXT g3 g4 eq_refl) as (l5 & tail5 & E5 & OK5 & EM5).
      assert (TK : forall fuel, length (layout_text ((g, i) :: l) tail) <= fuel ->
        next fuel (layout_text ((g, i) :: l) tail) b line
        = Some (Ok (fst (item_token i), layout_text l5 tail5, snd (item_token i), l4))).
      { intros fuel LF. rewrite ET in *. rewrite NX by easy. unfold r. rewrite E2, E4. now rewrite E5. }
      assert (SH : length (layout_text l5 tail5) < length (layout_text ((g, i) :: l) tail)).
      { destruct (next_ends _ _ b line (Nat.le_refl (length (layout_text ((g, i) :: l) tail)))) as (o & E6 & P).
        rewrite TK in E6 by lia. injection E6 as <-.
        destruct (P _ _ _ _ eq_refl) as (_ & _ & P2). apply P2.
        destruct i; try easy. cbn [item_token fst].
        repeat match goal with |- context [if ?x then _ else _] => destruct x end; easy. }
      destruct (IH (length (layout_text l5 tail5))) with (l := l5) (tail := tail5)
        (b := snd (item_token i)) (line := l4) as (toks & T & V); [lia|lia|easy|].
      exists ((fst (item_token i), snd (item_token i), l4) :: toks). split.
      * intros calls fuel LC LF. destruct calls as [|calls]; [lia|]. cbn [tokenize].
        rewrite TK by easy. rewrite T by lia.
        assert (NEND : fst (item_token i) <> END).
        { destruct i; try easy. cbn [item_token fst].
          repeat match goal with |- context [if ?x then _ else _] => destruct x end; easy. }
        destruct (fst (item_token i)); easy.
      * cbn [map fst]. rewrite <- surjective_pairing. constructor. now apply EM5.
Qed.

(** The tokens of a file are its items, whatever white space and comments stand between them. *)
Theorem layout_tokens (l : list (list filler * item)) (tail : list filler) :
  layout_ok None l tail ->
  exists toks, (forall calls fuel, length (layout_text l tail) < calls ->
      length (layout_text l tail) <= fuel ->
      tokenize calls fuel (layout_text l tail) [] 1 = Some (Ok toks)) /\
    values toks = map (fun gi => item_token (snd gi)) l.
Proof.
  intros OK. destruct (layout_tokens_from (length (layout_text l tail)) l tail [] 1) as (toks & T & D);
    [lia|easy|].
  exists toks. split; [exact T|]. unfold values. clear T. revert D.
  generalize (map fst toks) as k. induction 1 as [|g i l tail k D IH|g i l tail k v N D IH|tail k v D IH];
    cbn [filter fst map snd]; [easy| |apply IH|apply IH].
  - rewrite <- IH by (destruct OK as (_ & _ & _ & OK); now apply layout_relax in OK).
    assert (NL : fst (item_token i) <> LINE_END).
    { destruct i as [w|q w q'|w|c]; try easy. cbn [item_token fst].
      repeat match goal with |- context [if ?x then _ else _] => destruct x end; easy. }
    destruct (item_token i) as [[] v]; try reflexivity. now destruct NL.
  - easy.
  - easy.
Qed.

(** and a line end is reported only where more than blanks stands between the items *)
Theorem layout_line_ends (l : list (list filler * item)) (tail : list filler) :
  layout_ok None l tail ->
  exists toks, (forall calls fuel, length (layout_text l tail) < calls ->
      length (layout_text l tail) <= fuel ->
      tokenize calls fuel (layout_text l tail) [] 1 = Some (Ok toks)) /\
    delivered l tail (map fst toks).
Proof.
  intros OK. apply (layout_tokens_from (length (layout_text l tail))); [lia|easy].
Qed.

(** two files with the same items have the same tokens *)
Theorem layout_does_not_matter (l l' : list (list filler * item)) (tail tail' : list filler) calls fuel :
  layout_ok None l tail -> layout_ok None l' tail' -> map snd l = map snd l' ->
  length (layout_text l tail) < calls -> length (layout_text l tail) <= fuel ->
  length (layout_text l' tail') < calls -> length (layout_text l' tail') <= fuel ->
  exists toks toks', tokenize calls fuel (layout_text l tail) [] 1 = Some (Ok toks) /\
    tokenize calls fuel (layout_text l' tail') [] 1 = Some (Ok toks') /\
    values toks = values toks'.
Proof.
  intros OK OK' E L1 L2 L3 L4.
  destruct (layout_tokens l tail OK) as (toks & T & V).
  destruct (layout_tokens l' tail' OK') as (toks' & T' & V').
  exists toks, toks'. split; [now apply T|]. split; [now apply T'|].
  rewrite V, V'. rewrite <- !(map_map snd item_token). now rewrite E.
Qed.

Definition ex_layout : list (list filler * item) :=
  [([HashComment (txt " header"); Newline; Blank " "], Word (txt "INPUT"));
   ([Blank " "; StarComment (txt " a ** b ")], Sign "{");
   ([SlashComment (txt " c"); Blank " "], Word (txt "path"));
   ([Blank " "; Blank (ascii_of_nat 9)], Quoted (ascii_of_nat 34) (txt "my dir/a b") (ascii_of_nat 34));
   ([], Sign ";");
   ([Newline], Word (txt "dir/a.b"));
   ([], Link (txt "ARG0")); ([], Sign ";"); ([Newline], Sign "}")]%char.

Lemma no_star_check b : M_Parser.occurs b (txt "*/") = false ->
  forall x y, b <> x ++ "*"%char :: "/"%char :: y.
Proof.
  intros H x y ->. induction x as [|c x IH].
  - destruct y; discriminate H.
  - apply IH. cbn [app occurs] in H. now apply orb_false_iff in H.
Qed.

Lemma word_check w : w <> [] -> forallb (fun c => negb (has reserved c)) w = true ->
  Ascii.eqb (last w " "%char) "/" = false ->
  M_Parser.occurs w (txt "//") = false -> M_Parser.occurs w (txt "/*") = false -> is_word w.
Proof.
  intros N P L O1 O2. split; [easy|]. split.
  - apply Forall_forall. intros c C. rewrite forallb_forall in P.
    specialize (P c C). apply negb_true_iff, has_not_in in P. exact P.
  - split; [now apply Ascii.eqb_neq|]. clear -O1 O2.
    intros a b c ->. induction a as [|d a IH].
    + split; intros ->; [clear O2|clear O1].
      * destruct b; discriminate O1.
      * destruct b; discriminate O2.
    + cbn [app occurs] in O1, O2. apply orb_false_iff in O1 as [_ O1], O2 as [_ O2]. now apply IH.
Qed.

Example layout_ex : layout_ok None ex_layout [Blank " "%char; Newline].
Proof.
  unfold ex_layout. cbn [layout_ok].
  repeat match goal with
    | |- _ /\ _ => split
    | |- Forall _ _ => constructor
    | |- filler_ok (StarComment _) => apply no_star_check; reflexivity
    | |- item_ok (Word _) => apply word_check; try reflexivity; discriminate
    | |- ~ starts_with_star _ => intros []
    | |- ~ In _ _ => intros I; cbn in I; repeat destruct I as [I|I]; discriminate || easy
    | |- True => exact I
    | |- _ <> [] => discriminate
    end.
  all: cbn; try tauto; try easy.
  - split; intros I; repeat destruct I as [I|I]; easy.
  - apply (no_star_check (txt " a ** b ")). reflexivity.
  - split; intros I; repeat destruct I as [I|I]; easy.
  - split; [tauto|]. split; [tauto|]. intros c C I.
    repeat destruct C as [<-|C]; try easy; repeat destruct I as [I|I]; easy.
  - intros c C I. repeat destruct C as [<-|C]; try easy; repeat destruct I as [I|I]; easy.
Qed.

(** a multi-line comment right after a word joins it with the next word *)
Theorem comment_joins_words_refuted :
  tokenize 20 20 (txt "ab/*c*/ d;") [] 1 =
    Some (Ok [(STRING, txt "abd", 1); (EXPRESSION_END, txt ";", 1)]) /\
  tokenize 20 20 (txt "ab /*c*/ d;") [] 1 =
    Some (Ok [(STRING, txt "ab", 1); (STRING, txt "d", 1); (EXPRESSION_END, txt ";", 1)]).
Proof. vm_compute. split; reflexivity. Qed.

Print Assumptions tokenizer_terminates.
Print Assumptions token_consumes.
Print Assumptions harmless_file_tokenizes.
Print Assumptions reads_outside_refuted.
Print Assumptions line_number_refuted.
Print Assumptions layout_tokens.
Print Assumptions layout_line_ends.
Print Assumptions layout_does_not_matter.
Print Assumptions comment_joins_words_refuted.
