(* Lemmas about the tokenizer: white space, comments and items. *)
Require Import List Ascii Bool Lia Arith.
Require Import Verif.Base Verif.M_Parser Verif.M_Tokenizer Verif.S_Tokenizer Verif.L_Parser Verif.L_Tokenizer.
Import ListNotations.

Local Notation text := (list ascii).
Local Notation nl := (ascii_of_nat 10).

(* the first character is neither blank nor a line end *)
Definition solid (r : text) : Prop :=
  match r with [] => False | c :: _ => is_white c = false /\ c <> newline end.

Definition simple (f : filler) : Prop :=
  match f with Blank _ | Newline => True | _ => False end.

(* a gap that does not end in the white space skipped at the end of the file *)
Definition safe (g : list filler) (r : text) : Prop :=
  solid r \/ (r = [] /\ Forall simple g /\ last g Newline = Newline).

Lemma last_cons {A} (x : A) l d : l <> [] -> last (x :: l) d = last l d.
Proof. now destruct l. Qed.

Lemma safe_tail f g r : safe (f :: g) r -> safe g r.
Proof.
  intros [H|(H & S & L)]; [now left|]. right. split; [easy|].
  split; [now inversion S|]. destruct g as [|x g]; [easy|]. exact L.
Qed.

Lemma safe_suffix a g r : safe (a ++ g) r -> safe g r.
Proof. induction a; [easy|]. intros H. now apply IHa, safe_tail with (f := a). Qed.

Lemma white_blank c : In c [" "%char; ascii_of_nat 9; ascii_of_nat 13] -> is_white c = true.
Proof. intros H. unfold is_white. apply has_in. exact H. Qed.

Lemma gap_skip_white g r : Forall filler_ok g -> safe g r -> gap_text g ++ r <> [] ->
  exists g1 g', g = g1 ++ g' /\ skip_white (gap_text g ++ r) = Ok (gap_text g' ++ r) /\
    (forall c k, g' <> Blank c :: k) /\ gap_text g' ++ r <> [].
Proof.
  induction g as [|f g IH]; intros F S N.
  - exists [], []. cbn [gap_text flat_map app] in *. destruct S as [S|S]; [|easy].
    destruct r as [|c r]; [easy|]. destruct S as [W _]. cbn [skip_white]. rewrite W. repeat split; easy.
  - inversion F as [|? ? F1 F2]; subst.
    destruct f as [c| |b|b|b].
    + assert (N' : gap_text g ++ r <> []).
      { destruct S as [S|(-> & S & L)]; [destruct r; [easy|now destruct (gap_text g)]|].
        destruct g as [|x g]; [easy|]. intros E. apply app_eq_nil in E as [E _].
        cbn in E. apply app_eq_nil in E as [E _]. destruct x; easy. }
      destruct (IH F2 (safe_tail _ _ _ S) N') as (g1 & g' & -> & E & H1 & H2).
      exists (Blank c :: g1), g'. split; [easy|]. split; [|easy].
      cbn [gap_text flat_map filler_text app skip_white].
      rewrite (white_blank c F1). exact E.
    + exists [], (Newline :: g). repeat split; easy.
    + exists [], (HashComment b :: g). repeat split; easy.
    + exists [], (SlashComment b :: g). repeat split; easy.
    + exists [], (StarComment b :: g). repeat split; easy.
Qed.

Lemma skip_eols_gap g r : Forall filler_ok g -> (r = [] \/ solid r) -> forall line,
  exists g1 g' line', g = g1 ++ g' /\ skip_eols (gap_text g ++ r) line = (gap_text g' ++ r, line').
Proof.
  induction g as [|f g IH]; intros F S line.
  - exists [], [], line. split; [easy|]. cbn [gap_text flat_map app].
    destruct S as [->|S]; [easy|]. destruct r as [|c r]; [easy|]. destruct S as [W N].
    cbn [skip_eols]. rewrite (proj2 (Ascii.eqb_neq _ _) N).
    destruct (Ascii.eqb_spec c carriage) as [->|]; [easy|easy].
  - inversion F as [|? ? F1 F2]; subst.
    destruct f as [c| |b|b|b].
    + cbn [gap_text flat_map filler_text app skip_eols].
      destruct (Ascii.eqb c newline || Ascii.eqb c carriage).
      * destruct (IH F2 S (if is_line_end c then Datatypes.S line else line)) as (g1 & g' & l' & -> & E).
        exists (Blank c :: g1), g', l'. split; [easy|]. exact E.
      * exists [], (Blank c :: g), line. easy.
    + destruct (IH F2 S (Datatypes.S line)) as (g1 & g' & l' & -> & E).
      exists (Newline :: g1), g', l'. split; [easy|]. exact E.
    + exists [], (HashComment b :: g), line. easy.
    + exists [], (SlashComment b :: g), line. easy.
    + exists [], (StarComment b :: g), line. easy.
Qed.

Lemma skip_to_eol_body b X : ~ In newline b -> ~ In carriage b ->
  skip_to_eol (b ++ newline :: X) = newline :: X.
Proof.
  intros N C. induction b as [|c b IH]; [reflexivity|].
  cbn [app skip_to_eol].
  rewrite (proj2 (Ascii.eqb_neq c newline)) by (intros ->; apply N; now left).
  rewrite (proj2 (Ascii.eqb_neq c carriage)) by (intros ->; apply C; now left).
  cbn [orb]. apply IH; intros I; [apply N|apply C]; now right.
Qed.

Lemma skip_line_body b X line : ~ In newline b -> ~ In carriage b ->
  skip_line (b ++ newline :: X) line = skip_eols X (Datatypes.S line).
Proof. intros N C. unfold skip_line. now rewrite skip_to_eol_body. Qed.

Lemma skip_line_gap b g r line : ~ In newline b -> ~ In carriage b ->
  Forall filler_ok g -> (r = [] \/ solid r) ->
  exists g1 g' line', g = g1 ++ g' /\
    skip_line (b ++ newline :: gap_text g ++ r) line = (gap_text g' ++ r, line').
Proof.
  intros N C F S. rewrite skip_line_body by easy. now apply skip_eols_gap.
Qed.

Lemma comment_body_ok b : forall c X line,
  (forall x y, c :: b <> x ++ "*"%char :: "/"%char :: y) ->
  exists line', comment_body c (b ++ "*"%char :: "/"%char :: X) line = Ok (X, line').
Proof.
  induction b as [|d b IH]; intros c X line H.
  - cbn [app comment_body].
    replace (is_comment_end c "*") with false by (unfold is_comment_end; now rewrite andb_false_r).
    eexists. reflexivity.
  - cbn [app comment_body].
    replace (is_comment_end c d) with false.
    + apply IH. intros x y E. apply (H (c :: x) y). now rewrite E.
    + symmetry. unfold is_comment_end. apply not_true_iff_false. intros E.
      apply andb_true_iff in E as [E1 E2]. apply Ascii.eqb_eq in E1, E2. subst.
      now apply (H [] b).
Qed.

Lemma skip_comment_ok b X line : (forall x y, b <> x ++ "*"%char :: "/"%char :: y) ->
  exists line', skip_comment ("*"%char :: b ++ "*"%char :: "/"%char :: X) line = Ok (X, line').
Proof.
  intros H. destruct b as [|c b].
  - cbn. eexists. reflexivity.
  - cbn [skip_comment app]. now apply comment_body_ok.
Qed.

Lemma app_suffix {A} (a b c g g' : list A) : g = a ++ b -> b = c ++ g' -> g = (a ++ c) ++ g'.
Proof. intros -> ->. apply app_assoc. Qed.

(* the main loop over a gap, nothing in the buffer *)
Lemma loop_gap n : forall g r line, length g <= n ->
  Forall filler_ok g -> safe g r -> (forall c k, g <> Blank c :: k) -> gap_text g ++ r <> [] ->
  (exists g1 g' line', g = g1 ++ g' /\ g1 <> [] /\
     loop (gap_text g ++ r) [] line = Some (Ok (LINE_END, gap_text g' ++ r, [newline], line'))) \/
  (r <> [] /\ exists line', loop (gap_text g ++ r) [] line = loop r [] line').
Proof.
  induction n as [n IH] using lt_wf_ind. intros g r line L F S NB NE.
  destruct g as [|f g].
  { right. split; [exact NE|]. now exists line. }
  inversion F as [|? ? F1 F2]; subst. cbn [length] in L.
  (* after a line comment *)
  assert (CONT : solid r -> forall g2, (exists g1, g = g1 ++ g2) -> forall line2,
    exists g3 g', g = g3 ++ g' /\ skip_white (gap_text g2 ++ r) = Ok (gap_text g' ++ r) /\
     ((exists g1 g'' line', g' = g1 ++ g'' /\ g1 <> [] /\
       loop (gap_text g' ++ r) [] line2 = Some (Ok (LINE_END, gap_text g'' ++ r, [newline], line'))) \/
      (r <> [] /\ exists line', loop (gap_text g' ++ r) [] line2 = loop r [] line'))).
  { intros SR g2 [g1 ->] line2.
    assert (N2 : gap_text g2 ++ r <> []) by (destruct r; [easy|now destruct (gap_text g2)]).
    apply Forall_app in F2 as [F2a F2b].
    destruct (gap_skip_white g2 r F2b (or_introl SR) N2) as (g3 & g' & -> & E & H1 & H2).
    exists (g1 ++ g3), g'. split; [apply app_assoc|]. split; [easy|].
    apply Forall_app in F2b as [_ F2b].
    apply (IH (length g')); try easy; [|now left].
    rewrite !app_length in L. lia. }
  destruct f as [c| |b|b|b].
  - now destruct (NB c g).
  - left. exists [Newline], g. eexists. split; [easy|]. split; [easy|].
    cbn [gap_text flat_map filler_text app]. rewrite loop_cons. reflexivity.
  - assert (SR : solid r) by (destruct S as [S|(_ & S & _)]; [easy|inversion S; easy]).
    destruct F1 as [B1 B2].
    cbn [gap_text flat_map filler_text app]. fold (gap_text g).
    rewrite loop_cons. unfold next_step. change (is_hash "#") with true. cbv iota zeta.
    rewrite skip_line_progress by easy. rewrite <- !app_assoc. cbn [app].
    destruct (skip_line_gap b g r line B1 B2 F2 (or_intror SR)) as (g1 & g2 & l2 & EG & E).
    fold newline. rewrite E.
    destruct (CONT SR g2 (ex_intro _ g1 EG) l2) as (g3 & g' & -> & E2 & R).
    unfold after_line_comment. rewrite E2. cbn [obind].
    destruct R as [(a & a' & l' & -> & Na & E3)|(Nr & l' & E3)].
    + left. exists (HashComment b :: g3 ++ a), a', l'. split; [cbn; now rewrite app_assoc|]. easy.
    + right. split; [easy|]. now exists l'.
  - assert (SR : solid r) by (destruct S as [S|(_ & S & _)]; [easy|inversion S; easy]).
    destruct F1 as [B1 B2].
    cbn [gap_text flat_map filler_text app]. fold (gap_text g).
    rewrite loop_cons.
    change (next_step "/" ("/"%char :: ((b ++ [nl]) ++ gap_text g) ++ r) [] line)
      with (Ok (Continue ("/"%char :: ((b ++ [nl]) ++ gap_text g) ++ r) ["/"%char] line)).
    cbv iota beta. rewrite loop_cons. unfold next_step.
    change (is_hash "/") with false.
    change (negb (length ["/"%char] =? 0) && is_line_comment (last ["/"%char] "000"%char) "/") with true.
    cbv iota zeta.
    rewrite skip_line_progress by easy. rewrite <- !app_assoc. cbn [app].
    destruct (skip_line_gap b g r line B1 B2 F2 (or_intror SR)) as (g1 & g2 & l2 & EG & E).
    fold newline. rewrite E.
    destruct (CONT SR g2 (ex_intro _ g1 EG) l2) as (g3 & g' & -> & E2 & R).
    unfold after_line_comment. cbn [removelast]. rewrite E2. cbn [obind].
    destruct R as [(a & a' & l' & -> & Na & E3)|(Nr & l' & E3)].
    + left. exists (SlashComment b :: g3 ++ a), a', l'. split; [cbn; now rewrite app_assoc|]. easy.
    + right. split; [easy|]. now exists l'.
  - assert (SR : solid r) by (destruct S as [S|(_ & S & _)]; [easy|inversion S; easy]).
    cbn [gap_text flat_map filler_text app]. fold (gap_text g).
    rewrite loop_cons.
    set (X := ((b ++ ["*"%char; "/"%char]) ++ gap_text g) ++ r).
    change (next_step "/" ("*"%char :: X) [] line)
      with (Ok (Continue ("*"%char :: X) ["/"%char] line)).
    cbv iota beta. rewrite loop_cons. unfold next_step.
    change (is_hash "*") with false.
    change (negb (length ["/"%char] =? 0) && is_line_comment (last ["/"%char] "000"%char) "*") with false.
    change (negb (length ["/"%char] =? 0) && is_comment_start (last ["/"%char] "000"%char) "*") with true.
    cbv iota zeta. subst X. rewrite <- !app_assoc. cbn [app].
    destruct (skip_comment_ok b (gap_text g ++ r) line F1) as (l2 & E).
    rewrite E. cbn [obind fst snd].
    destruct (CONT SR g (ex_intro _ [] eq_refl) l2) as (g3 & g' & -> & E2 & R).
    rewrite E2. cbn [obind removelast].
    destruct R as [(a & a' & l' & -> & Na & E3)|(Nr & l' & E3)].
    + left. exists (StarComment b :: g3 ++ a), a', l'. split; [cbn; now rewrite app_assoc|]. easy.
    + right. split; [easy|]. now exists l'.
Qed.

(* ---- items ------------------------------------------------------------ *)

Lemma eqb_false_in c x l : ~ In c l -> In x l -> Ascii.eqb c x = false.
Proof. intros N I. apply Ascii.eqb_neq. intros ->. easy. Qed.

Lemma plain_step c r b line : plain c ->
  (b <> [] -> last b "000"%char = "/"%char -> c <> "/"%char /\ c <> "*"%char) ->
  next_step c r b line = Ok (Continue r (b ++ [c]) line).
Proof.
  intros P H. unfold next_step.
  assert (E : forall x, In x reserved -> Ascii.eqb c x = false)
    by (intros x I; now apply eqb_false_in with (l := reserved)).
  replace (is_hash c) with false by (symmetry; apply E; cbn; tauto).
  assert (H2 : negb (length b =? 0) = true -> last b "000"%char = "/"%char -> c <> "/"%char /\ c <> "*"%char).
  { intros N. apply H. now destruct b. }
  assert (LC : negb (length b =? 0) && is_line_comment (last b "000"%char) c = false).
  { apply not_true_iff_false. intros T. apply andb_true_iff in T as [T1 T2].
    apply andb_true_iff in T2 as [T2 T3]. apply Ascii.eqb_eq in T2, T3. now destruct (H2 T1 T2). }
  assert (SC : negb (length b =? 0) && is_comment_start (last b "000"%char) c = false).
  { apply not_true_iff_false. intros T. apply andb_true_iff in T as [T1 T2].
    apply andb_true_iff in T2 as [T2 T3]. apply Ascii.eqb_eq in T2, T3. now destruct (H2 T1 T2). }
  cbv zeta. rewrite LC, SC. cbv iota.
  replace (is_white c) with false.
  2: { symmetry. unfold is_white, has. cbn [existsb]. rewrite !E by (cbn; tauto). reflexivity. }
  rewrite andb_false_r. cbv iota.
  unfold is_delimiter, is_assign, is_expression_end, is_line_end, is_object_open, is_object_close,
    is_link_start, is_env, is_quote.
  rewrite !E by (cbn; tauto). reflexivity.
Qed.

(* a word is collected in the buffer *)
Lemma word_push w : forall X b line, Forall plain w ->
  (forall x y c, b ++ w = x ++ "/"%char :: c :: y -> c <> "/"%char /\ c <> "*"%char) ->
  loop (w ++ X) b line = loop X (b ++ w) line.
Proof.
  induction w as [|c w IH]; intros X b line P H.
  - cbn [app]. now rewrite app_nil_r.
  - inversion P as [|? ? P1 P2]; subst. cbn [app]. rewrite loop_cons.
    rewrite plain_step; [|easy|].
    + rewrite IH; [|easy|now rewrite <- app_assoc]. now rewrite <- app_assoc.
    + intros N E. destruct (exists_last N) as (b' & z & ->).
      rewrite last_last in E. subst z. apply (H b' w c). now rewrite <- app_assoc.
Qed.

Definition ends_word (r : text) : Prop :=
  match r with [] => True | c :: _ => In c ["["; ","; "="; ";"; "{"; "}"]%char end.

Lemma not_slash (w : text) c : last w " "%char <> "/"%char -> w <> [] ->
  negb (length w =? 0) && is_line_comment (last w "000"%char) c = false /\
  negb (length w =? 0) && is_comment_start (last w "000"%char) c = false.
Proof.
  intros H N. destruct (exists_last N) as (w' & z & ->). rewrite last_last in *.
  unfold is_line_comment, is_comment_start.
  rewrite (proj2 (Ascii.eqb_neq _ _) H). cbn. now rewrite !andb_false_r.
Qed.

(* a collected word is returned at the gap or the special character after it *)
Lemma word_end w g r line : is_word w -> Forall filler_ok g -> (r = [] \/ solid r) ->
  ~ starts_with_star g -> (g = [] -> ends_word r) ->
  exists g1 g' line', g = g1 ++ g' /\
    loop (gap_text g ++ r) w line = Some (Ok (STRING, gap_text g' ++ r, w, line')).
Proof.
  intros (NE & P & L & NC) F S NS ENDW.
  assert (FULL : negb (length w =? 0) = true) by (now destruct w).
  assert (SP : forall t c r l, special_token t c r w l = Return STRING (c :: r) w l) by (now destruct w).
  assert (NS2 : forall c, negb (length w =? 0) && is_line_comment (last w "000"%char) c = false /\
    negb (length w =? 0) && is_comment_start (last w "000"%char) c = false)
    by (intros c; apply not_slash; easy).
  destruct g as [|f g].
  - exists [], []. cbn [gap_text flat_map app]. specialize (ENDW eq_refl).
    destruct r as [|c r].
    + eexists. split; [easy|]. unfold loop. cbn [length next_loop]. destruct w; [easy|reflexivity].
    + exists (if is_line_end c then Datatypes.S line else line). split; [easy|].
      rewrite loop_cons. unfold next_step. cbv zeta.
      destruct (NS2 c) as [-> ->]. rewrite !SP, FULL. cbn [andb].
      destruct ENDW as [<-|[<-|[<-|[<-|[<-|[<-|[]]]]]]]; reflexivity.
  - inversion F as [|? ? F1 F2]; subst.
    destruct f as [c| |b|b|b].
    + exists [Blank c], g, line. split; [easy|].
      cbn [gap_text flat_map filler_text app]. rewrite loop_cons. unfold next_step. cbv zeta.
      destruct (NS2 c) as [-> ->]. rewrite FULL, (white_blank c F1). cbn [andb].
      replace (is_hash c) with false; [reflexivity|].
      symmetry. apply Ascii.eqb_neq. destruct F1 as [<-|[<-|[<-|[]]]]; easy.
    + exists [], (Newline :: g), (Datatypes.S line). split; [easy|].
      cbn [gap_text flat_map filler_text app]. rewrite loop_cons. unfold next_step. cbv zeta.
      destruct (NS2 nl) as [-> ->]. rewrite !SP, FULL. reflexivity.
    + destruct F1 as [B1 B2].
      cbn [gap_text flat_map filler_text app]. fold (gap_text g).
      destruct (skip_line_gap b g r line B1 B2 F2 S) as (g1 & g2 & l2 & -> & E).
      exists (HashComment b :: g1), g2, l2. split; [easy|].
      rewrite loop_cons. unfold next_step. change (is_hash "#") with true. cbv iota zeta.
      rewrite skip_line_progress by easy. rewrite <- !app_assoc. cbn [app].
      fold newline. rewrite E. unfold after_line_comment. destruct w; [easy|reflexivity].
    + destruct F1 as [B1 B2].
      cbn [gap_text flat_map filler_text app]. fold (gap_text g).
      destruct (skip_line_gap b g r line B1 B2 F2 S) as (g1 & g2 & l2 & -> & E).
      exists (SlashComment b :: g1), g2, l2. split; [easy|].
      rewrite loop_cons. rewrite plain_step.
      2: { intros I. cbn in I. repeat destruct I as [I|I]; easy. }
      2: { intros _ E2. exfalso. apply L. destruct (exists_last (l := w)) as (w' & z & ->); [now destruct w|].
           rewrite last_last in *. easy. }
      rewrite loop_cons. unfold next_step. change (is_hash "/") with false. cbv zeta.
      rewrite last_last.
      replace (negb (length (w ++ ["/"%char]) =? 0) && is_line_comment "/" "/") with true
        by (rewrite app_length, Nat.add_comm; reflexivity).
      cbv iota. rewrite skip_line_progress by easy. rewrite <- !app_assoc. cbn [app].
      fold newline. rewrite E. rewrite removelast_last.
      unfold after_line_comment. destruct w; [easy|reflexivity].
    + now destruct NS.
Qed.

Lemma quote_body_ok w : forall q X b, is_quote q = true ->
  (forall c, In c w -> is_quote c = false) ->
  quote_body (w ++ q :: X) b = Ok (X, b ++ w, q).
Proof.
  induction w as [|c w IH]; intros q X b Q H; cbn [app quote_body].
  - rewrite Q. now rewrite app_nil_r.
  - rewrite (H c) by now left. rewrite IH; [now rewrite <- app_assoc|easy|].
    intros d D. apply H. now right.
Qed.

Lemma link_body_ok w : forall X b, (forall c, In c w -> ~ In c ["["; "]"]%char) ->
  link_body 0 (w ++ "]"%char :: X) b = Ok (X, b ++ w).
Proof.
  induction w as [|c w IH]; intros X b H; cbn [app link_body].
  - cbn. now rewrite app_nil_r.
  - assert (C : ~ In c ["["; "]"]%char) by (apply H; now left).
    replace (is_link_end c) with false
      by (symmetry; apply (eqb_false_in c "]" _ C); cbn; tauto).
    replace (is_link_start c) with false
      by (symmetry; apply (eqb_false_in c "[" _ C); cbn; tauto).
    cbn [andb]. cbv zeta iota. rewrite IH; [now rewrite <- app_assoc|].
    intros d D. apply H. now right.
Qed.

Lemma quote_char q : In q [ascii_of_nat 39; ascii_of_nat 34] -> is_quote q = true.
Proof. intros [<-|[<-|[]]]; reflexivity. Qed.

Lemma not_quote c : ~ In c [ascii_of_nat 39; ascii_of_nat 34] -> is_quote c = false.
Proof.
  intros N. unfold is_quote.
  rewrite (eqb_false_in c (ascii_of_nat 34) _ N) by (cbn; tauto).
  rewrite (eqb_false_in c (ascii_of_nat 39) _ N) by (cbn; tauto). reflexivity.
Qed.

(* an item from its first character on *)
Lemma loop_item i g r line : item_ok i -> Forall filler_ok g -> (r = [] \/ solid r) ->
  (forall w, i = Word w -> ~ starts_with_star g /\ (g = [] -> ends_word r)) ->
  exists g1 g' line', g = g1 ++ g' /\
    loop (item_text i ++ gap_text g ++ r) [] line
    = Some (Ok (fst (item_token i), gap_text g' ++ r, snd (item_token i), line')).
Proof.
  intros OK F S SEP. destruct i as [w|q w q'|w|c].
  - destruct (SEP w eq_refl) as [SEP1 SEP2]. cbn [item_text item_token fst snd].
    pose proof OK as (N & P & L & NC).
    rewrite word_push; [|easy|exact NC]. cbn [app]. now apply word_end.
  - exists [], g, line. split; [easy|]. destruct OK as (Q & Q' & W).
    cbn [item_text item_token fst snd app].
    rewrite <- app_assoc. cbn [app]. rewrite loop_cons.
    assert (E : next_step q (w ++ q' :: gap_text g ++ r) [] line =
      Ok (Return STRING (gap_text g ++ r) w line)).
    { assert (QB : quote_body (w ++ q' :: gap_text g ++ r) [] = Ok (gap_text g ++ r, w, q')).
      { rewrite quote_body_ok; [easy|now apply quote_char|].
        intros c C. apply not_quote. now apply W. }
      destruct Q as [<-|[<-|[]]]; unfold next_step; cbn -[quote_body]; now rewrite QB. }
    now rewrite E.
  - exists [], g, line. split; [easy|].
    cbn [item_text item_token fst snd app].
    rewrite <- app_assoc. cbn [app]. rewrite loop_cons.
    unfold next_step. cbn -[link_body]. rewrite link_body_ok by exact OK. reflexivity.
  - exists [], g, line. split; [easy|]. cbn [item_text item_token fst snd app].
    rewrite loop_cons. cbn in OK.
    destruct OK as [<-|[<-|[<-|[<-|[<-|[]]]]]]; reflexivity.
Qed.

Lemma item_solid i : item_ok i -> forall X, solid (item_text i ++ X).
Proof.
  intros OK X. destruct i as [w|q w q'|w|c]; cbn [item_text app].
  - destruct OK as (N & P & _). destruct w as [|c w]; [easy|]. inversion P as [|? ? P1 P2]; subst.
    cbn [app solid]. split.
    + unfold is_white, has. cbn [existsb].
      rewrite !(eqb_false_in c _ _ P1) by (cbn; tauto). reflexivity.
    + intros ->. apply P1. cbn. tauto.
  - destruct OK as (Q & _). cbn [solid]. destruct Q as [<-|[<-|[]]]; split; easy.
  - cbn. easy.
  - cbn in OK. cbn [solid]. destruct OK as [<-|[<-|[<-|[<-|[<-|[]]]]]]; split; easy.
Qed.
