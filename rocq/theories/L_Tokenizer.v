(* Lemmas about the tokenizer: progress and termination. *)
Require Import List Ascii Bool Lia Arith.
Require Import Verif.Base Verif.M_Parser Verif.M_Tokenizer Verif.L_Parser.
Import ListNotations.

Local Notation text := (list ascii).

Lemma skip_white_suffix rest rest' : skip_white rest = Ok rest' ->
  (exists w, rest = w ++ rest') /\ rest' <> [].
Proof.
  induction rest as [|c r IH]; cbn [skip_white]; [easy|].
  destruct (is_white c).
  - intros H. destruct (IH H) as [[w ->] N]. split; [now exists (c :: w)|easy].
  - intros [= <-]. split; [now exists []|easy].
Qed.

Lemma skip_to_eol_suffix rest : exists w, rest = w ++ skip_to_eol rest.
Proof.
  induction rest as [|c r [w IH]]; cbn [skip_to_eol]; [now exists []|].
  destruct (_ || _); [now exists []|]. exists (c :: w). cbn. now f_equal.
Qed.

Lemma skip_eols_suffix rest : forall line, exists w, rest = w ++ fst (skip_eols rest line).
Proof.
  induction rest as [|c r IH]; intros line; cbn [skip_eols]; [now exists []|].
  destruct (_ || _); [|now exists []].
  destruct (IH (if is_line_end c then S line else line)) as [w E].
  exists (c :: w). cbn. now f_equal.
Qed.

Lemma skip_line_suffix rest line : exists w, rest = w ++ fst (skip_line rest line).
Proof.
  unfold skip_line. destruct (skip_to_eol_suffix rest) as [w E].
  destruct (skip_eols_suffix (skip_to_eol rest) line) as [v F].
  exists (w ++ v). rewrite <- app_assoc, <- F. exact E.
Qed.

(* a character that does not end a line is skipped *)
Lemma skip_line_progress c r line : c <> newline -> c <> carriage ->
  skip_line (c :: r) line = skip_line r line.
Proof.
  intros A B. unfold skip_line. cbn [skip_to_eol].
  now rewrite (proj2 (Ascii.eqb_neq _ _) A), (proj2 (Ascii.eqb_neq _ _) B).
Qed.

Lemma comment_body_suffix rest : forall last line rest' line',
  comment_body last rest line = Ok (rest', line') -> exists w, rest = w ++ rest' /\ w <> [].
Proof.
  induction rest as [|c r IH]; intros last line rest' line'; cbn [comment_body]; [easy|].
  destruct (is_comment_end last c).
  - intros [= <- _]. now exists [c].
  - intros H. destruct (IH _ _ _ _ H) as [w [-> N]]. now exists (c :: w).
Qed.

Lemma link_body_suffix rest : forall st b rest' b',
  link_body st rest b = Ok (rest', b') -> exists w, rest = w ++ rest' /\ w <> [].
Proof.
  induction rest as [|c r IH]; intros st b rest' b'; cbn [link_body]; [easy|].
  destruct (_ && _).
  - intros [= <- _]. now exists [c].
  - cbv zeta. intros H. destruct (IH _ _ _ _ H) as [w [-> N]]. now exists (c :: w).
Qed.

Lemma env_body_suffix rest : forall b rest' b',
  env_body rest b = Ok (rest', b') -> exists w, rest = w ++ rest' /\ w <> [].
Proof.
  induction rest as [|c r IH]; intros b rest' b'; cbn [env_body]; [easy|].
  destruct (is_object_close c).
  - intros [= <- _]. now exists [c].
  - destruct (is_line_end c); [easy|].
    intros H. destruct (IH _ _ _ H) as [w [-> N]]. now exists (c :: w).
Qed.

Lemma quote_body_suffix rest : forall b rest' b' q,
  quote_body rest b = Ok (rest', b', q) -> exists w, rest = w ++ rest' /\ w <> [].
Proof.
  induction rest as [|c r IH]; intros b rest' b' q; cbn [quote_body]; [easy|].
  destruct (is_quote c).
  - intros [= <- _ _]. now exists [c].
  - intros H. destruct (IH _ _ _ _ H) as [w [-> N]]. now exists (c :: w).
Qed.

Lemma removelast_shorter (b : text) : length (removelast b) <= length b.
Proof.
  induction b as [|c [|d b] IH]; cbn [removelast length] in *; lia.
Qed.

Lemma suffix_len (w r s : text) : s = w ++ r -> length s = length w + length r.
Proof. intros ->. apply app_length. Qed.

Lemma hash_char c : is_hash c = true -> c = "#"%char.
Proof. apply Ascii.eqb_eq. Qed.

Lemma after_line_comment_progress rest b line res :
  after_line_comment rest b line = Ok res ->
  match res with
  | Continue rest' b' _ => exists w, rest = w ++ rest'
  | Return t rest' b' _ => rest = rest' /\ t <> END
  end /\ (match res with Continue _ b' _ => b' = b | Return _ _ b' _ => b' = b end).
Proof.
  unfold after_line_comment. destruct b as [|x b].
  - destruct (skip_white rest) as [r| |] eqn:E; cbn [obind]; try easy.
    intros [= <-]. apply skip_white_suffix in E. split; [apply E|easy].
  - intros [= <-]. easy.
Qed.

(* an iteration consumes characters; the buffer holds consumed characters *)
Lemma next_step_progress c r b line res : next_step c r b line = Ok res ->
  match res with
  | Continue rest' b' _ =>
      (exists w, c :: r = w ++ rest' /\ w <> []) /\
      length rest' + length b' <= length (c :: r) + length b
  | Return t rest' b' _ =>
      (exists w, c :: r = w ++ rest') /\ t <> END /\
      length rest' < length (c :: r) + length b
  end.
Proof.
  unfold next_step. cbv zeta.
  destruct (is_hash c) eqn:C1.
  { apply hash_char in C1. subst c.
    rewrite skip_line_progress by easy.
    destruct (skip_line_suffix r line) as [w E].
    destruct (skip_line r line) as [rest line']. cbn [fst] in E.
    intros H. apply after_line_comment_progress in H as [H1 H2].
    destruct res as [rest' b' l|t rest' b' l]; subst b'.
    - destruct H1 as [v ->]. split.
      + exists ("#"%char :: w ++ v). split; [cbn; now rewrite <- app_assoc, <- E|easy].
      + apply suffix_len in E. rewrite app_length in E. cbn [length]. lia.
    - destruct H1 as [-> NE]. split; [|split; [easy|]].
      + exists ("#"%char :: w). cbn. now rewrite <- E.
      + apply suffix_len in E. cbn [length]. lia. }
  destruct (_ && is_line_comment _ _) eqn:C2.
  { apply andb_true_iff in C2 as [_ C2]. apply andb_true_iff in C2 as [_ C2].
    apply Ascii.eqb_eq in C2. subst c.
    rewrite skip_line_progress by easy.
    destruct (skip_line_suffix r line) as [w E].
    destruct (skip_line r line) as [rest line']. cbn [fst] in E.
    pose proof (removelast_shorter b) as RL.
    intros H. apply after_line_comment_progress in H as [H1 H2].
    destruct res as [rest' b' l|t rest' b' l]; subst b'.
    - destruct H1 as [v ->]. split.
      + exists ("/"%char :: w ++ v). split; [cbn; now rewrite <- app_assoc, <- E|easy].
      + apply suffix_len in E. rewrite app_length in E. cbn [length]. lia.
    - destruct H1 as [-> NE]. split; [|split; [easy|]].
      + exists ("/"%char :: w). cbn. now rewrite <- E.
      + apply suffix_len in E. cbn [length]. lia. }
  destruct (_ && is_comment_start _ _) eqn:C3.
  { pose proof (removelast_shorter b) as RL.
    unfold skip_comment. destruct r as [|x r]; [easy|].
    destruct (comment_body x r line) as [[rest line']| |] eqn:E; cbn [obind]; try easy.
    cbn [fst snd]. destruct (skip_white rest) as [rest'| |] eqn:W; cbn [obind]; try easy.
    intros [= <-]. apply comment_body_suffix in E as [w [E _]].
    apply skip_white_suffix in W as [[v V] _]. subst rest. split.
    - exists (c :: x :: w ++ v). split; [cbn; now rewrite <- app_assoc, <- E|easy].
    - apply suffix_len in E. rewrite app_length in E. cbn [length]. lia. }
  destruct (_ && is_white c) eqn:C4.
  { intros [= <-]. split; [now exists [c]|]. split; [easy|]. cbn [length]. lia. }
  assert (SP : forall t l, t <> END -> Ok (special_token t c r b l) = Ok res ->
    match res with
    | Continue rest' b' _ =>
        (exists w, c :: r = w ++ rest' /\ w <> []) /\
        length rest' + length b' <= length (c :: r) + length b
    | Return t rest' b' _ =>
        (exists w, c :: r = w ++ rest') /\ t <> END /\
        length rest' < length (c :: r) + length b
    end).
  { intros t l NE. unfold special_token. destruct b as [|x b]; intros [= <-].
    - split; [now exists [c]|]. split; [easy|]. cbn [length]. lia.
    - split; [now exists []|]. split; [easy|]. cbn [length]. lia. }
  destruct (is_delimiter c); [now apply SP|].
  destruct (is_assign c); [now apply SP|].
  destruct (is_expression_end c); [now apply SP|].
  destruct (is_line_end c); [now apply SP|].
  destruct (is_object_open c); [now apply SP|].
  destruct (is_object_close c); [now apply SP|].
  clear SP.
  destruct (is_link_start c) eqn:C5; cbn [andb].
  { destruct b as [|x b]; cbn [length Nat.eqb negb].
    - destruct (link_body 0 r []) as [[rest b']| |] eqn:E; cbn [obind]; try easy.
      intros [= <-]. cbn [fst snd]. apply link_body_suffix in E as [w [E _]].
      split; [exists (c :: w); cbn; now rewrite <- E|]. split; [easy|].
      apply suffix_len in E. cbn [length]. lia.
    - intros [= <-]. split; [now exists []|]. split; [easy|]. cbn [length]. lia. }
  destruct (is_env c) eqn:C6.
  { destruct r as [|d r]; [easy|]. destruct (is_object_open d); [|easy].
    destruct (env_body r b) as [[rest b']| |] eqn:E; cbn [obind]; try easy.
    intros [= <-]. cbn [fst snd]. apply env_body_suffix in E as [w [E _]].
    split; [exists (c :: d :: w); cbn; now rewrite <- E|]. split; [easy|].
    apply suffix_len in E. cbn [length]. lia. }
  destruct (is_quote c) eqn:C7.
  { destruct (quote_body r _) as [[[rest b'] q]| |] eqn:E; cbn [obind]; try easy.
    intros [= <-]. apply quote_body_suffix in E as [w [E _]].
    split; [exists (c :: w); cbn; now rewrite <- E|]. split; [easy|].
    apply suffix_len in E. cbn [length]. lia. }
  intros [= <-]. split; [exists [c]; easy|]. rewrite app_length. cbn [length]. lia.
Qed.

(* the main loop with enough fuel *)
Definition loop (rest b : text) (line : nat) := next_loop (length rest) rest b line.

Lemma next_loop_enough fuel : forall rest b line, length rest <= fuel ->
  next_loop fuel rest b line = loop rest b line.
Proof.
  unfold loop. induction fuel as [fuel IH] using lt_wf_ind. intros rest b line L.
  destruct rest as [|c r]; [now destruct fuel|]. cbn [length] in L.
  destruct fuel as [|fuel]; [lia|]. cbn [length next_loop].
  destruct (next_step c r b line) as [res| |] eqn:E; try easy.
  apply next_step_progress in E. destruct res as [rest' b' l|]; [|easy].
  destruct E as [[w [E N]] _]. apply suffix_len in E. cbn [length] in E.
  assert (length rest' <= length r) by (destruct w; [easy|cbn [length] in E; lia]).
  rewrite (IH fuel) by lia.
  now rewrite (IH (length r)) by lia.
Qed.

Lemma loop_cons c r b line :
  loop (c :: r) b line =
  match next_step c r b line with
  | Ok (Continue rest b line) => loop rest b line
  | Ok (Return t rest b line) => Some (Ok (t, rest, b, line))
  | Fail => Some Fail
  | UB => Some UB
  end.
Proof.
  unfold loop at 1. cbn [length next_loop].
  destruct (next_step c r b line) as [res| |] eqn:E; try easy.
  apply next_step_progress in E. destruct res as [rest' b' l|]; [|easy].
  destruct E as [[w [E N]] _]. apply suffix_len in E. cbn [length] in E.
  apply next_loop_enough. destruct w; [easy|cbn [length] in E; lia].
Qed.

Lemma loop_ends n : forall rest b line, length rest <= n ->
  exists o, loop rest b line = Some o /\
    forall t rest' b' l, o = Ok (t, rest', b', l) ->
      (exists w, rest = w ++ rest') /\
      (t = END -> rest' = [] /\ b' = []) /\
      (t <> END -> length rest' < length rest + length b).
Proof.
  induction n as [n IH] using lt_wf_ind. intros rest b line L.
  destruct rest as [|c r].
  - exists (Ok (match b with [] => END | _ => STRING end, [], b, line)). split; [reflexivity|].
    intros t rest' b' l [= <- <- <- _]. split; [now exists []|].
    destruct b; split; try easy. cbn. intros _. lia.
  - rewrite loop_cons. destruct (next_step c r b line) as [res| |] eqn:E.
    + apply next_step_progress in E. destruct res as [rest' b' l|t rest' b' l].
      * destruct E as [[w [E N]] M]. pose proof (suffix_len _ _ _ E) as SL.
        assert (length rest' < length (c :: r)) by (destruct w; [easy|cbn [length] in *; lia]).
        destruct (IH (length rest')) with (rest := rest') (b := b') (line := l) as [o [O P]]; [lia|lia|].
        exists o. split; [easy|]. intros t rest2 b2 l2 Eo.
        destruct (P t rest2 b2 l2 Eo) as [[v V] [P1 P2]]. split; [|split; [easy|]].
        -- exists (w ++ v). now rewrite <- app_assoc, <- V.
        -- intros NE. specialize (P2 NE). lia.
      * eexists. split; [reflexivity|]. intros t2 rest2 b2 l2 [= <- <- <- <-].
        destruct E as [W [NE M]]. split; [easy|]. split; [easy|]. intros _. exact M.
    + eexists. split; [reflexivity|easy].
    + eexists. split; [reflexivity|easy].
Qed.

Lemma next_eq fuel rest b line : length rest <= fuel ->
  next fuel rest b line =
  match rest with
  | [] => Some (Ok (END, [], b, line))
  | _ => match skip_white rest with
         | Ok rest => loop rest [] line
         | Fail => Some Fail
         | UB => Some UB
         end
  end.
Proof.
  intros L. unfold next. destruct rest as [|c r]; [easy|].
  destruct (skip_white (c :: r)) as [rest'| |] eqn:E; try easy.
  apply next_loop_enough. apply skip_white_suffix in E as [[w E] _].
  apply suffix_len in E. lia.
Qed.

Lemma next_ends fuel rest b line : length rest <= fuel ->
  exists o, next fuel rest b line = Some o /\
    forall t rest' b' l, o = Ok (t, rest', b', l) ->
      (exists w, rest = w ++ rest') /\
      (t = END -> rest' = []) /\ (t <> END -> length rest' < length rest).
Proof.
  intros L. rewrite next_eq by easy. destruct rest as [|c r].
  - eexists. split; [reflexivity|]. intros t rest' b' l [= <- <- <- <-].
    split; [now exists []|]. split; easy.
  - destruct (skip_white (c :: r)) as [rest'| |] eqn:E.
    + apply skip_white_suffix in E as [[w E] _].
      destruct (loop_ends (length rest') rest' [] line (Nat.le_refl _)) as [o [O P]].
      exists o. split; [easy|]. intros t rest2 b2 l2 Eo.
      destruct (P t rest2 b2 l2 Eo) as [[v V] [P1 P2]]. split; [|split].
      * exists (w ++ v). now rewrite <- app_assoc, <- V.
      * intros T. now destruct (P1 T).
      * intros T. specialize (P2 T). apply suffix_len in E. cbn [length] in P2. lia.
    + eexists. split; [reflexivity|easy].
    + eexists. split; [reflexivity|easy].
Qed.

Lemma tokenize_ends calls : forall fuel rest b line,
  length rest < calls -> length rest <= fuel ->
  exists o, tokenize calls fuel rest b line = Some o /\
    forall l, o = Ok l -> length l <= length rest.
Proof.
  induction calls as [|calls IH]; intros fuel rest b line LC LF; [lia|].
  cbn [tokenize]. destruct (next_ends fuel rest b line LF) as [o [-> P]].
  destruct o as [[[[t rest'] b'] l']| |]; try (eexists; split; [reflexivity|easy]).
  destruct (P t rest' b' l' eq_refl) as [_ [_ P2]].
  assert (D : t = END \/ t <> END) by (destruct t; auto; right; easy).
  destruct D as [->|NE].
  - eexists. split; [reflexivity|]. intros l [= <-]. cbn. lia.
  - specialize (P2 NE).
    destruct (IH fuel rest' b' l') as [o [E Q]]; [lia|lia|].
    rewrite E.
    assert (R : exists o', Some o' = match o with
      | Ok l => Some (Ok ((t, b', l') :: l))
      | o => Some o end /\ forall l, o' = Ok l -> length l <= length rest).
    { destruct o as [l| |].
      - eexists. split; [reflexivity|]. intros k [= <-]. cbn [length].
        specialize (Q l eq_refl). lia.
      - eexists. split; [reflexivity|easy].
      - eexists. split; [reflexivity|easy]. }
    destruct R as [o' [R1 R2]]. exists o'. split; [|exact R2].
    rewrite R1. destruct t, o; try easy.
Qed.

Lemma tokenize_enough calls : forall fuel rest b line,
  length rest < calls -> length rest <= fuel ->
  tokenize calls fuel rest b line = tokenize (S (length rest)) (length rest) rest b line.
Proof.
  induction calls as [calls IH] using lt_wf_ind. intros fuel rest b line LC LF.
  destruct calls as [|calls]; [lia|]. cbn [tokenize].
  assert (N : next fuel rest b line = next (length rest) rest b line)
    by (rewrite !next_eq by lia; reflexivity).
  rewrite N. destruct (next_ends (length rest) rest b line (Nat.le_refl _)) as [o [-> P]].
  destruct o as [[[[t rest'] b'] l']| |]; try easy.
  destruct (P t rest' b' l' eq_refl) as [_ [_ P2]].
  assert (D : t = END \/ t <> END) by (destruct t; auto; right; easy).
  destruct D as [->|NE]; [easy|]. specialize (P2 NE).
  rewrite (IH calls ltac:(lia) fuel rest' b' l') by lia.
  now rewrite (IH (length rest) ltac:(lia) (length rest) rest' b' l') by lia.
Qed.
