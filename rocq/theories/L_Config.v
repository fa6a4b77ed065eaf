(* Lemmas about printing and reading of configurations. *)
Require Import List ZArith Ascii Bool Lia.
Require Import Verif.Base Verif.M_Parser Verif.M_Tokenizer.
Require Import Verif.S_Tokenizer Verif.S_Holder Verif.S_Config.
Require Import Verif.L_Tokenizer2 Verif.P_Parser Verif.P_Holder Verif.P_Tokenizer.
Require Import Verif.M_Config.
Import ListNotations.
Local Open Scope list_scope.

Local Notation text := (list ascii).
Local Notation layout := (list (list filler * item)).

Definition flat (l : layout) : text :=
  flat_map (fun gi => gap_text (fst gi) ++ item_text (snd gi)) l.

Lemma layout_text_flat l tail : layout_text l tail = flat l ++ gap_text tail.
Proof. reflexivity. Qed.

Lemma flat_app a b : flat (a ++ b) = flat a ++ flat b.
Proof. unfold flat. apply flat_map_app. Qed.

Lemma gap_text_app a b : gap_text (a ++ b) = gap_text a ++ gap_text b.
Proof. unfold gap_text. apply flat_map_app. Qed.

Definition blanks (n : nat) : list filler := repeat (Blank " "%char) n.

Lemma gap_blanks n : gap_text (blanks n) = print_indent n.
Proof. unfold gap_text, blanks, print_indent. induction n; [easy|]. cbn [repeat flat_map]. now rewrite IHn. Qed.

Lemma blanks_ok n : Forall filler_ok (blanks n).
Proof. induction n; constructor; [cbn; tauto|easy]. Qed.

Lemma blanks_only n : only_blanks (blanks n).
Proof. induction n; constructor; easy. Qed.

Definition newlines (n : nat) : list filler := repeat Newline n.

Lemma newlines_ok n : Forall filler_ok (newlines n).
Proof. induction n; constructor; easy. Qed.

Lemma gap_newlines n : gap_text (newlines n) = repeat newline n.
Proof. induction n; [easy|]. cbn [newlines repeat gap_text flat_map]. now rewrite <- IHn. Qed.

Definition nls (b : bool) : list filler := if b then [Newline] else [].
Lemma gap_nls (b : bool) : (if b then [newline] else []) = gap_text (nls b).
Proof. now destruct b. Qed.
Lemma nls_ok b : Forall filler_ok (nls b).
Proof. destruct b; repeat constructor. Qed.

(* the list is empty or ends by a special character *)
Definition ends_sign (l : layout) : Prop := l = [] \/ exists k g c, l = k ++ [(g, Sign c)].

Lemma layout_app l2 tail : layout_ok None l2 tail -> forall l1, ends_sign l1 ->
  forall p, (l1 = [] -> p = None) -> layout_ok p l1 [] -> layout_ok p (l1 ++ l2) tail.
Proof.
  intros OK2. induction l1 as [|[g i] l1 IH]; intros E p P OK1.
  - now rewrite P.
  - cbn [app layout_ok] in *. destruct OK1 as (F & OKi & S & R). split; [easy|]. split; [easy|].
    split; [easy|]. destruct l1 as [|x l1].
    + destruct E as [E|(k & g' & c & E)]; [easy|].
      destruct k as [|y k]; [|now destruct k]. injection E as -> ->.
      cbn [app]. destruct l2 as [|[g2 i2] l2]; cbn [layout_ok] in *; [easy|]. cbn [separated]. tauto.
    + apply IH; [|easy|easy]. destruct E as [E|(k & g' & c & E)]; [easy|].
      right. destruct k as [|y k]; [easy|]. injection E as _ E. now exists k, g', c.
Qed.

Lemma ends_sign_app l1 l2 : ends_sign l1 -> ends_sign l2 -> ends_sign (l1 ++ l2).
Proof.
  intros E1 [->|(k & g & c & ->)]; [now rewrite app_nil_r|].
  right. exists (l1 ++ k), g, c. apply app_assoc.
Qed.

(* a special character without a gap may follow everything *)
Lemma layout_snoc l c : In c [","; "="; ";"; "{"; "}"]%char -> forall p,
  layout_ok p l [] -> layout_ok p (l ++ [([], Sign c)]) [].
Proof.
  intros C. induction l as [|[g i] l IH]; intros p OK.
  - cbn [app layout_ok]. split; [constructor|]. split; [exact C|]. split.
    + destruct p as [[]|]; cbn; tauto.
    + repeat constructor.
  - cbn [app layout_ok] in *. destruct OK as (F & OKi & S & R). auto 6.
Qed.

(* blanks in front *)
Definition push_gap (b : list filler) (l : layout) : layout :=
  match l with [] => [] | (g, i) :: l => (b ++ g, i) :: l end.

Lemma flat_push b l : l <> [] -> flat (push_gap b l) = gap_text b ++ flat l.
Proof.
  destruct l as [|[g i] l]; [easy|]. intros _. unfold flat. cbn [push_gap flat_map fst snd].
  now rewrite gap_text_app, <- !app_assoc.
Qed.

Lemma push_ok n w l : layout_ok None l [] ->
  layout_ok (Some (Word w)) (push_gap (blanks (S n)) l) [].
Proof.
  destruct l as [|[g i] l]; [easy|]. cbn [push_gap layout_ok]. intros (F & OKi & _ & R).
  split; [apply Forall_app; split; [apply blanks_ok|easy]|]. split; [easy|]. split; [|easy].
  split; [now intros []|]. destruct i; easy.
Qed.

Lemma join_joined ws : join [blank] ws = joined ws.
Proof.
  destruct ws as [|w ws]; [easy|]. cbn [join joined]. revert w.
  induction ws as [|v ws IH]; intros w; cbn [fold_left flat_map].
  - now rewrite app_nil_r.
  - rewrite IH. unfold join_step. now rewrite <- !app_assoc.
Qed.

Section Run.
Context {K X : Type}.
Variable get : K -> X -> text.
Variable set : K -> X -> text -> option X.
Variable toupper : ascii -> ascii.
Variable tolower : ascii -> Z.
Variable getenv : text -> text.
Variable link : list text -> text -> outcome (list text).
Local Notation param := (param K X).
Local Notation state := (@state K X).
Local Notation process := (process set tolower getenv link).

(* processing items; line ends may come in between *)
Inductive items_run : state -> layout -> state -> Prop :=
| run_nil s : items_run s [] s
| run_cons s g i l s1 s2 : (only_blanks g \/ length (values s) <= 1) ->
    process s (item_token i) = Ok s1 -> items_run s1 l s2 -> items_run s ((g, i) :: l) s2.

Lemma run_app s l1 s1 l2 s2 : items_run s l1 s1 -> items_run s1 l2 s2 -> items_run s (l1 ++ l2) s2.
Proof. induction 1; [easy|]. intros R. cbn [app]. econstructor; eauto. Qed.

Lemma line_end_skip (s : state) v : length (values s) <= 1 -> process s (LINE_END, v) = Ok s.
Proof.
  intros L. unfold process. cbn [M_Config.process fst snd].
  destruct (Nat.ltb_spec 1 (length (values s))); [lia|]. now destruct s.
Qed.

Lemma run_delivered l tail toks : delivered l tail toks -> forall s s2,
  items_run s l s2 -> length (values s2) <= 1 -> foldM process toks s = Ok s2.
Proof.
  induction 1 as [tail|g i l tail toks D IH|g i l tail toks v N D IH|tail toks v D IH];
    intros s s2 R L.
  - inversion R; subst. reflexivity.
  - inversion R as [|? ? ? ? s1 ? B P R']; subst. cbn [foldM]. rewrite P. cbn [obind]. now apply IH.
  - cbn [foldM]. inversion R as [|? ? ? ? s1 ? B P R']; subst. destruct B as [B|B]; [easy|].
    rewrite line_end_skip by easy. cbn [obind]. now apply IH.
  - inversion R; subst. cbn [foldM]. rewrite line_end_skip by easy. cbn [obind]. now apply IH.
Qed.

(* the items of a value *)
Lemma run_value l : Forall value_item l -> forall (s : state), unfinishedLine s = false ->
  items_run s l (State (top s) (parents s)
    (values s ++ flat_map value_words (map snd l)) (unfinishedLine s)).
Proof.
  induction 1 as [|[g i] l [B V] F IH]; intros s U.
  - cbn [map flat_map]. rewrite app_nil_r. destruct s. constructor.
  - cbn [fst snd] in B, V. cbn [map flat_map snd].
    econstructor; [now left| |].
    2:{ rewrite app_assoc. apply (IH (State (top s) (parents s) (values s ++ value_words i) (unfinishedLine s))).
        exact U. }
    destruct i as [w|q w q'|w|c]; cbn [item_token value_words].
    + unfold M_Config.process. cbn [fst snd]. now rewrite U.
    + unfold M_Config.process. cbn [fst snd]. now rewrite U.
    + easy.
    + destruct V as [->| ->]; cbn [Ascii.eqb]; unfold M_Config.process; cbn [fst snd]; [reflexivity|].
      cbn. rewrite app_nil_r. now destruct s.
Qed.

Lemma run_push b l s s2 : only_blanks b \/ length (values s) <= 1 ->
  (match l with (g, _) :: _ => only_blanks g | [] => True end) ->
  items_run s l s2 -> items_run s (push_gap b l) s2.
Proof.
  intros B G R. destruct R as [|s g i l s1 s2 B' P R]; [constructor|]. cbn [push_gap].
  econstructor; [|eassumption|eassumption]. destruct B as [B|B]; [|now right].
  left. apply Forall_app. split; easy.
Qed.

(* looking up *)
Lemma find_param_none name (l : list param) i :
  (forall p, In p l -> ~ same_text tolower (pname p) name) ->
  find_param tolower name l i = Ok None.
Proof.
  revert i. induction l as [|p l IH]; intros i H; [easy|]. cbn [find_param].
  destruct (ci_eq_dec tolower name (pname p)) as [[-> E]|[-> E]]; cbn [obind].
  - destruct (H p); [now left|]. now apply same_sym.
  - apply IH. intros q Q. apply H. now right.
Qed.

Lemma find_param_some name (l : list param) p r i :
  (forall p, In p l -> ~ same_text tolower (pname p) name) ->
  same_text tolower (pname p) name ->
  find_param tolower name (l ++ p :: r) i = Ok (Some (i + length l)).
Proof.
  revert i. induction l as [|q l IH]; intros i H E; cbn [app find_param length].
  - destruct (ci_eq_dec tolower name (pname p)) as [[-> _]|[_ N]]; cbn [obind].
    + now rewrite Nat.add_0_r.
    + destruct N. now apply same_sym.
  - destruct (ci_eq_dec tolower name (pname q)) as [[-> S]|[-> N]]; cbn [obind].
    + destruct (H q); [now left|]. now apply same_sym.
    + rewrite IH; [do 2 f_equal; lia| |easy]. intros x I. apply H. now right.
Qed.

Lemma upd_mid {A} (a : list A) x y b : upd (a ++ x :: b) (length a) y = a ++ y :: b.
Proof. induction a as [|z a IH]; [easy|]. cbn [app length upd]. now rewrite IH. Qed.

Lemma rd_mid {A} (a : list A) x b : rd (a ++ x :: b) (length a) = Ok x.
Proof. unfold rd. induction a; [easy|]. exact IHa. Qed.

(* a value *)
Lemma run_assign NAME (o o1 : param) ps i (n : text) raw a k x0 x vs g vl :
  Forall value_item vl -> flat_map value_words (map snd vl) = vs ->
  set k x0 (joined vs) = Some x ->
  get_parameter tolower NAME o = Ok (Some i, o1) -> parameter_at o1 i = Ok (PValue n raw a k x0) ->
  forall m, items_run (State o ps [] false)
    ((g, Word NAME) :: push_gap (blanks m) (vl ++ [([], Sign ";"%char)]))
    (State (replace_parameter o1 i (PValue n raw a k x)) ps [] false).
Proof.
  intros V E S G P m. econstructor; [right; cbn; lia|reflexivity|]. cbn [app top parents values unfinishedLine].
  apply run_push; [left; apply blanks_only| |].
  { destruct vl as [|[h i'] vl]; [constructor|]. inversion V as [|? ? [B _] _]; subst. exact B. }
  eapply run_app; [now apply run_value|]. cbn [top parents values unfinishedLine].
  rewrite E. cbn [app]. econstructor; [left; constructor| |constructor].
  change (process _ _) with (expression_end set tolower (State o ps (NAME :: vs) false)).
  unfold expression_end. cbn [values].
  assert (A : forall s : state, top s = o -> parents s = ps -> assign set tolower s NAME (joined vs) =
    Ok (State (replace_parameter o1 i (PValue n raw a k x)) ps [] false)).
  { intros s T PP. unfold assign. rewrite T, G. cbn [obind fst snd]. rewrite P. cbn [obind].
    now rewrite S, PP. }
  destruct vs as [|v vs]; [now apply A|]. rewrite join_joined. now apply A.
Qed.

(* an object *)
Lemma run_object NAME (o o1 c0 c' : param) ps i g its g2 :
  get_parameter tolower NAME o = Ok (Some i, o1) -> parameter_at o1 i = Ok c0 -> is_object c0 = true ->
  items_run (State c0 ((o1, i) :: ps) [] false) its (State c' ((o1, i) :: ps) [] false) ->
  items_run (State o ps [] false)
    ((g, Word NAME) :: ([Blank " "%char], Sign "{"%char) :: its ++ [(g2, Sign "}"%char)])
    (State (replace_parameter o1 i c') ps [] false).
Proof.
  intros G P O R. econstructor; [right; cbn; lia|reflexivity|]. cbn [app top parents values unfinishedLine].
  econstructor; [left; repeat constructor| |].
  - change (process _ _) with (object_open tolower (State o ps [NAME] false)).
    unfold object_open. cbn [values top parents unfinishedLine]. rewrite G. cbn [obind fst snd]. rewrite P.
    cbn [obind]. now rewrite O.
  - eapply run_app; [exact R|]. econstructor; [right; cbn; lia| |constructor]. reflexivity.
Qed.

End Run.
