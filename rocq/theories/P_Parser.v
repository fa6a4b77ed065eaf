(** * C35, C36, C37, C84: splitting, stripping, comparing and printing text (parser.h, parser.cpp) *)
From Coq Require Import List NArith ZArith Ascii String Bool Lia.
From Verif Require Import Base S_Order M_Parser S_Parser L_Parser.
Import ListNotations.
Local Open Scope list_scope.

Local Notation text := (list ascii).
Local Notation length := List.length.
Local Notation concat := (@List.concat ascii).
Local Notation txt := list_ascii_of_string.

(* ---- C35 -------------------------------------------------------------- *)

(** split returns the fields of the line, and nothing else is its list of fields *)
Theorem split_gives_fields (sep line : text) (skip : bool) (ps : list text) :
  split line sep skip = ps <-> fields sep skip line ps.
Proof.
  split.
  - intros <-. destruct (fields_ex sep skip line) as [qs H].
    now rewrite (split_of_fields _ _ _ _ H).
  - apply split_of_fields.
Qed.

Theorem split_pieces_free (sep line : text) (skip : bool) p :
  In p (split line sep skip) -> free_of sep p.
Proof.
  assert (H : fields sep skip line (split line sep skip)) by now apply split_gives_fields.
  induction H as [q F|q g F G|q g c rest ps F G NS H IH].
  - now intros [<-|[]].
  - now intros [<-|[]].
  - intros [<-|I]; [easy|]. now apply IH.
Qed.

(** the pieces joined by the separator are the line; only one separator at the very end is lost *)
Theorem join_of_split (c : ascii) (line : text) :
  let j := join [c] (split line [c] false) in
  ((forall l, line <> l ++ [c]) -> j = line) /\
  (forall l, line = l ++ [c] -> j = l).
Proof.
  intros j. subst j.
  assert (H : fields [c] false line (split line [c] false)) by now apply split_gives_fields.
  set (ps := split line [c] false) in *. clearbody ps.
  induction H as [p F|p g F G|p g d rest ps F G NS H IH].
  - split; [easy|]. intros l ->. destruct (F c); [|now left].
    apply in_or_app. right. now left.
  - destruct G as [M [N L]]. specialize (L eq_refl).
    destruct g as [|x [|y g]]; try easy.
    destruct (M x ltac:(now left)) as [->|[]].
    split.
    + intros A. now destruct (A p).
    + intros l E. apply app_inj_tail in E. cbn. now destruct E.
  - destruct G as [M [N L]]. specialize (L eq_refl).
    destruct g as [|x [|y g]]; try easy.
    destruct (M x ltac:(now left)) as [->|[]]. cbn [app] in *.
    pose proof (fields_nonempty _ _ _ _ H) as NE. destruct ps as [|q ps]; [easy|].
    rewrite join_cons. cbn [app]. destruct IH as [IH1 IH2]. split.
    + intros A. rewrite IH1; [easy|].
      intros l E. apply (A (p ++ x :: l)). rewrite E, <- app_assoc. reflexivity.
    + intros l E.
      destruct (exists_last (l := d :: rest) ltac:(easy)) as [l' [y Ey]].
      rewrite Ey in E.
      change (p ++ x :: l' ++ [y]) with (p ++ (x :: l') ++ [y]) in E.
      rewrite app_assoc in E. apply app_inj_tail in E as [<- ->].
      rewrite (IH2 l' Ey). reflexivity.
Qed.

(** splitting a joined list gives the list back, unless its last piece is empty *)
Theorem split_of_join (c : ascii) (ps : list text) (q : text) :
  Forall (free_of [c]) (ps ++ [q]) -> (ps = [] \/ q <> []) ->
  split (join [c] (ps ++ [q])) [c] false = ps ++ [q].
Proof.
  intros F NE. apply split_gives_fields.
  induction ps as [|p ps IH].
  - cbn. apply fields_last. now inversion F.
  - destruct NE as [NE|NE]; [easy|].
    inversion F as [|? ? Fp F']; subst.
    specialize (IH F' (or_intror NE)).
    destruct (ps ++ [q]) as [|v vs] eqn:E; [now destruct ps|].
    cbn [app]. rewrite E, join_cons.
    destruct (join [c] (v :: vs)) as [|d rest] eqn:J.
    + exfalso. clear -E J NE.
      destruct vs as [|w vs].
      * destruct ps as [|? [|? ?]]; cbn in E; try easy. injection E as <-. now cbn in J.
      * rewrite join_cons in J. apply app_eq_nil in J as [_ J]. easy.
    + apply fields_more; [easy| |easy|easy].
      split; [|easy]. intros x [<-|[]]. now left.
Qed.

(** an empty last piece is lost: "a," is split to "a" only *)
Theorem split_of_join_refuted :
  exists ps, Forall (free_of [","%char]) ps /\ ps <> [] /\
    split (join [","%char] ps) [","%char] false <> ps.
Proof.
  exists [txt "a"; txt ""]. split; [|split; [easy|vm_compute; congruence]].
  constructor; [intros c [<-|[]]; now intros [?|[]]|].
  constructor; [intros c []|constructor].
Qed.

Example split_ex : split (txt " a, b,,c ,") (txt ", ") true = map txt [""; "a"; "b"; "c"]%string.
Proof. vm_compute. reflexivity. Qed.
Example split_ex2 : split (txt "a,,b,") (txt ",") false = map txt ["a"; ""; "b"]%string.
Proof. vm_compute. reflexivity. Qed.
Example split_of_join_ex :
  Forall (free_of [","%char]) ([txt "ab"; txt ""] ++ [txt "c"]) /\
  join (txt ",") [txt "ab"; txt ""; txt "c"] = txt "ab,,c".
Proof.
  split; [|vm_compute; reflexivity].
  constructor; [|constructor; [|constructor; [|constructor]]]; intros c C D;
    repeat destruct C as [<-|C]; try easy; repeat destruct D as [D|D]; easy.
Qed.

(* ---- C36 -------------------------------------------------------------- *)

Lemma space_has c : has spaces c = true <-> is_space c.
Proof.
  rewrite has_in. unfold spaces, is_space, blank, carriage, tab, newline. cbn [In].
  assert (E : forall n, n < 256 -> (ascii_of_nat n = c <-> n = nat_of_ascii c)).
  { intros n L. split.
    - intros <-. now rewrite nat_ascii_embedding.
    - intros ->. apply ascii_nat_embedding. }
  rewrite !E by lia. tauto.
Qed.

Lemma space_not c : negb (has spaces c) = true <-> ~ is_space c.
Proof. rewrite negb_true_iff, <- space_has. destruct (has spaces c); split; congruence. Qed.

Lemma spaces_all a : Forall is_space a -> forall x, In x a -> negb (has spaces x) = false.
Proof.
  intros F x X. rewrite Forall_forall in F. apply negb_false_iff, space_has. now apply F.
Qed.

Lemma trim_ok line m : trimmed line m ->
  let r := erase_front line (find_first_not_of line spaces) in
  firstn (succ_pos (find_last_not_of r spaces)) r = m.
Proof.
  intros (a & b & -> & A & B & H & T). cbv zeta. unfold find_first_not_of.
  destruct m as [|c m].
  - cbn [app]. rewrite find_if_all.
    + reflexivity.
    + apply spaces_all. now apply Forall_app.
  - cbn [app]. rewrite find_if_app; [|now apply spaces_all|].
    2: { apply space_not. now apply (H c m). }
    cbn [erase_front]. rewrite skipn_app_len.
    destruct (exists_last (l := c :: m) ltac:(easy)) as (m' & d & E).
    change (c :: m ++ b) with ((c :: m) ++ b). rewrite E.
    rewrite <- app_assoc. cbn [app]. unfold find_last_not_of.
    rewrite find_last_if_app; [|now apply spaces_all|].
    2: { apply space_not. now apply (T d m'). }
    cbn [succ_pos].
    replace (m' ++ d :: b) with ((m' ++ [d]) ++ b) by (rewrite <- app_assoc; reflexivity).
    replace (Datatypes.S (length m')) with (length (m' ++ [d])) by (rewrite app_length; cbn; lia).
    apply firstn_app_len.
Qed.

Lemma trim_ex line : exists m, trimmed line m.
Proof.
  destruct (span_ex (fun c => negb (has spaces c)) line) as [A|(a & c & r & E & C & A)].
  - exists []. exists line, []. rewrite app_nil_r. cbn [app].
    split; [easy|]. split; [|split; [easy|split]].
    + apply Forall_forall. intros x X. apply space_has, negb_false_iff. now apply A.
    + easy.
    + intros d r E. destruct r; easy.
  - destruct (span_ex (fun c => negb (has spaces c)) (rev (c :: r))) as [B|(b & d & q & Eq & D & B)].
    + specialize (B c). rewrite B in C; [easy|]. apply -> in_rev. now left.
    + apply (f_equal (@rev ascii)) in Eq. rewrite rev_involutive, rev_app_distr in Eq.
      cbn [rev] in Eq. rewrite <- app_assoc in Eq. cbn [app] in Eq.
      exists (rev q ++ [d]). exists a, (rev b).
      split; [rewrite E, Eq, <- !app_assoc; reflexivity|].
      split; [|split; [|split]].
      * apply Forall_forall. intros x X. apply space_has, negb_false_iff. now apply A.
      * apply Forall_forall. intros x X. apply space_has, negb_false_iff. apply B. now apply in_rev.
      * intros x y Ex. destruct (rev q) as [|z w] eqn:Z.
        -- cbn in Ex. injection Ex as <- _. now apply space_not.
        -- cbn in Ex. injection Ex as <- _. cbn in Eq. injection Eq as <- _. now apply space_not.
      * intros x y Ex. apply app_inj_tail in Ex as [_ <-]. now apply space_not.
Qed.

Lemma cut_ok set m u : cut_at set m u <-> prefix_to m (find_first_of m set) = u.
Proof.
  split.
  - intros [F [->|(c & r & -> & C)]]; unfold find_first_of.
    + now rewrite (find_if_all _ _ (free_has _ _ F)).
    + rewrite (find_if_app _ u c r (free_has _ _ F)) by now apply has_in.
      cbn [prefix_to]. apply firstn_app_len.
  - intros <-. unfold find_first_of. destruct (find_if (has set) m) as [i|] eqn:E; cbn [prefix_to].
    + destruct (find_if_some _ _ _ E) as (c & A & B & _ & C). split.
      * intros x X. apply has_not_in. now apply C.
      * right. exists c, (skipn (Datatypes.S i) m). split; [easy|]. now apply has_in.
    + split; [|now left]. intros x X. apply has_not_in. now apply (find_if_none _ _ E).
Qed.

(** strip = the line without the blanks around it, up to the first '#' *)
Theorem strip_is_trim_and_cut (line u : text) :
  strip line = u <-> exists m, trimmed line m /\ cut_at ["#"%char] m u.
Proof.
  unfold strip. cbv zeta. split.
  - intros <-. destruct (trim_ex line) as [m T]. exists m. split; [easy|].
    rewrite (trim_ok line m T). now apply cut_ok.
  - intros (m & T & C). rewrite (trim_ok line m T). now apply cut_ok.
Qed.

Theorem removecomments_cuts (line tags u : text) :
  removecomments line tags = u <-> cut_at tags line u.
Proof. symmetry. apply cut_ok. Qed.

Theorem uppercase_pointwise toupper (s : text) :
  length (uppercase toupper s) = length s /\
  forall i c, nth_error s i = Some c -> nth_error (uppercase toupper s) i = Some (toupper c).
Proof.
  unfold uppercase. split; [apply map_length|]. intros i c. apply map_nth_error.
Qed.

(** the blanks before an inline comment stay: a second strip changes the result *)
Theorem strip_idempotent_refuted : exists line, strip (strip line) <> strip line.
Proof. exists (txt "a #b"). vm_compute. congruence. Qed.

Lemma strip_free line : free_of ["#"%char] line -> trimmed line (strip line).
Proof.
  intros F. destruct (trim_ex line) as [m T].
  assert (strip line = m) as ->; [|easy].
  apply strip_is_trim_and_cut. exists m. split; [easy|]. split; [|now left].
  destruct T as (a & b & -> & _). intros c C. apply F. apply in_or_app. right.
  apply in_or_app. now left.
Qed.

Theorem strip_no_comment (line : text) : free_of ["#"%char] line ->
  trimmed line (strip line) /\ strip (strip line) = strip line.
Proof.
  intros F. pose proof (strip_free line F) as T. split; [easy|].
  apply strip_is_trim_and_cut. exists (strip line). split.
  - destruct T as (a & b & E & _ & _ & H1 & H2). exists [], []. rewrite app_nil_r. auto.
  - split; [|now left]. destruct T as (a & b & E & _). intros c C. apply F. rewrite E.
    apply in_or_app. right. apply in_or_app. now left.
Qed.

(** ... but a third one does not *)
Theorem strip_stable (line : text) : strip (strip (strip line)) = strip (strip line).
Proof.
  apply strip_no_comment.
  destruct (proj1 (strip_is_trim_and_cut line (strip line)) eq_refl) as (m & _ & F & _).
  exact F.
Qed.

Example strip_ex : strip (txt "  ab c	# d # e ") = txt "ab c	".
Proof. vm_compute. reflexivity. Qed.

(* ---- C37 -------------------------------------------------------------- *)

Lemma Forall2_length {A B} (R : A -> B -> Prop) a b : Forall2 R a b -> length a = length b.
Proof. induction 1; cbn; congruence. Qed.

Section Lower.
Variable tolower : ascii -> Z.

Local Notation same := (Forall2 (fun x y => tolower x = tolower y)).

Lemma std_equal_len eq a b : length a <= length b ->
  exists r, std_equal eq a b = Ok r /\
    (r = true <-> Forall2 (fun x y => eq x y = true) a (firstn (length a) b)).
Proof.
  revert b. induction a as [|x a IH]; intros [|y b] L; cbn [length] in L; try lia.
  - exists true. cbn. split; [easy|]. split; [constructor|easy].
  - exists true. cbn. split; [easy|]. split; [constructor|easy].
  - cbn [std_equal length firstn]. destruct (eq x y) eqn:E.
    + destruct (IH b ltac:(lia)) as (r & R & S). exists r. split; [easy|].
      rewrite S. split; [now constructor|]. now inversion 1.
    + exists false. split; [easy|]. split; [easy|]. inversion 1; congruence.
Qed.

Lemma same_eq a b : Forall2 (fun x y => lower_eq tolower x y = true) a b <-> same a b.
Proof.
  unfold lower_eq.
  split; induction 1; constructor; try easy; now apply Z.eqb_eq.
Qed.

Lemma exact_eq a b : Forall2 (fun x y => Ascii.eqb x y = true) a b <-> a = b.
Proof.
  split.
  - induction 1; [easy|]. apply Ascii.eqb_eq in H. now f_equal.
  - intros <-. induction a; constructor; [apply Ascii.eqb_refl|easy].
Qed.

Theorem case_insensitive_eq_spec (a b : text) :
  exists r, case_insensitive_eq tolower a b = Ok r /\ (r = true <-> same a b).
Proof.
  unfold case_insensitive_eq. destruct (Nat.eqb (length a) (length b)) eqn:E.
  - apply Nat.eqb_eq in E.
    destruct (std_equal_len (lower_eq tolower) a b) as (r & R & S); [lia|].
    exists r. split; [easy|]. rewrite S, same_eq. rewrite firstn_all2 by lia. reflexivity.
  - exists false. split; [easy|]. split; [easy|]. intros H.
    apply Forall2_length in H. apply Nat.eqb_neq in E. lia.
Qed.

Lemma ci_eq_true a b : case_insensitive_eq tolower a b = Ok true <-> same a b.
Proof.
  destruct (case_insensitive_eq_spec a b) as (r & -> & H). rewrite <- H.
  destruct r; split; congruence.
Qed.

Theorem case_insensitive_eq_equivalence :
  (forall a, case_insensitive_eq tolower a a = Ok true) /\
  (forall a b, case_insensitive_eq tolower a b = Ok true ->
     case_insensitive_eq tolower b a = Ok true) /\
  (forall a b c, case_insensitive_eq tolower a b = Ok true ->
     case_insensitive_eq tolower b c = Ok true ->
     case_insensitive_eq tolower a c = Ok true).
Proof.
  split; [|split]; intros *; rewrite ?ci_eq_true.
  - induction a; now constructor.
  - induction 1; now constructor.
  - intros H. revert c. induction H; intros c K; inversion K; subst; constructor.
    + congruence.
    + now apply IHForall2.
Qed.

Lemma lex_asym a : forall b, case_insensitive tolower a b = true ->
  case_insensitive tolower b a = false.
Proof.
  unfold case_insensitive, lower_lt.
  induction a as [|x a IH]; intros [|y b]; cbn [lexicographical]; try easy.
  destruct (Z.ltb_spec (tolower x) (tolower y)), (Z.ltb_spec (tolower y) (tolower x));
    try easy; try lia. apply IH.
Qed.

Lemma lex_le_trans a : forall b c,
  case_insensitive tolower b a = false -> case_insensitive tolower c b = false ->
  case_insensitive tolower c a = false.
Proof.
  unfold case_insensitive, lower_lt.
  induction a as [|x a IH]; intros [|y b] [|z c]; cbn [lexicographical]; try easy.
  destruct (Z.ltb_spec (tolower y) (tolower x)), (Z.ltb_spec (tolower x) (tolower y)),
    (Z.ltb_spec (tolower z) (tolower y)), (Z.ltb_spec (tolower y) (tolower z)),
    (Z.ltb_spec (tolower z) (tolower x)), (Z.ltb_spec (tolower x) (tolower z));
    try easy; try lia. apply IH.
Qed.

(** the order is a strict weak order (usable as the comparator of std::map) whose
    incomparable texts are the equal ones *)
Theorem case_insensitive_order :
  strict_weak_order (case_insensitive tolower) /\
  forall a b, (case_insensitive tolower a b = false /\ case_insensitive tolower b a = false)
    <-> case_insensitive_eq tolower a b = Ok true.
Proof.
  split.
  - split.
    + intros a b. apply lex_asym.
    + intros a b c. apply lex_le_trans.
  - intros a b. rewrite ci_eq_true. revert b.
    unfold case_insensitive, lower_lt.
    induction a as [|x a IH]; intros [|y b]; cbn [lexicographical].
    + split; [constructor|easy].
    + split; [easy|inversion 1].
    + split; [easy|inversion 1].
    + destruct (Z.ltb_spec (tolower x) (tolower y)), (Z.ltb_spec (tolower y) (tolower x));
        try lia.
      * split; [easy|]. inversion 1; lia.
      * split; [easy|]. inversion 1; lia.
      * rewrite IH. split.
        -- intros S. constructor; [lia|easy].
        -- now inversion 1.
Qed.

(** a precedes b iff at the first difference its character is smaller, or it is a proper beginning *)
Theorem case_insensitive_first_difference (a b : text) :
  case_insensitive tolower a b = true <->
  exists p q a' b', a = p ++ a' /\ b = q ++ b' /\ same p q /\
    match a', b' with
    | [], _ :: _ => True
    | x :: _, y :: _ => (tolower x < tolower y)%Z
    | _, [] => False
    end.
Proof.
  unfold case_insensitive, lower_lt. split.
  - revert b. induction a as [|x a IH]; intros [|y b]; cbn [lexicographical]; try easy.
    + intros _. exists [], [], [], (y :: b). repeat split. constructor.
    + destruct (Z.ltb_spec (tolower x) (tolower y)) as [L|L].
      * intros _. exists [], [], (x :: a), (y :: b). repeat split; [constructor|easy].
      * destruct (Z.ltb_spec (tolower y) (tolower x)) as [M|M]; [easy|].
        intros H. destruct (IH b H) as (p & q & a' & b' & -> & -> & S & D).
        exists (x :: p), (y :: q), a', b'. repeat split; [constructor; [lia|easy]|easy].
  - intros (p & q & a' & b' & -> & -> & S & D). induction S as [|x y p q E S IH].
    + cbn [app]. destruct a' as [|x a'], b' as [|y b']; try easy. cbn [lexicographical].
      destruct (Z.ltb_spec (tolower x) (tolower y)); [easy|lia].
    + cbn [app lexicographical].
      destruct (Z.ltb_spec (tolower x) (tolower y)), (Z.ltb_spec (tolower y) (tolower x));
        try lia. exact IH.
Qed.

Theorem case_insensitive_preffix_spec (a b : text) :
  exists r, case_insensitive_preffix tolower a b = Ok r /\
    (r = true <-> exists p q, b = p ++ q /\ same a p).
Proof.
  unfold case_insensitive_preffix. destruct (Nat.leb_spec (length a) (length b)) as [L|L].
  - destruct (std_equal_len (lower_eq tolower) a b L) as (r & R & S).
    exists r. split; [easy|]. rewrite S, same_eq. split.
    + intros H. exists (firstn (length a) b), (skipn (length a) b).
      split; [symmetry; apply firstn_skipn|easy].
    + intros (p & q & -> & H). rewrite (Forall2_length _ _ _ H). now rewrite firstn_app_len.
  - exists false. split; [easy|]. split; [easy|]. intros (p & q & -> & H).
    apply Forall2_length in H. rewrite app_length in L. lia.
Qed.

Theorem case_insensitive_suffix_spec (a b : text) :
  exists r, case_insensitive_suffix tolower a b = Ok r /\
    (r = true <-> exists p q, a = p ++ q /\ same q b).
Proof.
  unfold case_insensitive_suffix. destruct (Nat.leb_spec (length b) (length a)) as [L|L].
  - assert (LS : length (skipn (length a - length b) a) = length b)
      by (rewrite skipn_length; lia).
    destruct (std_equal_len (lower_eq tolower) (skipn (length a - length b) a) b) as (r & R & S); [lia|].
    exists r. split; [easy|]. rewrite S, same_eq. rewrite firstn_all2 by lia. split.
    + intros H. exists (firstn (length a - length b) a), (skipn (length a - length b) a).
      split; [symmetry; apply firstn_skipn|easy].
    + intros (p & q & -> & H). rewrite app_length, (Forall2_length _ _ _ H).
      replace (length p + length b - length b) with (length p) by lia.
      now rewrite skipn_app_len.
  - exists false. split; [easy|]. split; [easy|]. intros (p & q & -> & H).
    apply Forall2_length in H. rewrite app_length in L. lia.
Qed.

(* ---- contains ---- *)

Lemma starts_with_ok v : forall s, starts_with s v = true <-> exists r, s = v ++ r.
Proof.
  induction v as [|x v IH]; intros s.
  - cbn. split; [now exists s|]. now destruct s.
  - destruct s as [|y s]; cbn [starts_with].
    + split; [easy|]. now intros [r E].
    + rewrite andb_true_iff, IH. split.
      * intros [E [r ->]]. apply Ascii.eqb_eq in E. subst y. now exists r.
      * intros [r E]. cbn in E. injection E as -> ->. split; [apply Ascii.eqb_refl|now exists r].
Qed.

Lemma occurs_ok v : forall s, occurs s v = true <-> exists l r, s = l ++ v ++ r.
Proof.
  induction s as [|y s IH]; cbn [occurs]; rewrite orb_true_iff, starts_with_ok.
  - split.
    + intros [[r E]|]; [|easy]. exists [], r. easy.
    + intros (l & r & E). left. exists r. symmetry in E.
      apply app_eq_nil in E as [-> E]. easy.
  - rewrite IH. split.
    + intros [[r E]|(l & r & ->)]; [now exists [], r|now exists (y :: l), r].
    + intros ([|z l] & r & E); [left; now exists r|].
      injection E as -> ->. right. now exists l, r.
Qed.

(** a variable is found iff it occurs in the text as a contiguous part, up to the case *)
Theorem contains_spec (s : text) (variables : list text) :
  (forall x y, to_char (tolower x) = to_char (tolower y) -> tolower x = tolower y) ->
  contains tolower s variables = true <->
  exists v l m r, In v variables /\ s = l ++ m ++ r /\ same m v.
Proof.
  intros INJ. unfold contains. cbv zeta. rewrite existsb_exists.
  assert (E : forall m v, same m v <->
    map (fun c => to_char (tolower c)) m = map (fun c => to_char (tolower c)) v).
  { intros m v. split.
    - induction 1; [easy|]. cbn. now f_equal; [f_equal|].
    - revert v. induction m as [|x m IH]; intros [|y v] E; try easy.
      cbn in E. injection E as E1 E2. constructor; [now apply INJ|now apply IH]. }
  split.
  - intros (v & I & H). apply occurs_ok in H as (l & r & H).
    assert (exists sl sm sr, s = sl ++ sm ++ sr /\
      map (fun c => to_char (tolower c)) sm = map (fun c => to_char (tolower c)) v) as (sl & sm & sr & -> & M).
    { apply map_eq_app in H as (sl & s' & -> & <- & H).
      apply map_eq_app in H as (sm & sr & -> & <- & <-). now exists sl, sm, sr. }
    exists v, sl, sm, sr. split; [easy|]. split; [easy|]. now apply E.
  - intros (v & l & m & r & I & -> & H). exists v. split; [easy|].
    apply occurs_ok. rewrite !map_app. apply E in H. rewrite H. eauto.
Qed.

End Lower.

Theorem case_sensitive_eq_spec (a b : text) :
  exists r, case_sensitive_eq a b = Ok r /\ (r = true <-> a = b).
Proof.
  unfold case_sensitive_eq. destruct (Nat.eqb (length a) (length b)) eqn:E.
  - apply Nat.eqb_eq in E.
    destruct (std_equal_len Ascii.eqb a b) as (r & R & S); [lia|].
    exists r. split; [easy|]. rewrite S, exact_eq. rewrite firstn_all2 by lia. reflexivity.
  - exists false. split; [easy|]. split; [easy|]. intros ->. now rewrite Nat.eqb_refl in E.
Qed.

Theorem case_sensitive_suffix_spec (a b : text) :
  exists r, case_sensitive_suffix a b = Ok r /\ (r = true <-> exists p, a = p ++ b).
Proof.
  unfold case_sensitive_suffix. destruct (Nat.leb_spec (length b) (length a)) as [L|L].
  - assert (LS : length (skipn (length a - length b) a) = length b)
      by (rewrite skipn_length; lia).
    destruct (std_equal_len Ascii.eqb (skipn (length a - length b) a) b) as (r & R & S); [lia|].
    exists r. split; [easy|]. rewrite S, exact_eq. rewrite firstn_all2 by lia. split.
    + intros H. exists (firstn (length a - length b) a).
      pose proof (firstn_skipn (length a - length b) a) as F. now rewrite H in F.
    + intros (p & ->). rewrite app_length.
      replace (length p + length b - length b) with (length p) by lia.
      now rewrite skipn_app_len.
  - exists false. split; [easy|]. split; [easy|]. intros (p & ->).
    rewrite app_length in L. lia.
Qed.

(** the case sensitive prefix test is right for texts that are not shorter than the prefix ... *)
Theorem case_sensitive_preffix_long (a b : text) : length a <= length b ->
  exists r, case_sensitive_preffix a b = Ok r /\ (r = true <-> exists q, b = a ++ q).
Proof.
  intros L. unfold case_sensitive_preffix.
  destruct (std_equal_len Ascii.eqb a b L) as (r & R & S).
  exists r. split; [easy|]. rewrite S, exact_eq. split.
  - intros H. exists (skipn (length a) b).
    pose proof (firstn_skipn (length a) b) as F. now rewrite <- H in F.
  - intros (q & ->). now rewrite firstn_app_len.
Qed.

(** ... a shorter text that agrees with the prefix is read behind its end *)
Theorem case_sensitive_preffix_refuted (a q : text) : q <> [] ->
  case_sensitive_preffix (a ++ q) a = UB.
Proof.
  intros N. unfold case_sensitive_preffix. induction a as [|x a IH].
  - now destruct q.
  - cbn [app std_equal]. now rewrite Ascii.eqb_refl.
Qed.

(** lower case of the "C" locale *)
Definition c_tolower (c : ascii) : Z :=
  let v := char_value c in (if (65 <=? v) && (v <=? 90) then v + 32 else v)%Z.

Example compare_ex :
  case_insensitive_eq c_tolower (txt "Total_FETI") (txt "TOTAL_feti") = Ok true /\
  case_insensitive c_tolower (txt "abC") (txt "ABD") = true /\
  case_insensitive_preffix c_tolower (txt "ARG") (txt "arg0") = Ok true /\
  case_insensitive_suffix c_tolower (txt "a.ECF") (txt ".ecf") = Ok true /\
  contains c_tolower (txt "1+Temperature*2") [txt "TIME"; txt "TEMPERATURE"] = true.
Proof. vm_compute. repeat split. Qed.

Lemma to_char_c_tolower_inj :
  forall x y, to_char (c_tolower x) = to_char (c_tolower y) -> c_tolower x = c_tolower y.
Proof.
  assert (R : forall x, (-128 <= c_tolower x < 128)%Z).
  { intros x. unfold c_tolower, char_value. pose proof (nat_ascii_bounded x).
    destruct (Z.ltb_spec (Z.of_nat (nat_of_ascii x)) 128);
      match goal with |- context [if ?b then _ else _] => destruct b eqn:E end;
      rewrite ?andb_true_iff, ?Z.leb_le in E; lia. }
  intros x y E. pose proof (R x) as Rx. pose proof (R y) as Ry.
  unfold to_char in E. apply (f_equal nat_of_ascii) in E.
  rewrite !nat_ascii_embedding in E by
    (pose proof (Z.mod_pos_bound (c_tolower x) 256); pose proof (Z.mod_pos_bound (c_tolower y) 256); lia).
  assert (M : (c_tolower x mod 256 = c_tolower y mod 256)%Z).
  { pose proof (Z.mod_pos_bound (c_tolower x) 256); pose proof (Z.mod_pos_bound (c_tolower y) 256). lia. }
  pose proof (Z.div_mod (c_tolower x) 256). pose proof (Z.div_mod (c_tolower y) 256).
  assert (c_tolower x / 256 = -1 \/ c_tolower x / 256 = 0)%Z
    by (pose proof (Z.mod_pos_bound (c_tolower x) 256); lia).
  assert (c_tolower y / 256 = -1 \/ c_tolower y / 256 = 0)%Z
    by (pose proof (Z.mod_pos_bound (c_tolower y) 256); lia).
  lia.
Qed.

(* ---- C84 -------------------------------------------------------------- *)

Local Open Scope N_scope.

Definition pad3 (n : N) (g : text) : Prop :=
  length g = 3%nat /\ Forall digit g /\ decimal g = n.

Lemma group_step result number value : number < 1000 * value -> value <> 0 ->
  exists g, commas_step (result, number, value, true)
    = Ok (result ++ g ++ [","%char], number mod value, value / 1000, true) /\
    pad3 (number / value) g.
Proof.
  intros B V. unfold commas_step.
  assert (Q : number / value < 1000) by (apply N.div_lt_upper_bound; lia).
  destruct (N.eqb_spec (number / value) 0) as [E|E].
  - cbn [obind]. eexists. split; [reflexivity|]. rewrite E.
    split; [easy|]. split; [|easy]. repeat constructor.
  - destruct (zeros3_ok _ Q) as (z & Z & P). rewrite Z. cbn [obind].
    exists (z ++ to_string (number / value)). split; [|easy].
    rewrite <- !app_assoc. reflexivity.
Qed.

Lemma first_step number value : number < 1000 * value -> value <> 0 ->
  (number / value = 0 /\
   commas_step ([], number, value, false) = Ok ([], number mod value, value / 1000, false)) \/
  exists g, commas_step ([], number, value, false)
    = Ok (g ++ [","%char], number mod value, value / 1000, true) /\
    (1 <= length g <= 3)%nat /\ Forall digit g /\ decimal g = number / value /\
    hd "0"%char g <> "0"%char.
Proof.
  intros B V. unfold commas_step.
  assert (Q : number / value < 1000) by (apply N.div_lt_upper_bound; lia).
  destruct (N.eqb_spec (number / value) 0) as [E|E].
  - left. easy.
  - right. cbn [obind app]. eexists. split; [reflexivity|].
    destruct (to_string_ok (number / value)) as (A1 & A2 & A3 & A4 & A5).
    specialize (A5 2%nat Q). destruct (to_string (number / value)) eqn:T; [easy|].
    split; [cbn [List.length] in *; lia|]. split; [easy|]. split; [easy|].
    intros H. now apply A4 in H.
Qed.

Lemma to_string_first n : n < 1000 ->
  (1 <= length (to_string n) <= 3)%nat /\ Forall digit (to_string n) /\ decimal (to_string n) = n /\
  (hd "0"%char (to_string n) = "0"%char -> n = 0).
Proof.
  intros B. destruct (to_string_ok n) as (A1 & A2 & A3 & A4 & A5).
  specialize (A5 2%nat B). split; [|easy].
  destruct (to_string n); [easy|cbn [List.length] in *; lia].
Qed.

Lemma dec3 a b n : pad3 n b -> decimal (a ++ b) = decimal a * 1000 + n.
Proof. intros (L & _ & D). rewrite decimal_app, L, D. reflexivity. Qed.

Theorem stringwithcommas_groups (n : N) : n < 10 ^ 12 ->
  exists t, stringwithcommas n = Ok t /\ grouped n t.
Proof.
  intros B. change (10 ^ 12) with (1000 * 1000000000) in B.
  unfold stringwithcommas.
  pose proof (N.div_mod n 1000000000 ltac:(lia)) as D1.
  pose proof (N.mod_lt n 1000000000 ltac:(lia)) as M1.
  set (r1 := n mod 1000000000) in *.
  pose proof (N.div_mod r1 1000000 ltac:(lia)) as D2.
  pose proof (N.mod_lt r1 1000000 ltac:(lia)) as M2.
  set (r2 := r1 mod 1000000) in *.
  pose proof (N.div_mod r2 1000 ltac:(lia)) as D3.
  pose proof (N.mod_lt r2 1000 ltac:(lia)) as M3.
  set (r3 := r2 mod 1000) in *.
  destruct (zeros3_ok r3 M3) as (z & Z & L4 & F4 & V4).
  assert (P4 : pad3 r3 (z ++ to_string r3)) by easy.
  destruct (first_step n 1000000000 B ltac:(lia)) as [[Q1 E1]|(g1 & E1 & L1 & F1 & V1 & H1)];
    rewrite E1; cbn [obind]; change (1000000000 / 1000) with 1000000; fold r1.
  2: {
    destruct (group_step (g1 ++ [","%char]) r1 1000000 ltac:(lia) ltac:(lia)) as (g2 & E2 & P2).
    rewrite E2; cbn [obind]; change (1000000 / 1000) with 1000; fold r2.
    destruct (group_step ((g1 ++ [","%char]) ++ g2 ++ [","%char]) r2 1000 ltac:(lia) ltac:(lia)) as (g3 & E3 & P3).
    rewrite E3; cbn [obind]; fold r3. rewrite Z. cbn [obind].
    eexists. split; [reflexivity|].
    exists g1, [g2; g3; z ++ to_string r3].
    assert (C : concat [g2; g3; z ++ to_string r3] = g2 ++ g3 ++ z ++ to_string r3)
      by (cbn [List.concat]; rewrite ?app_nil_r; reflexivity).
    rewrite C.
    split; [cbn [map List.concat app]; rewrite <- !app_assoc; cbn [app]; rewrite ?app_nil_r, <- ?app_assoc; reflexivity|].
    split; [rewrite !Forall_app; destruct P2 as (_ & ? & _), P3 as (_ & ? & _), P4 as (_ & P4 & _); apply Forall_app in P4; tauto|].
    split.
    { rewrite !app_assoc. rewrite <- (app_assoc _ z).
      rewrite (dec3 _ _ _ P4), (dec3 _ _ _ P3), (dec3 _ _ _ P2), V1. lia. }
    split; [lia|]. split; [easy|].
    constructor; [apply P2|constructor; [apply P3|constructor; [apply P4|constructor]]]. }
  destruct (first_step r1 1000000 ltac:(lia) ltac:(lia)) as [[Q2 E2]|(g1 & E2 & L1 & F1 & V1 & H1)];
    rewrite E2; cbn [obind]; change (1000000 / 1000) with 1000; fold r2.
  2: {
    destruct (group_step (g1 ++ [","%char]) r2 1000 ltac:(lia) ltac:(lia)) as (g3 & E3 & P3).
    rewrite E3; cbn [obind]; fold r3. rewrite Z. cbn [obind].
    eexists. split; [reflexivity|].
    exists g1, [g3; z ++ to_string r3].
    assert (C : concat [g3; z ++ to_string r3] = g3 ++ z ++ to_string r3)
      by (cbn [List.concat]; rewrite ?app_nil_r; reflexivity).
    rewrite C.
    split; [cbn [map List.concat app]; rewrite <- !app_assoc; cbn [app]; rewrite ?app_nil_r, <- ?app_assoc; reflexivity|].
    split; [rewrite !Forall_app; destruct P3 as (_ & ? & _), P4 as (_ & P4 & _); apply Forall_app in P4; tauto|].
    split.
    { rewrite !app_assoc. rewrite <- (app_assoc _ z).
      rewrite (dec3 _ _ _ P4), (dec3 _ _ _ P3), V1. lia. }
    split; [lia|]. split; [easy|].
    constructor; [apply P3|constructor; [apply P4|constructor]]. }
  destruct (first_step r2 1000 ltac:(lia) ltac:(lia)) as [[Q3 E3]|(g1 & E3 & L1 & F1 & V1 & H1)];
    rewrite E3; cbn [obind]; fold r3.
  2: {
    rewrite Z. cbn [obind].
    eexists. split; [reflexivity|].
    exists g1, [z ++ to_string r3].
    assert (C : concat [z ++ to_string r3] = z ++ to_string r3)
      by (cbn [List.concat]; rewrite ?app_nil_r; reflexivity).
    rewrite C.
    split; [cbn [map List.concat app]; rewrite <- !app_assoc; cbn [app]; rewrite ?app_nil_r, <- ?app_assoc; reflexivity|].
    split; [rewrite !Forall_app; destruct P4 as (_ & P4 & _); apply Forall_app in P4; tauto|].
    split.
    { rewrite (dec3 _ _ _ P4), V1. lia. }
    split; [lia|]. split; [easy|].
    constructor; [apply P4|constructor]. }
  cbn [obind app]. eexists. split; [reflexivity|].
  destruct (to_string_first r3 M3) as (A & F & V & H).
  assert (NR : n = r3) by lia. rewrite NR. clearbody r3. clear - A F V H.
  exists (to_string r3), []. cbn [map List.concat]. rewrite !app_nil_r.
  split; [easy|]. split; [easy|]. split; [easy|]. split; [easy|]. split; [|constructor].
  intros K. apply H in K. split; [easy|]. rewrite K. reflexivity.
Qed.

Theorem stringwithcommas_refuted :
  exists n t, n < 2 ^ 64 /\ stringwithcommas n = Ok t /\ ~ grouped n t.
Proof.
  exists (10 ^ 12), (txt "1000,000,000,000"). split; [easy|]. split; [vm_compute; reflexivity|].
  intros (first & groups & E & F & _ & L & _ & G).
  destruct first as [|a [|b [|c [|d first]]]]; cbn [List.length] in L; try lia;
    cbn [app list_ascii_of_string] in E;
    (destruct groups as [|g groups]; cbn [map List.concat app] in E; [discriminate E|]);
    discriminate E.
Qed.

Example stringwithcommas_ex :
  stringwithcommas 1002003004 = Ok (txt "1,002,003,004") /\
  stringwithcommas 0 = Ok (txt "0") /\ stringwithcommas 98765 = Ok (txt "98,765").
Proof. vm_compute. repeat split. Qed.

(** getLine returns the memory up to and including the first line end; without one it leaves the memory *)
Theorem get_line_spec (s : text) :
  (forall l r, s = l ++ newline :: r -> ~ In newline l -> get_line s = Ok (l ++ [newline])) /\
  (~ In newline s -> get_line s = UB).
Proof.
  split.
  - intros l r -> N. induction l as [|c l IH]; cbn [app get_line].
    + now rewrite Ascii.eqb_refl.
    + destruct (Ascii.eqb_spec c newline) as [->|D]; [destruct N; now left|].
      rewrite IH; [easy|]. intros I. apply N. now right.
  - induction s as [|c s IH]; intros N; [easy|]. cbn [get_line].
    destruct (Ascii.eqb_spec c newline) as [->|D]; [destruct N; now left|].
    rewrite IH; [easy|]. intros I. apply N. now right.
Qed.

Print Assumptions split_gives_fields.
Print Assumptions split_pieces_free.
Print Assumptions join_of_split.
Print Assumptions split_of_join.
Print Assumptions split_of_join_refuted.
Print Assumptions strip_is_trim_and_cut.
Print Assumptions removecomments_cuts.
Print Assumptions uppercase_pointwise.
Print Assumptions strip_idempotent_refuted.
Print Assumptions strip_no_comment.
Print Assumptions strip_stable.
Print Assumptions case_insensitive_eq_spec.
Print Assumptions case_insensitive_eq_equivalence.
Print Assumptions case_insensitive_order.
Print Assumptions case_insensitive_first_difference.
Print Assumptions case_insensitive_preffix_spec.
Print Assumptions case_insensitive_suffix_spec.
Print Assumptions contains_spec.
Print Assumptions case_sensitive_eq_spec.
Print Assumptions case_sensitive_suffix_spec.
Print Assumptions case_sensitive_preffix_long.
Print Assumptions case_sensitive_preffix_refuted.
Print Assumptions stringwithcommas_groups.
Print Assumptions stringwithcommas_refuted.
Print Assumptions get_line_spec.
