(* C40: enumeration parameters; C85: other value holders. *)
Require Import List NArith ZArith Ascii String Bool Lia.
Require Import Verif.Base Verif.M_Parser Verif.S_Parser Verif.L_Parser Verif.P_Parser.
Require Import Verif.M_Holder Verif.S_Holder.
Import ListNotations.
Local Open Scope list_scope.
Local Notation length := List.length.
Local Notation txt := list_ascii_of_string.
Local Notation text := (list ascii).

Section Enum.
Variable tolower : ascii -> Z.
Local Notation same := (same_text tolower).

Lemma same_forall2 a b : same a b <-> Forall2 (fun x y => tolower x = tolower y) a b.
Proof.
  unfold same_text. split.
  - revert b. induction a as [|x a IH]; intros [|y b] E; try discriminate; constructor.
    + now injection E.
    + apply IH. now injection E.
  - induction 1; [easy|]. cbn. now f_equal.
Qed.

Lemma ci_eq_dec a b :
  (case_insensitive_eq tolower a b = Ok true /\ same a b) \/
  (case_insensitive_eq tolower a b = Ok false /\ ~ same a b).
Proof.
  destruct (case_insensitive_eq_spec tolower a b) as ([|] & R & E).
  - left. split; [easy|]. apply same_forall2. now apply E.
  - right. split; [easy|]. intros H. apply same_forall2 in H. now apply E in H.
Qed.

Lemma same_refl a : same a a.
Proof. easy. Qed.
Lemma same_sym a b : same a b -> same b a.
Proof. unfold same_text. congruence. Qed.
Lemma same_trans a b c : same a b -> same b c -> same a c.
Proof. unfold same_text. congruence. Qed.

Lemma strip_stripped t u : strip t = u <-> stripped t u.
Proof. apply strip_is_trim_and_cut. Qed.

Definition first_named (options : list text) (u : text) (i : nat) : Prop :=
  (exists o, nth_error options i = Some o /\ same u o) /\
  forall j o, j < i -> nth_error options j = Some o -> ~ same u o.

Lemma find_option_spec u options i :
  (exists k, find_option tolower u options i = Ok (Some (i + k)) /\ first_named options u k) \/
  (find_option tolower u options i = Ok None /\ ~ named tolower options u).
Proof.
  revert i. induction options as [|o options IH]; intros i; cbn [find_option].
  - right. split; [easy|]. now intros (o & [] & _).
  - destruct (ci_eq_dec u o) as [[-> E]|[-> E]]; cbn [obind].
    + left. exists 0. rewrite Nat.add_0_r. split; [easy|]. split.
      * now exists o.
      * intros j; lia.
    + destruct (IH (S i)) as [(k & F & (x & X & SX) & B)|[F N]].
      * left. exists (S k). rewrite F. split; [do 2 f_equal; lia|]. split.
        -- now exists x.
        -- intros [|j] y L Y; cbn in Y; [injection Y as <-; easy|]. apply (B j); [lia|easy].
      * right. split; [easy|]. intros (x & [<-|I] & SX); [easy|]. apply N. now exists x.
Qed.

Lemma first_named_named options u i : first_named options u i -> named tolower options u.
Proof. intros [(o & E & H) _]. exists o. split; [now apply nth_error_In with i|easy]. Qed.

Lemma first_named_lt options u i : first_named options u i -> i < length options.
Proof. intros [(o & E & H) _]. apply nth_error_Some. congruence. Qed.

Lemma distinct_nth options i j a b : distinct tolower options ->
  nth_error options i = Some a -> nth_error options j = Some b -> same a b -> i = j.
Proof.
  intros D. revert i j. induction D as [|o options F D IH]; intros i j I J E.
  - now destruct i.
  - rewrite Forall_forall in F. destruct i as [|i], j as [|j]; cbn in I, J.
    + easy.
    + injection I as <-. apply nth_error_In in J. now destruct (F b J).
    + injection J as <-. apply nth_error_In in I. destruct (F a I). now apply same_sym.
    + f_equal. now apply IH.
Qed.

Lemma distinct_first options i o u : distinct tolower options ->
  nth_error options i = Some o -> same u o -> first_named options u i.
Proof.
  intros D I E. split; [now exists o|]. intros j x L J H.
  assert (j = i); [|lia]. apply (distinct_nth options j i x o); [easy..|].
  apply same_trans with u; [now apply same_sym|easy].
Qed.

Lemma first_unique options u i j : first_named options u i -> first_named options u j -> i = j.
Proof.
  intros [(o & I & H) B] [(x & J & K) C].
  destruct (Nat.lt_trichotomy i j) as [L|[L|L]]; [|easy|].
  - now destruct (C i o L I).
  - now destruct (B j x L J).
Qed.

Lemma to_int_small z : (0 <= z < 2 ^ 31)%Z -> to_int z = z.
Proof.
  intros H. unfold to_int, wrap. rewrite Z.mod_small by lia.
  destruct (Z.ltb_spec z (2 ^ 31)); lia.
Qed.

Section Option.
Variable parse : text -> option N.

Lemma set_option_eq options old t :
  enum_set tolower parse OPTION options old t = set_option tolower parse OPTION options old t.
Proof. unfold enum_set. destruct (split t [bar] true); reflexivity. Qed.

(** setting an option: the first option with this name, otherwise the index, otherwise refused *)
Theorem enum_option_set (options : list text) (old : Z) (t u : text) :
  (Z.of_nat (length options) <= 2 ^ 31)%Z -> stripped t u ->
  exists accepted value, enum_set tolower parse OPTION options old t = Ok (accepted, value) /\
    (accepted = true <-> named tolower options u \/ parse t <> None) /\
    (forall i, first_named options u i -> value = Z.of_nat i) /\
    (~ named tolower options u -> forall n, parse t = Some n -> (n < 2 ^ 31)%N -> value = Z.of_N n) /\
    (accepted = false -> value = old).
Proof.
  intros LN ST. apply strip_stripped in ST.
  rewrite set_option_eq. unfold set_option. rewrite ST.
  destruct (find_option_spec u options 0) as [(k & -> & F)|[-> N]]; cbn [obind Nat.add].
  - eexists _, _. split; [reflexivity|]. split; [|split; [|split]].
    + split; [|easy]. intros _. left. now apply first_named_named with k.
    + intros i I. rewrite (first_unique _ _ _ _ I F).
      apply first_named_lt in F. rewrite nat_N_Z. apply to_int_small. lia.
    + intros NN. destruct NN. now apply first_named_named with k.
    + easy.
  - destruct (parse t) as [n|] eqn:P.
    + eexists _, _. split; [reflexivity|]. split; [|split; [|split]].
      * split; [|easy]. intros _. right. congruence.
      * intros i I. destruct N. now apply first_named_named with i.
      * intros _ m [= <-] L. apply to_int_small. split; [lia|].
        change (2 ^ 31)%Z with (Z.of_N (2 ^ 31)). lia.
      * easy.
    + eexists _, _. split; [reflexivity|]. split; [|split; [|split]]; try easy.
      * split; [easy|]. intros [H|H]; easy.
      * intros i I. destruct N. now apply first_named_named with i.
Qed.

(** the printed option is read back, in upper or lower case and with blanks around *)
Theorem enum_option_roundtrip (options : list text) (i : nat) (name : text) :
  (Z.of_nat (length options) <= 2 ^ 31)%Z -> distinct tolower options ->
  nth_error options i = Some name ->
  enum_get OPTION options (Z.of_nat i) = Ok name /\
  forall old t u, stripped t u -> same u name ->
    enum_set tolower parse OPTION options old t = Ok (true, Z.of_nat i).
Proof.
  intros LN D I. split.
  - unfold enum_get, option_at. destruct (Z.ltb_spec (Z.of_nat i) 0); [lia|].
    rewrite Nat2Z.id. unfold rd. now rewrite I.
  - intros old t u ST E.
    destruct (enum_option_set options old t u LN ST) as (acc & v & -> & A & B & _).
    pose proof (distinct_first options i name u D I E) as F.
    rewrite (B i F). replace acc with true; [easy|]. symmetry. apply A. left.
    now apply first_named_named with i.
Qed.

(* ---- flags ------------------------------------------------------------ *)

Lemma lor_bit v j k : (0 <= v)%Z ->
  Z.testbit (Z.lor v (2 ^ Z.of_nat j)) (Z.of_nat k) = (Z.testbit v (Z.of_nat k) || Nat.eqb j k)%bool.
Proof.
  intros H. rewrite Z.lor_spec. f_equal.
  destruct (Nat.eqb_spec j k) as [->|N].
  - apply Z.pow2_bits_true. lia.
  - apply Z.pow2_bits_false. lia.
Qed.

Lemma lor_eq_bit v j : (0 <= v)%Z -> Z.lor v (2 ^ Z.of_nat j) = v <-> Z.testbit v (Z.of_nat j) = true.
Proof.
  intros H. split.
  - intros E. rewrite <- E, lor_bit by easy. rewrite Nat.eqb_refl. apply orb_true_r.
  - intros E. apply Z.bits_inj'. intros n Hn. rewrite Z.lor_spec.
    destruct (Z.eqb_spec (Z.of_nat j) n) as [<-|N].
    + now rewrite E.
    + rewrite Z.pow2_bits_false by easy. apply orb_false_r.
Qed.

Definition has_flag (options us : list text) (j : nat) : Prop :=
  exists o u, nth_error options j = Some o /\ In u us /\ same u o.

Lemma set_flags_spec options : distinct tolower options -> length options <= 31 ->
  forall ps us v, Forall2 stripped ps us -> (0 <= v)%Z ->
  exists acc v', set_flags tolower options ps v = Ok (acc, v') /\
    (acc = true <-> Forall (named tolower options) us /\ distinct tolower us /\
       forall j, has_flag options us j -> Z.testbit v (Z.of_nat j) = false) /\
    (acc = true -> (0 <= v')%Z /\ forall j, Z.testbit v' (Z.of_nat j) = true <->
       Z.testbit v (Z.of_nat j) = true \/ has_flag options us j).
Proof.
  intros D LO ps us v F. revert v. induction F as [|p u ps us S F IH]; intros v V; cbn [set_flags].
  - exists true, v. split; [easy|]. split.
    + split; [|easy]. intros _. split; [constructor|]. split; [constructor|].
      now intros j (o & u & _ & [] & _).
    + intros _. split; [easy|]. intros j. split; [now left|].
      intros [H|(o & u & _ & [] & _)]. easy.
  - apply strip_stripped in S. rewrite S.
    destruct (find_option_spec u options 0) as [(k & -> & FN)|[-> N]]; cbn [obind Nat.add].
    + assert (LK : k < 31) by (apply first_named_lt in FN; lia).
      unfold shift1. rewrite (proj2 (Nat.ltb_lt _ _) LK). cbn [obind].
      assert (HK : forall j, has_flag options (u :: us) j <-> j = k \/ has_flag options us j).
      { intros j. split.
        - intros (o & x & J & [<-|I] & E).
          + left. apply (first_unique options u); [|easy]. now apply distinct_first with o.
          + right. now exists o, x.
        - intros [->|(o & x & J & I & E)].
          + destruct FN as [(o & J & E) _]. exists o, u. split; [easy|]. split; [now left|easy].
          + exists o, x. split; [easy|]. split; [now right|easy]. }
      destruct (Z.eqb_spec (Z.lor v (2 ^ Z.of_nat k)) v) as [E|E].
      * apply lor_eq_bit in E; [|easy]. eexists _, _. split; [reflexivity|]. split; [|easy].
        split; [easy|]. intros (_ & _ & H). rewrite H in E; [easy|]. apply HK. now left.
      * assert (VK : Z.testbit v (Z.of_nat k) = false).
        { destruct (Z.testbit v (Z.of_nat k)) eqn:B; [|easy]. apply lor_eq_bit in B; easy. }
        destruct (IH (Z.lor v (2 ^ Z.of_nat k))) as (acc & v' & R & A & B).
        { apply Z.lor_nonneg. split; [easy|]. apply Z.pow_nonneg. lia. }
        exists acc, v'. split; [easy|]. split.
        -- rewrite A. split.
           ++ intros (NM & DU & T). split; [|split].
              ** constructor; [now apply first_named_named with k|easy].
              ** constructor; [|easy]. apply Forall_forall. intros x X EX.
                 destruct FN as [(o & J & EO) _].
                 assert (HF : has_flag options us k).
                 { exists o, x. split; [easy|]. split; [easy|].
                   apply same_trans with u; [now apply same_sym|easy]. }
                 specialize (T k HF). rewrite lor_bit, Nat.eqb_refl, orb_true_r in T by easy. easy.
              ** intros j J. apply HK in J as [->|J]; [easy|].
                 specialize (T j J). rewrite lor_bit in T by easy. now apply orb_false_iff in T.
           ++ intros (NM & DU & T). inversion NM; subst. inversion DU as [|? ? DX DU']; subst.
              split; [easy|]. split; [easy|]. intros j J.
              rewrite lor_bit by easy. apply orb_false_iff. split; [apply T, HK; now right|].
              apply Nat.eqb_neq. intros <-. destruct J as (o & x & J & I & E2).
              destruct FN as [(o' & J' & E3) _]. rewrite J in J'. injection J' as <-.
              rewrite Forall_forall in DX. apply (DX x I).
              apply same_trans with o; [easy|now apply same_sym].
        -- intros AT. destruct (B AT) as [P Q]. split; [easy|]. intros j. rewrite Q, HK.
           rewrite lor_bit by easy. rewrite orb_true_iff, Nat.eqb_eq. intuition congruence.
    + destruct (Z.eqb_spec v v) as [_|C]; [|easy].
      eexists _, _. split; [reflexivity|]. split; [|easy]. split; [easy|].
      intros (NM & _). now inversion NM.
Qed.

(** flags: accepted iff every piece between the bars names an option and none is repeated;
    the value has exactly the bits of the named options *)
Theorem enum_flags_set (options : list text) (old : Z) (t : text) (ps us : list text) :
  distinct tolower options -> length options <= 31 ->
  fields ["|"%char] true t ps -> Forall2 stripped ps us ->
  exists accepted value, enum_set tolower parse ENUM_FLAGS options old t = Ok (accepted, value) /\
    (accepted = true <-> Forall (named tolower options) us /\ distinct tolower us) /\
    (accepted = true -> (0 <= value)%Z /\ forall j, Z.testbit value (Z.of_nat j) = true <->
       exists o u, nth_error options j = Some o /\ In u us /\ same u o).
Proof.
  intros D LO F ST. apply split_gives_fields in F. unfold enum_set.
  change [bar] with ["|"%char]. rewrite F.
  destruct (set_flags_spec options D LO ps us 0 ST ltac:(lia)) as (acc & v & R & A & B).
  exists acc, v. split; [|split].
  - destruct ps; [|easy]. exfalso.
    assert (E : split t ["|"%char] true <> []); [|easy].
    assert (H : fields ["|"%char] true t (split t ["|"%char] true)) by now apply split_gives_fields.
    now inversion H.
  - rewrite A. split; [intros (? & ? & _); easy|]. intros [? ?]. split; [easy|]. split; [easy|].
    intros j _. apply Z.testbit_0_l.
  - intros AT. destruct (B AT) as [P Q]. split; [easy|]. intros j. rewrite Q, Z.testbit_0_l.
    split; [intros [?|?]; easy|now right].
Qed.

Lemma land_bit v i : (Z.land v (2 ^ Z.of_nat i) =? 0)%Z = negb (Z.testbit v (Z.of_nat i)).
Proof.
  destruct (Z.testbit v (Z.of_nat i)) eqn:B; cbn [negb].
  - apply Z.eqb_neq. intros E.
    assert (T : Z.testbit (Z.land v (2 ^ Z.of_nat i)) (Z.of_nat i) = false)
      by (rewrite E; apply Z.testbit_0_l).
    rewrite Z.land_spec, B, Z.pow2_bits_true in T by lia. easy.
  - apply Z.eqb_eq. apply Z.bits_inj'. intros n Hn. rewrite Z.land_spec, Z.testbit_0_l.
    destruct (Z.eqb_spec (Z.of_nat i) n) as [<-|N].
    + now rewrite B.
    + rewrite Z.pow2_bits_false by easy. apply andb_false_r.
Qed.

Lemma join_snoc sep ps p : ps <> [] -> join sep (ps ++ [p]) = join sep ps ++ sep ++ p.
Proof.
  destruct ps as [|q ps]; [easy|]. intros _. cbn [app join]. rewrite fold_left_app. reflexivity.
Qed.

Lemma join_nonempty sep ps : (forall p, In p ps -> p <> []) -> ps <> [] -> join sep ps <> [].
Proof.
  intros H N. destruct ps as [|p ps]; [easy|]. destruct ps as [|q ps].
  - cbn. apply H. now left.
  - rewrite join_cons. intros E. apply app_eq_nil in E as [E _]. apply (H p); [now left|easy].
Qed.

(** printing flags: the names of the set bits in the order of options, separated by " | " *)
Theorem enum_flags_get (options : list text) (v : Z) :
  length options <= 31 -> Forall (fun o => o <> []) options ->
  enum_get ENUM_FLAGS options v = Ok (join (txt " | ") (flag_names options v)).
Proof.
  intros LO NE. unfold enum_get, flag_names. rewrite Forall_forall in NE.
  assert (G : forall b, b <= length options ->
    foldM (get_flag_step options v) (seq 0 b) [] =
    Ok (join (txt " | ") (map snd (filter (fun p => Z.testbit v (Z.of_nat (fst p)))
      (combine (seq 0 b) (firstn b options)))))).
  { induction b as [|b IH]; intros L; [easy|].
    rewrite seq_S, foldM_app. rewrite IH by lia. cbn [obind foldM Nat.add].
    unfold get_flag_step at 1, shift1.
    rewrite (proj2 (Nat.ltb_lt _ _)) by lia. cbn [obind]. rewrite land_bit.
    assert (E : exists o, nth_error options b = Some o).
    { destruct (nth_error options b) as [o|] eqn:E; [now exists o|].
      apply nth_error_None in E. lia. }
    destruct E as [o E].
    assert (FS : firstn (S b) options = firstn b options ++ [o]).
    { clear -E. revert b E. induction options as [|x options IH]; intros [|b] E; try discriminate.
      - now injection E as ->.
      - cbn [firstn app]. f_equal. now apply IH. }
    assert (CB : combine (seq 0 b ++ [b]) (firstn b options ++ [o]) =
      combine (seq 0 b) (firstn b options) ++ [(b, o)]).
    { assert (LL : length (seq 0 b) = length (firstn b options))
        by (rewrite seq_length, firstn_length; lia).
      revert LL. generalize (seq 0 b), (firstn b options). induction l as [|x l IHl]; intros [|y k] LL;
        try discriminate; [easy|]. cbn [app combine]. f_equal. apply IHl. now injection LL. }
    rewrite FS, CB, filter_app, map_app. cbn [filter fst].
    destruct (Z.testbit v (Z.of_nat b)) eqn:B; cbn [negb obind].
    - unfold rd. rewrite E. cbn [obind map snd].
      match goal with |- context [join _ (?l ++ [o])] => remember l as ps eqn:EP end.
      assert (PN : forall q, In q ps -> q <> []).
      { intros q Q. apply NE. rewrite EP in Q.
        apply in_map_iff in Q as ([i q'] & <- & Q). apply filter_In in Q as [Q _].
        apply in_combine_r in Q. cbn [snd]. rewrite <- (firstn_skipn b options). apply in_or_app. now left. }
      clear EP. destruct ps as [|p ps]; [easy|].
      rewrite join_snoc by easy.
      assert (JN : join (txt " | ") (p :: ps) <> []) by now apply join_nonempty.
      destruct (join (txt " | ") (p :: ps)) as [|c r]; [easy|]. cbn [app]. f_equal. f_equal.
      rewrite <- app_assoc. reflexivity.
    - cbn [map]. now rewrite app_nil_r. }
  specialize (G (length options) (Nat.le_refl _)). rewrite firstn_all in G. exact G.
Qed.

Lemma trimmed_surround a m b : Forall is_space a -> Forall is_space b -> stripped m m ->
  stripped (a ++ m ++ b) m.
Proof.
  intros A B (m' & (x & y & E & X & Y & H1 & H2) & C).
  assert (m' = m).
  { destruct C as [_ [C|(c & r & C & _)]]; [easy|].
    apply (f_equal (@length _)) in E. rewrite !app_length in E.
    apply (f_equal (@length _)) in C. rewrite app_length in C. cbn in C. lia. }
  subst m'. exists m. split; [|easy]. exists a, b. auto.
Qed.

Lemma fields_of_flags (names : list text) (pre : text) :
  names <> [] -> (pre = [] \/ pre = [blank]) ->
  Forall (fun o => stripped o o /\ free_of ["|"%char] o) names ->
  exists ps, fields ["|"%char] true (pre ++ join (txt " | ") names) ps /\ Forall2 stripped ps names.
Proof.
  assert (SP : Forall is_space [blank]) by (constructor; [now left|constructor]).
  assert (FB : forall q, q = [] \/ q = [blank] -> free_of ["|"%char] q).
  { intros q [->| ->] c; [now intros []|]. intros [<-|[]]. now intros [?|[]]. }
  revert pre. induction names as [|o names IH]; intros pre N P F; [easy|].
  inversion F as [|? ? [SO FO] F']; subst.
  destruct names as [|o2 names].
  - cbn [join fold_left]. exists [pre ++ o]. split.
    + apply fields_last. intros c C. apply in_app_or in C as [C|C]; [now apply (FB pre)|now apply FO].
    + constructor; [|constructor]. pose proof (trimmed_surround pre o []) as T.
      rewrite app_nil_r in T. apply T; [|constructor|easy]. destruct P as [->| ->]; [constructor|easy].
  - destruct (IH [blank] ltac:(easy) (or_intror eq_refl) F') as (ps & FI & ST).
    exists ((pre ++ o ++ [blank]) :: ps). split.
    + rewrite join_cons.
      replace (pre ++ o ++ txt " | " ++ join (txt " | ") (o2 :: names))
        with ((pre ++ o ++ [blank]) ++ ["|"%char] ++ blank :: join (txt " | ") (o2 :: names))
        by (cbn; rewrite <- !app_assoc; reflexivity).
      apply fields_more.
      * intros c C. apply in_app_or in C as [C|C]; [now apply (FB pre)|].
        apply in_app_or in C as [C|C]; [now apply FO|]. apply (FB [blank]); auto.
      * split; [now intros c|]. split; [easy|easy].
      * intros _ [?|[]]. easy.
      * exact FI.
    + constructor; [|easy]. apply trimmed_surround; [|easy|easy].
      destruct P as [->| ->]; [constructor|easy].
Qed.

Lemma distinct_filter f (l : list (nat * text)) : distinct tolower (map snd l) ->
  distinct tolower (map snd (filter f l)).
Proof.
  unfold distinct. induction l as [|p l IH]; intros D; [constructor|].
  inversion D as [|? ? H D']; subst. cbn [filter]. destruct (f p); [|now apply IH].
  cbn [map]. constructor; [|now apply IH]. apply Forall_forall. intros x X.
  rewrite Forall_forall in H. apply H. apply in_map_iff in X as (q & <- & Q).
  apply filter_In in Q as [Q _]. now apply in_map.
Qed.

Lemma in_enumerate {A} (l : list A) k j x :
  In (j, x) (combine (seq k (length l)) l) <-> k <= j /\ nth_error l (j - k) = Some x.
Proof.
  revert k. induction l as [|y l IH]; intros k; cbn [length seq combine].
  - split; [easy|]. intros [_ H]. now destruct (j - k).
  - cbn [In]. rewrite IH. split.
    + intros [E|[L H]].
      * injection E as -> ->. split; [lia|]. now rewrite Nat.sub_diag.
      * split; [lia|]. replace (j - k) with (S (j - S k)) by lia. easy.
    + intros [L H]. destruct (Nat.eq_dec j k) as [->|N].
      * left. rewrite Nat.sub_diag in H. cbn in H. congruence.
      * right. split; [lia|]. replace (j - k) with (S (j - S k)) in H by lia. easy.
Qed.

Lemma map_snd_combine {A} (l : list A) k : map snd (combine (seq k (length l)) l) = l.
Proof.
  revert k. induction l as [|y l IH]; intros k; [easy|]. cbn [length seq combine map snd].
  now rewrite IH.
Qed.

(** printed flags are read back *)
Theorem enum_flags_roundtrip (options : list text) (v old : Z) :
  distinct tolower options -> length options <= 31 ->
  Forall (fun o => o <> [] /\ stripped o o /\ free_of ["|"%char] o) options ->
  (0 < v < 2 ^ Z.of_nat (length options))%Z ->
  exists t, enum_get ENUM_FLAGS options v = Ok t /\
    enum_set tolower parse ENUM_FLAGS options old t = Ok (true, v).
Proof.
  intros D LO OK V.
  assert (HB : forall j, Z.testbit v (Z.of_nat j) = true -> j < length options).
  { intros j B. destruct (Nat.lt_ge_cases j (length options)) as [L|L]; [easy|].
    rewrite Z.bits_above_log2 in B; [easy|lia|].
    apply Z.lt_le_trans with (Z.of_nat (length options)); [|lia].
    apply Z.log2_lt_pow2; lia. }
  assert (IN : forall o, In o (flag_names options v) <->
    exists j, nth_error options j = Some o /\ Z.testbit v (Z.of_nat j) = true).
  { intros o. unfold flag_names. rewrite in_map_iff. split.
    - intros ([j x] & <- & I). apply filter_In in I as [I B]. apply in_enumerate in I as [_ I].
      rewrite Nat.sub_0_r in I. now exists j.
    - intros (j & J & B). exists (j, o). split; [easy|]. apply filter_In. split; [|easy].
      apply in_enumerate. rewrite Nat.sub_0_r. split; [lia|easy]. }
  eexists. split.
  { apply enum_flags_get; [easy|]. eapply Forall_impl; [|exact OK]. now intros a (? & _). }
  assert (NE : flag_names options v <> []).
  { assert (BX : Z.testbit v (Z.log2 v) = true) by (apply Z.bit_log2; lia).
    rewrite <- (Z2Nat.id (Z.log2 v)) in BX by apply Z.log2_nonneg.
    destruct (nth_error options (Z.to_nat (Z.log2 v))) as [o|] eqn:E.
    - intros H. assert (I : In o (flag_names options v)) by (apply IN; eauto). now rewrite H in I.
    - apply nth_error_None in E. apply HB in BX. lia. }
  destruct (fields_of_flags (flag_names options v) [] NE (or_introl eq_refl)) as (ps & F & ST).
  { apply Forall_forall. intros o I. apply IN in I as (j & J & _). apply nth_error_In in J.
    rewrite Forall_forall in OK. now apply OK in J as (_ & ?). }
  cbn [app] in F.
  destruct (enum_flags_set options old _ ps _ D LO F ST) as (acc & w & -> & A & B).
  assert (AT : acc = true).
  { apply A. split.
    - apply Forall_forall. intros o I. apply IN in I as (j & J & _). exists o.
      split; [now apply nth_error_In with j|easy].
    - unfold flag_names. apply distinct_filter. now rewrite map_snd_combine. }
  destruct (B AT) as [P Q]. rewrite AT. do 2 f_equal. apply Z.bits_inj'. intros n Hn.
  rewrite <- (Z2Nat.id n) by easy. generalize (Z.to_nat n) as j. intros j.
  apply Bool.eq_iff_eq_true. rewrite Q. split.
  - intros (o & u & J & I & E). apply IN in I as (k & K & BK).
    now rewrite (distinct_nth options j k o u D J K (same_sym _ _ E)).
  - intros BJ. destruct (nth_error options j) as [o|] eqn:E.
    + exists o, o. split; [easy|]. split; [|easy]. apply IN. now exists j.
    + apply nth_error_None in E. apply HB in BJ. lia.
Qed.

End Option.

(** no flag at all is printed as the empty text, which is refused *)
Theorem enum_no_flag_refuted (parse : text -> option N) (options : list text) (old : Z) :
  length options <= 31 -> Forall (fun o => o <> []) options ->
  enum_get ENUM_FLAGS options 0 = Ok [] /\
  enum_set tolower parse ENUM_FLAGS options old [] = Ok (false, 0%Z).
Proof.
  intros LO NE. split.
  - rewrite enum_flags_get by easy. unfold flag_names.
    replace (filter _ _) with (@nil (nat * text)); [easy|].
    symmetry. generalize (combine (seq 0 (length options)) options). induction l as [|p l IH]; [easy|].
    cbn [filter]. now rewrite Z.testbit_0_l.
  - unfold enum_set. cbn [split set_flags]. change (strip []) with (@nil ascii).
    destruct (find_option_spec [] options 0) as [(k & _ & (o & J & E) & _)|[-> N]]; [|easy].
    apply nth_error_In in J. rewrite Forall_forall in NE. apply NE in J.
    destruct o; [easy|]. discriminate E.
Qed.

(** an index outside of the options is accepted and printing the value is undefined *)
Theorem enum_index_refuted (parse : text -> option N) (options : list text) (old : Z) (t u : text) (n : N) :
  stripped t u -> ~ named tolower options u -> parse t = Some n ->
  (Z.of_nat (length options) <= Z.of_N n < 2 ^ 31)%Z ->
  exists v, enum_set tolower parse OPTION options old t = Ok (true, v) /\
    enum_get OPTION options v = UB.
Proof.
  intros ST N P L.
  destruct (enum_option_set parse options old t u ltac:(lia) ST) as (acc & v & E & A & _ & B & _).
  exists v. split.
  - rewrite E. do 2 f_equal. apply A. right. congruence.
  - rewrite (B N n P) by lia. unfold enum_get, option_at.
    destruct (Z.ltb_spec (Z.of_N n) 0); [lia|]. unfold rd.
    rewrite (proj2 (nth_error_None _ _)); [easy|]. lia.
Qed.

(* ---- other holders ---------------------------------------------------- *)

Theorem bool_roundtrip (stream : text -> bool * bool) (old b : bool) :
  bool_set tolower stream old (bool_get b) = Ok (true, b).
Proof.
  assert (R : forall a, case_insensitive_eq tolower a a = Ok true)
    by exact (proj1 (case_insensitive_eq_equivalence tolower)).
  assert (F : case_insensitive_eq tolower true_text false_text = Ok false) by reflexivity.
  destruct b; unfold bool_get, bool_set.
  - rewrite F, R. reflexivity.
  - rewrite R. reflexivity.
Qed.

(** a logical parameter named without a value is switched on *)
Theorem bool_without_value (stream : text -> bool * bool) (old : bool) : bool_set tolower stream old [] = Ok (true, true).
Proof. reflexivity. Qed.

End Enum.

Lemma vector_get_join {T} (show : T -> text) values :
  vector_get show values = join (txt ", ") (map show values).
Proof.
  destruct values as [|v values]; [easy|]. cbn [vector_get map join].
  generalize (show v) as s. clear v.
  induction values as [|w values IH]; intros s; [easy|]. cbn [fold_left map]. apply IH.
Qed.

Lemma fields_of_vector (names : list text) : names <> [] ->
  Forall (fun o => o <> [] /\ free_of (txt ", ") o) names ->
  fields (txt ", ") true (join (txt ", ") names) names.
Proof.
  induction names as [|o names IH]; intros N F; [easy|]. inversion F as [|? ? [NO FO] F']; subst.
  destruct names as [|o2 names]; [now apply fields_last|].
  rewrite join_cons. specialize (IH ltac:(easy) F').
  destruct (join (txt ", ") (o2 :: names)) as [|c r] eqn:E.
  - exfalso. revert E. apply join_nonempty; [|easy]. intros p P. rewrite Forall_forall in F'. now apply F'.
  - apply fields_more; [easy| | |easy].
    + split; [now intros x|]. easy.
    + intros _. inversion F' as [|? ? [NO2 FO2] _]; subst.
      destruct o2 as [|c2 o2]; [easy|]. apply FO2.
      assert (c = c2) as ->; [|now left].
      destruct names; [cbn in E; congruence|]. rewrite join_cons in E. cbn in E. congruence.
Qed.

(** a vector is read back behind the values that are already there *)
Theorem vector_roundtrip {T} (show : T -> text) (read : text -> option T) (old values : list T) :
  (forall v, In v values -> read (show v) = Some v /\ show v <> [] /\ free_of (txt ", ") (show v)) ->
  values <> [] ->
  vector_set read old (vector_get show values) = (true, old ++ values).
Proof.
  intros OK N. unfold vector_set. rewrite vector_get_join.
  change comma_blank with (txt ", ").
  rewrite (proj2 (split_gives_fields (txt ", ") _ true (map show values))).
  - clear N. revert old. induction values as [|v values IH]; intros old; cbn [map vector_set_loop].
    + now rewrite app_nil_r.
    + rewrite (proj1 (OK v (or_introl eq_refl))). rewrite IH; [now rewrite <- app_assoc|].
      intros w W. apply OK. now right.
  - apply fields_of_vector; [now destruct values|]. apply Forall_forall. intros o O.
    apply in_map_iff in O as (v & <- & V). now apply OK.
Qed.

(** the empty vector is printed as the empty text, which is refused, since no number is read from it *)
Theorem vector_empty_refuted {T} (show : T -> text) (read : text -> option T) (old : list T) :
  read [] = None -> vector_set read old (vector_get show []) = (false, old).
Proof. intros R. unfold vector_set. cbn. now rewrite R. Qed.

(* ---- examples --------------------------------------------------------- *)

Definition digits_parse (t : text) : option N :=
  match t with
  | [] => None
  | _ => if forallb (fun c => Nat.leb 48 (nat_of_ascii c) && Nat.leb (nat_of_ascii c) 57) t
         then Some (decimal t) else None
  end.

Definition ex_options := map txt ["NONE"; "MINIMAL"; "FULL"]%string.

Example enum_ex :
  enum_set c_tolower digits_parse OPTION ex_options 0 (txt " minimal ") = Ok (true, 1%Z) /\
  enum_set c_tolower digits_parse OPTION ex_options 0 (txt "2") = Ok (true, 2%Z) /\
  enum_set c_tolower digits_parse OPTION ex_options 0 (txt "max") = Ok (false, 0%Z) /\
  enum_set c_tolower digits_parse OPTION ex_options 0 (txt "7") = Ok (true, 7%Z) /\
  enum_get OPTION ex_options 7 = UB /\
  enum_set c_tolower digits_parse ENUM_FLAGS ex_options 0 (txt "full | None") = Ok (true, 5%Z) /\
  enum_get ENUM_FLAGS ex_options 5 = Ok (txt "NONE | FULL") /\
  enum_set c_tolower digits_parse ENUM_FLAGS ex_options 0 (txt "full | FULL") = Ok (false, 4%Z).
Proof. vm_compute. repeat split. Qed.

Lemma strip_self t : strip t = t -> stripped t t.
Proof. now apply strip_stripped. Qed.

Example enum_options_ok : distinct c_tolower ex_options /\
  Forall (fun o => o <> [] /\ stripped o o /\ free_of ["|"%char] o) ex_options.
Proof.
  split.
  - repeat constructor; vm_compute; congruence.
  - repeat constructor; try (vm_compute; congruence); try (apply strip_self; reflexivity);
      intros c C [<-|[]]; vm_compute in C; intuition congruence.
Qed.

Example vector_ex :
  vector_set digits_parse [3%N] (vector_get (fun n => if (n =? 1)%N then txt "1" else txt "25") [1%N; 25%N])
  = (true, [3; 1; 25]%N).
Proof. reflexivity. Qed.

Print Assumptions enum_option_set.
Print Assumptions enum_option_roundtrip.
Print Assumptions enum_flags_set.
Print Assumptions enum_flags_get.
Print Assumptions enum_flags_roundtrip.
Print Assumptions enum_no_flag_refuted.
Print Assumptions enum_index_refuted.
Print Assumptions bool_roundtrip.
Print Assumptions bool_without_value.
Print Assumptions vector_roundtrip.
Print Assumptions vector_empty_refuted.
