(* Lemmas about std::string searches, split and join. *)
Require Import List NArith ZArith Ascii Bool Lia.
Require Import Verif.Base Verif.M_Parser Verif.S_Parser.
Import ListNotations.

Local Notation text := (list ascii).

Lemma has_in set c : has set c = true <-> In c set.
Proof.
  unfold has. rewrite existsb_exists. split.
  - intros [x [H E]]. apply Ascii.eqb_eq in E. now subst.
  - intros H. exists c. split; [easy|apply Ascii.eqb_refl].
Qed.

Lemma has_not_in set c : has set c = false <-> ~ In c set.
Proof. rewrite <- has_in. destruct (has set c); split; congruence. Qed.

Lemma find_if_some p s i : find_if p s = Some i ->
  exists c, s = firstn i s ++ c :: skipn (S i) s /\ p c = true /\
    length (firstn i s) = i /\ forall x, In x (firstn i s) -> p x = false.
Proof.
  revert i. induction s as [|c s IH]; intros i; cbn [find_if]; [easy|].
  destruct (p c) eqn:E.
  - intros [= <-]. exists c. cbn. repeat split; easy.
  - destruct (find_if p s) as [j|] eqn:F; cbn [option_map]; [|easy].
    intros [= <-]. destruct (IH j eq_refl) as [d [A [B [L C]]]]. exists d.
    cbn [firstn skipn app length]. split; [|split; [easy|split]].
    + f_equal. exact A.
    + now rewrite L.
    + intros x [<-|H]; [easy|]. now apply C.
Qed.

Lemma find_if_none p s : find_if p s = None -> forall x, In x s -> p x = false.
Proof.
  induction s as [|c s IH]; cbn [find_if]; [easy|].
  destruct (p c) eqn:E; [easy|].
  destruct (find_if p s); [easy|]. intros _ x [<-|H]; [easy|]. now apply IH.
Qed.

Lemma find_if_app p a c b : (forall x, In x a -> p x = false) -> p c = true ->
  find_if p (a ++ c :: b) = Some (length a).
Proof.
  intros H C. induction a as [|x a IH]; cbn [app find_if length].
  - now rewrite C.
  - rewrite (H x) by now left. rewrite IH; [easy|].
    intros y Y. apply H. now right.
Qed.

Lemma find_if_all p a : (forall x, In x a -> p x = false) -> find_if p a = None.
Proof.
  intros H. induction a as [|x a IH]; cbn [find_if]; [easy|].
  rewrite (H x) by now left. rewrite IH; [easy|]. intros y Y. apply H. now right.
Qed.

Lemma find_last_if_app p a c b : (forall x, In x b -> p x = false) -> p c = true ->
  find_last_if p (a ++ c :: b) = Some (length a).
Proof.
  intros H C.
  assert (N : find_last_if p b = None).
  { clear C. induction b as [|x b IH]; [easy|]. cbn [find_last_if].
    rewrite IH by (intros y Y; apply H; now right).
    now rewrite (H x) by now left. }
  induction a as [|x a IH]; cbn [app find_last_if length].
  - now rewrite N, C.
  - now rewrite IH.
Qed.

Lemma find_last_if_all p a : (forall x, In x a -> p x = false) ->
  find_last_if p a = None.
Proof.
  intros H. induction a as [|x a IH]; [easy|]. cbn [find_last_if].
  rewrite IH by (intros y Y; apply H; now right).
  now rewrite (H x) by now left.
Qed.

Lemma firstn_app_len {A} (a b : list A) : firstn (length a) (a ++ b) = a.
Proof.
  rewrite firstn_app, Nat.sub_diag, firstn_all. cbn. apply app_nil_r.
Qed.

Lemma skipn_app_len {A} (a b : list A) : skipn (length a) (a ++ b) = b.
Proof. now rewrite skipn_app, Nat.sub_diag, skipn_all. Qed.

(* the longest prefix of a text avoiding a decidable class *)
Lemma span_ex (p : ascii -> bool) (s : text) :
  (forall x, In x s -> p x = false) \/
  exists a c b, s = a ++ c :: b /\ p c = true /\ forall x, In x a -> p x = false.
Proof.
  destruct (find_if p s) as [i|] eqn:E.
  - right. destruct (find_if_some p s i E) as [c [A [B [_ C]]]].
    exists (firstn i s), c, (skipn (S i) s). auto.
  - left. now apply find_if_none.
Qed.

(* ---- split ------------------------------------------------------------ *)

Lemma free_has sep p : free_of sep p -> forall x, In x p -> has sep x = false.
Proof. intros H x X. apply has_not_in. now apply H. Qed.

Lemma split_step_last sep skip p : free_of sep p ->
  split_step sep skip p = (p, []).
Proof.
  intros F. unfold split_step, find_first_of.
  rewrite (find_if_all _ _ (free_has _ _ F)). reflexivity.
Qed.

Lemma split_step_closed sep skip p g : free_of sep p -> gap sep skip g ->
  split_step sep skip (p ++ g) = (p, []).
Proof.
  intros F [M [N L]]. unfold split_step, find_first_of.
  destruct g as [|c g]; [easy|].
  assert (C : has sep c = true) by (apply has_in, M; now left).
  rewrite (find_if_app _ p c g (free_has _ _ F) C).
  cbn [prefix_to erase_front]. rewrite firstn_app_len. f_equal.
  destruct skip.
  - rewrite skipn_app_len. unfold find_first_not_of.
    rewrite find_if_all; [easy|].
    intros x X. apply negb_false_iff, has_in. now apply M.
  - specialize (L eq_refl). destruct g; [|easy].
    rewrite skipn_all2; [easy|]. rewrite app_length. cbn. lia.
Qed.

Lemma split_step_more sep skip p g c rest : free_of sep p -> gap sep skip g ->
  (skip = true -> ~ In c sep) ->
  split_step sep skip (p ++ g ++ c :: rest) = (p, c :: rest).
Proof.
  intros F [M [N L]] S. unfold split_step, find_first_of.
  destruct g as [|d g]; [easy|].
  assert (C : has sep d = true) by (apply has_in, M; now left).
  cbn [app]. rewrite (find_if_app _ p d _ (free_has _ _ F) C).
  cbn [prefix_to erase_front]. rewrite firstn_app_len. f_equal.
  destruct skip.
  - rewrite skipn_app_len. unfold find_first_not_of.
    change (d :: g ++ c :: rest) with ((d :: g) ++ c :: rest).
    rewrite find_if_app.
    + cbn [erase_front]. apply skipn_app_len.
    + intros x X. apply negb_false_iff, has_in. now apply M.
    + apply negb_true_iff, has_not_in. now apply S.
  - specialize (L eq_refl). destruct g; [|easy]. cbn [app].
    replace (p ++ d :: c :: rest) with ((p ++ [d]) ++ c :: rest)
      by (rewrite <- app_assoc; reflexivity).
    replace (Datatypes.S (length p)) with (length (p ++ [d]))
      by (rewrite app_length; cbn; lia).
    apply skipn_app_len.
Qed.

Lemma fields_nonempty sep skip line ps : fields sep skip line ps -> ps <> [].
Proof. now destruct 1. Qed.

(* enough fuel *)
Lemma split_loop_fuel sep skip line ps : fields sep skip line ps ->
  line <> [] -> forall fuel acc, length line <= fuel ->
  split_loop fuel sep skip line acc = acc ++ ps.
Proof.
  induction 1 as [p F|p g F G|p g c rest ps F G NS H IH]; intros NE fuel acc L.
  - destruct p as [|x p]; [easy|]. destruct fuel as [|fuel]; [cbn in L; lia|].
    cbn [split_loop]. rewrite (split_step_last _ skip _ F).
    destruct fuel; reflexivity.
  - destruct (p ++ g) as [|x q] eqn:E; [easy|].
    destruct fuel as [|fuel]; [cbn in L; lia|].
    cbn [split_loop]. rewrite <- E.
    rewrite (split_step_closed _ skip _ _ F G). destruct fuel; reflexivity.
  - assert (LL : length (p ++ g ++ c :: rest) = length p + length g + S (length rest))
      by (rewrite !app_length; cbn [length]; lia).
    assert (LG : 1 <= length g) by (destruct G as [_ [N _]]; destruct g; [easy|cbn; lia]).
    rewrite LL in L.
    destruct (p ++ g ++ c :: rest) as [|x q] eqn:E; [easy|].
    destruct fuel as [|fuel]; [lia|].
    cbn [split_loop]. rewrite <- E.
    rewrite (split_step_more _ skip _ _ _ _ F G NS).
    rewrite IH; [|easy|cbn [length]; lia].
    rewrite <- app_assoc. reflexivity.
Qed.

Lemma fields_ex sep skip line : exists ps, fields sep skip line ps.
Proof.
  remember (length line) as n eqn:E.
  assert (L : length line <= n) by lia. clear E. revert line L.
  induction n as [n IH] using lt_wf_ind. intros line L.
  destruct (span_ex (has sep) line) as [F|[p [d [b [E [D F]]]]]].
  - exists [line]. apply fields_last. intros c C. apply has_not_in. now apply F.
  - assert (FP : free_of sep p) by (intros c C; apply has_not_in; now apply F).
    assert (LL : length line = length p + S (length b))
      by (rewrite E, app_length; reflexivity).
    apply has_in in D. destruct skip.
    + destruct (span_ex (fun c => negb (has sep c)) b) as [A|[g [c [rest [Eb [C A]]]]]].
      * exists [p]. rewrite E. apply fields_closed; [easy|]. split; [|easy].
        intros x [<-|X]; [easy|]. apply has_in, negb_false_iff. now apply A.
      * assert (Lb : length b = length g + S (length rest))
          by (rewrite Eb, app_length; reflexivity).
        destruct (IH (length (c :: rest))) with (line := c :: rest) as [ps H];
          [cbn [length]; lia|lia|].
        exists (p :: ps). rewrite E, Eb.
        change (p ++ d :: g ++ c :: rest) with (p ++ (d :: g) ++ c :: rest).
        apply fields_more; [easy| | |easy].
        -- split; [|easy]. intros x [<-|X]; [easy|].
           apply has_in, negb_false_iff. now apply A.
        -- intros _. apply has_not_in, negb_true_iff. exact C.
    + destruct b as [|c rest].
      * exists [p]. rewrite E. apply fields_closed; [easy|].
        split; [|easy]. intros x [<-|[]]. easy.
      * destruct (IH (length (c :: rest))) with (line := c :: rest) as [ps H];
          [cbn [length] in *; lia|lia|].
        exists (p :: ps). rewrite E.
        change (p ++ d :: c :: rest) with (p ++ [d] ++ c :: rest).
        apply fields_more; [easy| |easy|easy].
        split; [|easy]. intros x [<-|[]]. easy.
Qed.

Lemma split_of_fields sep skip line ps : fields sep skip line ps ->
  split line sep skip = ps.
Proof.
  intros H. destruct line as [|c line].
  - unfold split. inversion H as [p F E1 E2|p g F G E1 E2|p g c rest qs F G NS I E1 E2].
    + easy.
    + destruct G as [_ [N _]]. apply app_eq_nil in E1. now destruct E1.
    + apply app_eq_nil in E1 as [_ E1].
      apply app_eq_nil in E1 as [_ E1]. easy.
  - unfold split. rewrite (split_loop_fuel sep skip (c :: line) ps H); easy.
Qed.

(* ---- join ------------------------------------------------------------- *)

Lemma join_fold sep vs : forall v,
  fold_left (join_step sep) vs v = v ++ concat (map (fun w => sep ++ w) vs).
Proof.
  induction vs as [|w vs IH]; intros v; cbn [fold_left map concat].
  - now rewrite app_nil_r.
  - rewrite IH. unfold join_step. rewrite <- !app_assoc. reflexivity.
Qed.

Lemma join_cons sep v w vs : join sep (v :: w :: vs) = v ++ sep ++ join sep (w :: vs).
Proof.
  unfold join. rewrite !join_fold. cbn [map concat]. rewrite <- !app_assoc. reflexivity.
Qed.

(* ---- decimal numbers -------------------------------------------------- *)

Lemma digit_ascii d : d < 10 -> nat_of_ascii (ascii_of_nat (digit0 + d)) = 48 + d.
Proof. intros H. unfold digit0. apply nat_ascii_embedding. lia. Qed.

Lemma decimal_acc t : forall v,
  fold_left (fun v c => (10 * v + N.of_nat (nat_of_ascii c - 48))%N) t v
  = (v * 10 ^ N.of_nat (length t) + decimal t)%N.
Proof.
  induction t as [|c t IH]; intros v.
  - cbn. lia.
  - unfold decimal. cbn [fold_left length]. rewrite IH.
    rewrite (IH (10 * 0 + _)%N).
    rewrite Nat2N.inj_succ, N.pow_succ_r by lia. lia.
Qed.

Lemma decimal_app a b :
  decimal (a ++ b) = (decimal a * 10 ^ N.of_nat (length b) + decimal b)%N.
Proof. unfold decimal at 1. rewrite fold_left_app. apply decimal_acc. Qed.

Lemma size_nat_bound n : (n < 2 ^ N.of_nat (N.size_nat n))%N.
Proof.
  destruct n as [|p]; [cbn; lia|]. cbn [N.size_nat].
  apply N.lt_le_trans with (1 := N.size_gt (Npos p)). cbn [N.size].
  apply N.pow_le_mono_r; [lia|].
  induction p; cbn [Pos.size Pos.size_nat]; lia.
Qed.

Lemma to_string_fuel_ok fuel : forall n, (n < 2 ^ N.of_nat fuel)%N -> fuel <> 0 ->
  Forall digit (to_string_fuel fuel n) /\
  decimal (to_string_fuel fuel n) = n /\
  to_string_fuel fuel n <> [] /\
  (hd "0"%char (to_string_fuel fuel n) = "0"%char -> n = 0%N) /\
  forall k, (n < 10 ^ N.of_nat (S k))%N -> length (to_string_fuel fuel n) <= S k.
Proof.
  induction fuel as [|fuel IH]; intros n B NZ; [easy|]. clear NZ.
  cbn [to_string_fuel].
  pose proof (N.mod_lt n 10 ltac:(lia)) as M.
  set (d := N.to_nat (n mod 10)).
  assert (Dd : d < 10) by (subst d; lia).
  pose proof (digit_ascii d Dd) as DA.
  set (c := ascii_of_nat (digit0 + d)) in *.
  assert (Dc : digit c) by (unfold digit; rewrite DA; lia).
  assert (Vc : forall v, decimal (v ++ [c]) = (10 * decimal v + n mod 10)%N).
  { intros v. unfold decimal. rewrite fold_left_app. cbn [fold_left]. rewrite DA.
    replace (48 + d - 48) with d by lia. subst d. now rewrite N2Nat.id. }
  destruct (n <? 10)%N eqn:E.
  - apply N.ltb_lt in E. cbn [app]. split; [now constructor|].
    split; [|split; [easy|split]].
    + pose proof (Vc []) as V. cbn [app] in V. rewrite V.
      rewrite N.mod_small by easy. unfold decimal. cbn [fold_left]. lia.
    + cbn [hd]. intros C. rewrite C in DA. cbn in DA.
      assert (d = 0) by lia. subst d. rewrite N.mod_small in * by easy. lia.
    + intros k _. cbn. lia.
  - apply N.ltb_ge in E.
    assert (F0 : fuel <> 0).
    { intros ->. cbn in B. lia. }
    assert (Q : (n / 10 < 2 ^ N.of_nat fuel)%N).
    { apply N.div_lt_upper_bound; [lia|].
      rewrite Nat2N.inj_succ, N.pow_succ_r in B by lia. lia. }
    destruct (IH (n / 10)%N Q F0) as [A1 [A2 [A3 [A4 A5]]]].
    pose proof (N.div_mod n 10 ltac:(lia)) as DM.
    assert (Q1 : (1 <= n / 10)%N) by (apply N.div_le_lower_bound; lia).
    split; [|split; [|split; [|split]]].
    + apply Forall_app. split; [easy|now constructor].
    + rewrite Vc, A2. lia.
    + intros H. now apply app_eq_nil in H.
    + destruct (to_string_fuel fuel (n / 10)) as [|x t]; [easy|].
      cbn [app hd] in *. intros H. apply A4 in H. lia.
    + intros k K. rewrite app_length. cbn [length].
      destruct k as [|k]; [cbn in K; lia|].
      assert (n / 10 < 10 ^ N.of_nat (S k))%N.
      { apply N.div_lt_upper_bound; [lia|].
        rewrite (Nat2N.inj_succ (S k)), N.pow_succ_r in K by lia. lia. }
      specialize (A5 k H). lia.
Qed.

Lemma to_string_ok n :
  Forall digit (to_string n) /\ decimal (to_string n) = n /\ to_string n <> [] /\
  (hd "0"%char (to_string n) = "0"%char -> n = 0%N) /\
  forall k, (n < 10 ^ N.of_nat (S k))%N -> length (to_string n) <= S k.
Proof.
  apply to_string_fuel_ok; [|easy].
  pose proof (size_nat_bound n). rewrite Nat2N.inj_succ, N.pow_succ_r by lia. lia.
Qed.

(* a group of three digits *)
Lemma zeros3_ok n : (n < 1000)%N ->
  exists z, zeros3 (length (to_string n)) = Ok z /\
    length (z ++ to_string n) = 3 /\ Forall digit (z ++ to_string n) /\
    decimal (z ++ to_string n) = n.
Proof.
  intros B. destruct (to_string_ok n) as [A1 [A2 [A3 [A4 A5]]]].
  specialize (A5 2 B).
  unfold zeros3. replace (Nat.leb (length (to_string n)) 3) with true
    by (symmetry; apply Nat.leb_le; lia).
  eexists. split; [reflexivity|]. split; [|split].
  - rewrite app_length, repeat_length. lia.
  - apply Forall_app. split; [|easy]. apply Forall_forall. intros x X.
    apply repeat_spec in X. subst x. unfold digit.
    change (nat_of_ascii (ascii_of_nat digit0)) with 48. lia.
  - rewrite decimal_app, A2.
    assert (Z : forall k, decimal (repeat (ascii_of_nat digit0) k) = 0%N).
    { intros k. unfold decimal. induction k as [|k IH]; [easy|].
      cbn [repeat fold_left].
      change (nat_of_ascii (ascii_of_nat digit0)) with 48. cbn. exact IH. }
    now rewrite Z.
Qed.
