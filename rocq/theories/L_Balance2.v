(** * Lemmas: balancing of variable-size records is a refinement of the balancing of fixed-size items *)
From Coq Require Import ZArith List Bool Arith Lia.
From Verif Require Import Base S_Order S_Containers M_Utils M_Packing M_Containers L_Merge L_Utils L_Balance.
Import ListNotations.

Section Various.
Context {A : Type}.
Notation part := (list (list A)).
Implicit Types (parts : list part) (p : part).

Definition size (p : part) : Z := Z.of_nat (length (concat p)).
Lemma size_app p q : size (p ++ q) = (size p + size q)%Z.
Proof. unfold size. rewrite concat_app, app_length. lia. Qed.
Lemma size_nonneg p : (0 <= size p)%Z.
Proof. unfold size. lia. Qed.

Lemma ends_app off p q : ends off (p ++ q) = ends off p ++ ends (off + size p) q.
Proof.
  revert off; induction p; intros off; simpl.
  - unfold size. simpl. f_equal. lia.
  - f_equal. rewrite IHp. f_equal. unfold size. simpl. rewrite app_length. f_equal. lia.
Qed.
Lemma ends_length off p : length (ends off p) = length p.
Proof. revert off; induction p; intros; simpl; auto. Qed.
Lemma ends_last off p d : p <> [] -> last (ends off p) d = (off + size p)%Z.
Proof.
  intros H. destruct (exists_last H) as (q & r & ->). rewrite ends_app. simpl. rewrite last_last.
  rewrite size_app. unfold size at 3. simpl. rewrite app_nil_r. lia.
Qed.
Lemma ends_firstn off p k : firstn k (ends off p) = ends off (firstn k p).
Proof.
  rewrite <- (firstn_skipn k p) at 1. rewrite ends_app, firstn_app, ends_length, firstn_length.
  destruct (Nat.le_ge_cases k (length p)).
  - rewrite Nat.min_l by auto. rewrite Nat.sub_diag. simpl. rewrite app_nil_r.
    rewrite firstn_all2; auto. rewrite ends_length, firstn_length. lia.
  - rewrite skipn_all2 by auto. simpl. rewrite firstn_nil, app_nil_r. apply firstn_all2. rewrite ends_length, firstn_length. lia.
Qed.
Lemma ends_skipn off p k : skipn k (ends off p) = ends (off + size (firstn k p)) (skipn k p).
Proof.
  rewrite <- (firstn_skipn k p) at 1. rewrite ends_app, skipn_app, ends_length, firstn_length.
  destruct (Nat.le_ge_cases k (length p)).
  - rewrite Nat.min_l by auto. rewrite Nat.sub_diag. simpl.
    rewrite skipn_all2; auto. rewrite ends_length, firstn_length. lia.
  - rewrite (skipn_all2 p) by auto. simpl. rewrite skipn_nil, app_nil_r. apply skipn_all2. rewrite ends_length, firstn_length. lia.
Qed.
Lemma ends_nth off p k : k < length p -> nth k (ends off p) 0%Z = (off + size (firstn (S k) p))%Z.
Proof.
  intros H. rewrite <- (nth_firstn_lt (S k)) by lia. rewrite ends_firstn.
  assert (L : length (firstn (S k) p) = S k) by (rewrite firstn_length; lia).
  rewrite <- (ends_last off (firstn (S k) p) 0%Z) by (intros E; rewrite E in L; discriminate).
  assert (G : forall l : list Z, length l = S k -> nth k l 0%Z = last l 0%Z).
  { clear. intros l. revert k. induction l as [|a l IH]; intros k H; [discriminate|]. destruct l as [|b l].
    - simpl in H. assert (k = 0) by lia. subst. reflexivity.
    - destruct k; [discriminate|]. change (nth k (b :: l) 0%Z = last (b :: l) 0%Z). apply IH. simpl in *. lia. }
  apply G. now rewrite ends_length.
Qed.

Definition conc parts : bstate A :=
  (thread_boundaries parts, map (@concat A) parts, map (fun p => Z.of_nat (length p)) parts).

Lemma tb_length parts : length (thread_boundaries parts) = length parts.
Proof. unfold thread_boundaries. now rewrite map_length, seq_length. Qed.
Lemma tb_nth parts t : t < length parts ->
  nth t (thread_boundaries parts) [] =
  (if t =? 0 then [0%Z] else []) ++ ends (elements_before parts t) (nth t parts []).
Proof.
  intros H. unfold thread_boundaries. now rewrite nth_map_seq.
Qed.

Lemma eb_S parts t : t < length parts -> elements_before parts (S t) = (elements_before parts t + size (nth t parts []))%Z.
Proof.
  intros H. unfold elements_before, size.
  assert (G : forall n (l : list part), n < length l -> firstn (S n) l = firstn n l ++ [nth n l []]).
  { induction n; intros [|a l] Hl; simpl in *; try lia; auto. f_equal. apply IHn. lia. }
  rewrite G by auto. rewrite concat_app, concat_app, app_length. simpl. rewrite app_nil_r. lia.
Qed.

Lemma last_cons_ne {B} (a : B) l d : l <> [] -> last (a :: l) d = last l d.
Proof. destruct l; [congruence|reflexivity]. Qed.

Lemma last_nonempty_tb parts k : 0 < k <= length parts ->
  last_nonempty (thread_boundaries parts) k = Ok (elements_before parts k).
Proof.
  induction k; intros H; [lia|]. cbn [last_nonempty].
  rewrite (rd_ok _ _ []) by (rewrite tb_length; lia). cbn [obind].
  rewrite tb_nth by lia. rewrite eb_S by lia.
  destruct k.
  - simpl. destruct (nth 0 parts []) as [|r rs] eqn:E.
    + simpl. f_equal.
    + cbn [app ends]. 
      change (Ok (last (0%Z :: ends (elements_before parts 0) (r :: rs)) 0%Z) = Ok (elements_before parts 0 + size (r :: rs))%Z).
      rewrite last_cons_ne by discriminate. now rewrite ends_last by discriminate.
  - simpl app. destruct (nth (S k) parts []) as [|r rs] eqn:E.
    + cbn [ends]. rewrite IHk by lia. f_equal. unfold size. simpl. lia.
    + rewrite <- (ends_last (elements_before parts (S k)) (r :: rs) 0%Z) by discriminate. reflexivity.
Qed.

Lemma map_upd {B C} (f : B -> C) l i v : map f (upd l i v) = upd (map f l) i (f v).
Proof. revert i; induction l; intros [|i]; simpl; auto. now rewrite IHl. Qed.
Lemma firstn_upd {B} (l : list B) i n v : firstn n (upd l i v) = upd (firstn n l) i v.
Proof. revert i n; induction l; intros [|i] [|n]; simpl; auto. now rewrite IHl. Qed.

Lemma concat_move {B} (l : list (list B)) t tt a b : t < tt < length l ->
  (forall k, t < k < tt -> nth k l [] = []) -> a ++ b = nth t l [] ++ nth tt l [] ->
  concat (upd (upd l t a) tt b) = concat l.
Proof.
  intros H Hk Eab. set (d2 := upd (upd l t a) tt b).
  assert (N2 : forall k, nth k d2 [] = if tt =? k then b else if t =? k then a else nth k l []).
  { intros. unfold d2. rewrite nth_upd by (rewrite upd_length; lia). destruct (tt =? k); auto. rewrite nth_upd by lia. reflexivity. }
  rewrite (concat_gap d2 t tt); [|unfold d2; rewrite !upd_length; lia|].
  - rewrite !N2, Nat.eqb_refl. destruct (Nat.eqb_spec tt t); [lia|]. rewrite Nat.eqb_refl.
    unfold d2. rewrite !firstn_upd_ge by lia. rewrite !skipn_upd_lt by lia.
    rewrite (concat_gap l t tt) by (auto; lia). f_equal. rewrite !app_assoc. f_equal. exact Eab.
  - intros k Hk2. rewrite N2. destruct (Nat.eqb_spec tt k); [lia|]. destruct (Nat.eqb_spec t k); [lia|]. apply Hk. lia.
Qed.

Lemma concat_prefix {B} (l : list (list B)) t tt : t < tt <= length l ->
  (forall k, t < k < tt -> nth k l [] = []) -> concat (firstn tt l) = concat (firstn t l) ++ nth t l [].
Proof.
  intros H Hk. rewrite (concat_split (firstn tt l) t) by (rewrite firstn_length; lia).
  rewrite firstn_firstn, Nat.min_l by lia. rewrite nth_firstn_lt by lia. f_equal.
  rewrite (concat_nils (skipn (S t) (firstn tt l))), app_nil_r; auto.
  intros i Hi. rewrite skipn_length, firstn_length in Hi. rewrite nth_skipn, nth_firstn_lt by lia. apply Hk. lia.
Qed.

(** moving records between thread [t] and [tt] *)
Lemma tb_move parts t tt a b : t < tt < length parts ->
  (forall k, t < k < tt -> nth k parts [] = []) -> a ++ b = nth t parts [] ++ nth tt parts [] ->
  thread_boundaries (upd (upd parts t a) tt b) =
  upd (upd (thread_boundaries parts) t ((if t =? 0 then [0%Z] else []) ++ ends (elements_before parts t) a)) tt
    (ends (elements_before parts t + size a) b).
Proof.
  intros H Hk Eab. set (p2 := upd (upd parts t a) tt b).
  assert (L2 : length p2 = length parts) by (unfold p2; now rewrite !upd_length).
  assert (N2 : forall k, nth k p2 [] = if tt =? k then b else if t =? k then a else nth k parts []).
  { intros. unfold p2. rewrite nth_upd by (rewrite upd_length; lia). destruct (tt =? k); auto. rewrite nth_upd by lia. reflexivity. }
  apply list_ext with (d := []); [rewrite !upd_length, !tb_length; lia|].
  intros k Hlk. rewrite tb_length in Hlk. rewrite tb_nth by lia.
  rewrite nth_upd by (rewrite upd_length, tb_length; lia). rewrite nth_upd by (rewrite tb_length; lia).
  rewrite N2.
  assert (EB1 : k <= t -> elements_before p2 k = elements_before parts k).
  { intros. unfold elements_before, p2. now rewrite !firstn_upd_ge by lia. }
  assert (EB2 : tt < k -> elements_before p2 k = elements_before parts k).
  { intros. unfold elements_before, p2. rewrite !firstn_upd. rewrite (concat_move (firstn k parts)); auto.
    - rewrite firstn_length; lia.
    - intros j Hj. rewrite nth_firstn_lt by lia. apply Hk; lia.
    - now rewrite !nth_firstn_lt by lia. }
  destruct (Nat.eqb_spec tt k) as [<-|].
  - destruct (Nat.eqb_spec tt 0); [lia|]. simpl. f_equal.
    unfold elements_before, size, p2. rewrite firstn_upd_ge by lia.
    rewrite (concat_prefix (upd parts t a) t tt).
    + rewrite firstn_upd_ge by lia. rewrite nth_upd_eq by lia. rewrite concat_app, app_length. lia.
    + rewrite upd_length. lia.
    + intros j Hj. rewrite nth_upd by lia. destruct (Nat.eqb_spec t j); [lia|]. apply Hk. lia.
  - destruct (Nat.eqb_spec t k) as [<-|].
    + now rewrite EB1 by lia.
    + rewrite tb_nth by lia. destruct (Nat.lt_ge_cases k t).
      * now rewrite EB1 by lia.
      * destruct (Nat.lt_ge_cases k tt).
        -- rewrite Hk by lia. reflexivity.
        -- now rewrite EB2 by lia.
Qed.

Lemma takeZ_app {B} (a b : list B) n : n = Z.of_nat (length a) -> takeZ n (a ++ b) = Ok (a, b).
Proof.
  intros ->. unfold takeZ. rewrite app_length.
  destruct (Z.leb_spec 0 (Z.of_nat (length a))); [|lia].
  destruct (Z.leb_spec (Z.of_nat (length a)) (Z.of_nat (length a + length b))); [|lia]. simpl.
  rewrite Nat2Z.id. rewrite firstn_app, Nat.sub_diag, firstn_all, skipn_app, Nat.sub_diag, skipn_all. simpl.
  now rewrite app_nil_r.
Qed.

Lemma rd_map {B C} (f : B -> C) l i d : i < length l -> rd (map f l) i = Ok (f (nth i l d)).
Proof. intros. rewrite (rd_ok _ _ (f d)) by (now rewrite map_length). now rewrite map_nth. Qed.

Lemma upd_comm {B} (l : list B) i j x y : i <> j -> upd (upd l i x) j y = upd (upd l j y) i x.
Proof. revert i j; induction l; intros [|i] [|j] H; simpl; auto; try lia. f_equal. apply IHl. lia. Qed.
Lemma fill_fixed_done {B} fuel need t tt (l : list (list B)) : t < length l -> need <= length (nth t l []) ->
  fill_fixed fuel need t tt l = Ok l.
Proof.
  intros H Hn. destruct fuel; cbn [fill_fixed]; rewrite (rd_ok _ _ []) by lia; cbn [obind];
    destruct (Nat.ltb_spec (length (nth t l [])) need); auto; lia.
Qed.
Lemma fill_various_done fuel need t tt parts : t < length parts -> need <= length (nth t parts []) ->
  fill_various fuel (Z.of_nat need) t tt (conc parts) = Ok (conc parts).
Proof.
  intros H Hn. destruct fuel; cbn [fill_various]; unfold conc at 1; rewrite (rd_map _ _ _ []) by lia; cbn [obind];
    destruct (Z.ltb_spec (Z.of_nat (length (nth t parts []))) (Z.of_nat need)); auto; lia.
Qed.

Lemma fill_sim need t : forall fuel tt parts parts',
  t < tt -> t < length parts -> (forall k, t < k < tt -> nth k parts [] = []) ->
  fill_fixed fuel need t tt parts = Ok parts' ->
  fill_various fuel (Z.of_nat need) t tt (conc parts) = Ok (conc parts').
Proof.
  induction fuel as [|fuel IH]; intros tt parts parts' Htt Hl Hk; cbn [fill_fixed fill_various]; unfold conc at 1;
    rewrite (rd_map _ _ _ []) by lia; rewrite (rd_ok _ _ []) by lia; cbn [obind];
    destruct (Nat.ltb_spec (length (nth t parts [])) need) as [Hlt|Hge];
    destruct (Z.ltb_spec (Z.of_nat (length (nth t parts []))) (Z.of_nat need)); try lia; try congruence.
  - intros E. injection E as <-. reflexivity.
  - destruct (Nat.lt_ge_cases tt (length parts)) as [Htl|Htl].
    2:{ unfold rd at 1. destruct (nth_error parts tt) eqn:En; [|discriminate].
        assert (tt < length parts) by (apply nth_error_Some; congruence). lia. }
    rewrite (rd_ok parts tt []) by lia. cbn [obind].
    rewrite (rd_map _ _ tt []) by lia. cbn [obind].
    rewrite (rd_ok (thread_boundaries parts) t []), (rd_ok (thread_boundaries parts) tt []) by (rewrite tb_length; lia). cbn [obind].
    rewrite !(rd_map _ _ _ []) by lia. cbn [obind].
    set (pt := nth t parts []) in *. set (ptt := nth tt parts []) in *.
    set (diff := need - length pt).
    rewrite !tb_nth by lia. fold pt ptt. destruct (Nat.eqb_spec tt 0); [lia|]. cbn [app].
    assert (Ett : elements_before parts tt = (elements_before parts t + size pt)%Z).
    { unfold elements_before, size. rewrite (concat_prefix parts t tt) by (auto; lia). rewrite concat_app, app_length. fold pt. lia. }
    destruct (Nat.ltb_spec diff (length ptt)) as [Hd|Hd];
      destruct (Z.ltb_spec (Z.of_nat need - Z.of_nat (length pt)) (Z.of_nat (length ptt))); try (unfold diff in *; lia).
    + rewrite last_nonempty_tb by lia. cbn [obind].
      unfold rdZ. destruct (Z.ltb_spec (Z.of_nat need - Z.of_nat (length pt) - 1) 0); [lia|].
      rewrite (rd_ok _ _ 0%Z) by (rewrite ends_length; lia). cbn [obind].
      rewrite ends_nth by lia.
      replace (S (Z.to_nat (Z.of_nat need - Z.of_nat (length pt) - 1))) with diff by (unfold diff; lia).
      set (a := firstn diff ptt). set (b := skipn diff ptt).
      assert (Eab : ptt = a ++ b) by (symmetry; apply firstn_skipn).
      assert (La : length a = diff) by (unfold a; rewrite firstn_length; lia).
      rewrite Eab at 1. rewrite concat_app, takeZ_app by (unfold size; lia). cbn [obind].
      rewrite Eab. rewrite ends_app. rewrite takeZ_app by (rewrite ends_length; unfold diff in *; lia). cbn [obind].
      repeat (rewrite wr_ok by (rewrite ?upd_length, ?map_length, ?tb_length; lia); cbn [obind]).
      rewrite fill_fixed_done.
      2:{ rewrite !upd_length; lia. }
      2:{ rewrite nth_upd by (rewrite upd_length; lia). destruct (Nat.eqb_spec tt t); [lia|].
          rewrite nth_upd_eq by lia. rewrite app_length. lia. }
      intros E. injection E as <-.
      rewrite <- (fill_various_done fuel need t (tt + 1) (upd (upd parts t (pt ++ a)) tt b)).
      2:{ rewrite !upd_length; lia. }
      2:{ rewrite nth_upd by (rewrite upd_length; lia). destruct (Nat.eqb_spec tt t); [lia|].
          rewrite nth_upd_eq by lia. rewrite app_length. lia. }
      f_equal. unfold conc. f_equal; [f_equal|].
      * rewrite tb_move by (auto; try lia; fold pt ptt; rewrite Eab; now rewrite app_assoc).
        f_equal. f_equal. rewrite <- app_assoc. f_equal. rewrite ends_app. f_equal. f_equal. lia.
        f_equal. rewrite size_app. lia.
      * rewrite !map_upd. f_equal. f_equal. now rewrite concat_app.
      * rewrite !map_upd. f_equal; [f_equal|]; rewrite ?app_length; lia.
    + repeat (rewrite wr_ok by (rewrite ?upd_length, ?map_length, ?tb_length; lia); cbn [obind]).
      intros E. rewrite <- (IH (tt + 1) (upd (upd parts t (pt ++ ptt)) tt [])); auto; try lia.
      * f_equal. unfold conc. f_equal; [f_equal|].
        -- rewrite tb_move by (auto; try lia; fold pt ptt; now rewrite app_nil_r).
           f_equal. f_equal. rewrite <- app_assoc. f_equal. rewrite ends_app. f_equal. f_equal. lia.
        -- rewrite !map_upd. f_equal. f_equal. now rewrite concat_app.
        -- rewrite !map_upd. rewrite ends_length. f_equal; [f_equal|]; rewrite ?app_length; simpl; lia.
      * rewrite !upd_length. lia.
      * intros k Hkk. rewrite nth_upd by (rewrite upd_length; lia).
        destruct (Nat.eqb_spec tt k); auto. rewrite nth_upd by lia. destruct (Nat.eqb_spec t k); [lia|apply Hk; lia].
  - intros E. injection E as <-. reflexivity.
Qed.

Lemma balance_step_sim dist t parts parts' :
  t < length parts -> t + 1 < length dist -> mono_list dist ->
  (t = 0 \/ nth t dist 0 < nth (t + 1) dist 0 \/ (forall k, t <= k -> nth k parts [] = [])) ->
  balance_fixed_step 1 dist parts t = Ok parts' ->
  balance_various_step dist (conc parts) t = Ok (conc parts').
Proof.
  intros Ht Hd Hm Hz. unfold balance_fixed_step, balance_various_step.
  rewrite (rd_ok dist t 0), (rd_ok dist (t + 1) 0) by lia. cbn [obind].
  assert (M : nth t dist 0 <= nth (t + 1) dist 0) by (apply Hm; lia).
  set (need := 1 * (nth (t + 1) dist 0 - nth t dist 0)).
  replace (Z.of_nat (nth (t + 1) dist 0%nat) - Z.of_nat (nth t dist 0%nat))%Z with (Z.of_nat need) by (unfold need; lia).
  replace (length (snd (conc parts))) with (length parts) by (unfold conc; cbn [snd]; now rewrite map_length).
  destruct (fill_fixed (length parts) need t (t + 1) parts) as [p1| |] eqn:Ef; cbn [obind]; try discriminate.
  rewrite (fill_sim need t (length parts) (t + 1) parts p1) by (auto; lia || (intros; lia)). cbn [obind].
  assert (L1 : length p1 = length parts).
  { clear - Ef. revert Ef. generalize (length parts) at 1 as fuel. generalize (t + 1) as tt. intros tt fuel. revert tt parts.
    induction fuel; intros tt parts; cbn [fill_fixed]; destruct (rd parts t); cbn [obind]; try discriminate;
      destruct (length a <? need); try discriminate; try congruence.
    destruct (rd parts tt) as [b| |]; cbn [obind]; try discriminate.
    destruct (need - length a <? length b); (destruct (wr parts t _) as [q| |] eqn:E1; cbn [obind]; try discriminate;
      destruct (wr q tt _) as [q'| |] eqn:E2; cbn [obind]; try discriminate; intros E; apply IHfuel in E;
      apply wr_inv in E1; apply wr_inv in E2; destruct E1 as [_ ->]; destruct E2 as [_ ->]; now rewrite !upd_length in E). }
  unfold conc at 1. rewrite (rd_map _ _ _ []), (rd_ok _ _ []) by lia. cbn [obind].
  set (pt := nth t p1 []).
  destruct (Nat.ltb_spec need (length pt)) as [Hlt|Hge]; destruct (Z.ltb_spec (Z.of_nat need) (Z.of_nat (length pt))); try lia.
  2:{ intros E. injection E as <-. reflexivity. }
  destruct (Nat.lt_ge_cases (t + 1) (length parts)) as [Hn|Hn].
  2:{ unfold rd at 1. destruct (nth_error p1 (t + 1)) eqn:En; [|discriminate].
      assert (t + 1 < length p1) by (apply nth_error_Some; congruence). lia. }
  rewrite (rd_ok p1 (t + 1) []) by lia. cbn [obind].
  rewrite !(rd_ok (thread_boundaries p1) _ []) by (rewrite tb_length; lia). cbn [obind].
  rewrite !(rd_map _ _ _ []) by lia. cbn [obind]. fold pt. set (pn := nth (t + 1) p1 []).
  rewrite !tb_nth by lia. fold pt pn. destruct (Nat.eqb_spec (t + 1) 0); [lia|]. cbn [app].
  set (z := if t =? 0 then [0%Z] else []).
  assert (Hz' : t = 0 \/ 0 < need).
  { destruct Hz as [Hz|[Hz|Hz]]; [auto|right; unfold need; lia|].
    exfalso. assert (Ed : need = 0 \/ 0 < need) by lia. destruct Ed as [Ed|Ed].
    - rewrite fill_fixed_done in Ef by (rewrite ?Ed; lia). injection Ef as <-. unfold pt in Hlt. rewrite Hz in Hlt by lia. simpl in Hlt. lia.
    - assert (G : need <= length pt -> False).
      { intros G.
        assert (C : forall fuel tt (q q' : list part), t < tt -> (forall k, t <= k -> nth k q [] = []) -> fill_fixed fuel need t tt q = Ok q' -> False).
        { clear - Ed. induction fuel; intros tt q q' Htt Hq; cbn [fill_fixed]; destruct (rd q t) as [a| |] eqn:Ea; cbn [obind]; try discriminate;
            apply rd_inv in Ea; apply nth_error_nth with (d := []) in Ea; rewrite Hq in Ea by lia; subst a; cbn [length];
            destruct (Nat.ltb_spec 0 need); try lia; try discriminate.
          destruct (rd q tt) as [b| |] eqn:Eb; cbn [obind]; try discriminate.
          apply rd_inv in Eb; apply nth_error_nth with (d := []) in Eb; rewrite Hq in Eb by lia; subst b. cbn [length].
          destruct (Nat.ltb_spec (need - 0) 0); [lia|].
          destruct (wr q t _) as [q1| |] eqn:E1; cbn [obind]; try discriminate.
          destruct (wr q1 tt _) as [q2| |] eqn:E2; cbn [obind]; try discriminate.
          apply wr_inv in E1; apply wr_inv in E2; destruct E1 as [H1 ->]; destruct E2 as [H2 ->].
          apply IHfuel; [lia|]. intros k Hk. rewrite nth_upd by auto. destruct (tt =? k); auto. rewrite nth_upd by auto. destruct (t =? k); auto. }
        eapply C; [| |exact Ef]; auto; lia. }
      apply G. lia. }
  set (a := firstn need pt). set (b := skipn need pt).
  assert (Eab : pt = a ++ b) by (symmetry; apply firstn_skipn).
  assert (La : length a = need) by (unfold a; rewrite firstn_length; lia).
  assert (Lz : (t = 0 /\ z = [0%Z]) \/ (t <> 0 /\ z = [])).
  { unfold z. destruct (Nat.eqb_spec t 0); auto. }
  set (off := elements_before p1 t). set (B := z ++ ends off pt).
  assert (LB : length B = length z + length pt) by (unfold B; now rewrite app_length, ends_length).
  assert (Hv1 : rdZ B (Z.of_nat (length B) - 1) = Ok (off + size pt)%Z).
  { unfold rdZ. destruct (Z.ltb_spec (Z.of_nat (length B) - 1) 0); [lia|].
    rewrite (rd_ok _ _ 0%Z) by lia. replace (Z.to_nat _) with (length z + (length pt - 1)) by lia.
    unfold B. rewrite app_nth2_plus.
    rewrite ends_nth by lia. f_equal. f_equal. f_equal. apply firstn_all2. lia. }
  assert (Hv0 : rdZ B (Z.of_nat (length B) - (Z.of_nat (length pt) - Z.of_nat need) - 1) = Ok (off + size a)%Z).
  { unfold rdZ. destruct Lz as [[T0 Ez]|[T0 Ez]].
    - destruct (Z.ltb_spec (Z.of_nat (length B) - (Z.of_nat (length pt) - Z.of_nat need) - 1) 0); [rewrite Ez in LB; simpl in LB; lia|].
      rewrite (rd_ok _ _ 0%Z) by lia. f_equal.
      destruct (Nat.eq_dec need 0) as [N0|N0].
      + replace (Z.to_nat _) with 0 by (rewrite Ez in LB; simpl in LB; lia).
        unfold B. rewrite Ez. simpl. unfold a. rewrite N0. unfold off. rewrite T0. reflexivity.
      + replace (Z.to_nat _) with (length z + (need - 1)) by lia. unfold B. rewrite app_nth2_plus.
        rewrite ends_nth by lia. f_equal. f_equal. unfold a. f_equal. lia.
    - destruct (Z.ltb_spec (Z.of_nat (length B) - (Z.of_nat (length pt) - Z.of_nat need) - 1) 0); [rewrite Ez in LB; simpl in LB; lia|].
      rewrite (rd_ok _ _ 0%Z) by lia. f_equal. replace (Z.to_nat _) with (length z + (need - 1)) by lia. unfold B. rewrite app_nth2_plus.
      rewrite ends_nth by lia. f_equal. f_equal. unfold a. f_equal. lia. }
  rewrite Hv1, Hv0. cbn [obind].
  assert (Ec : concat pt = concat a ++ concat b) by (rewrite Eab at 1; apply concat_app).
  rewrite Ec. rewrite takeZ_app.
  2:{ rewrite <- Ec. unfold size. rewrite Ec, app_length. lia. }
  cbn [obind].
  assert (EB : B = (z ++ ends off a) ++ ends (off + size a) b).
  { unfold B. rewrite Eab at 1. rewrite ends_app. now rewrite app_assoc. }
  rewrite LB. rewrite EB. rewrite takeZ_app by (rewrite app_length, ends_length; lia). cbn [obind].
  repeat (rewrite wr_ok by (rewrite ?upd_length, ?map_length, ?tb_length; lia); cbn [obind]).
  intros E. injection E as <-. unfold conc.
  assert (UC : forall (T : Type) (l : list T) x y, upd (upd l (t + 1) x) t y = upd (upd l t y) (t + 1) x).
  { intros T l x y. apply upd_comm. lia. }
  rewrite !UC. rewrite tb_move.
  - f_equal. f_equal; [f_equal|].
    + f_equal. rewrite ends_app. f_equal. f_equal. replace (t + 1) with (S t) by lia. rewrite eb_S by lia. fold off pt. rewrite Eab at 1. rewrite size_app. lia.
    + rewrite !map_upd. rewrite concat_app. reflexivity.
    + rewrite !map_upd. rewrite app_length. f_equal; [f_equal|]; unfold b; rewrite ?skipn_length; lia.
  - lia.
  - intros; lia.
  - fold pt pn. rewrite Eab at 1. now rewrite app_assoc.
Qed.
Lemma balance_various_ok dist parts :
  length dist = length parts + 1 -> parts <> [] -> mono_list dist ->
  length (concat parts) = last dist 0 - hd 0 dist ->
  (forall t, 0 < t < length parts -> nth t dist 0 = nth (t + 1) dist 0 -> nth (t + 1) dist 0 = last dist 0) ->
  exists parts', balance_various (thread_boundaries parts) (map (@concat A) parts) dist =
      Ok (thread_boundaries parts', map (@concat A) parts') /\
    length parts' = length parts /\ concat parts' = concat parts /\
    (forall t, t < length parts -> length (nth t parts' []) = nth (t + 1) dist 0 - nth t dist 0).
Proof.
  intros Hl Hne Hm Htot Hz.
  assert (Hlast : last dist 0 = nth (length parts) dist 0).
  { rewrite last_nth by (destruct dist; simpl in *; [lia|discriminate]). f_equal. lia. }
  assert (Hhd : hd 0 dist = nth 0 dist 0) by now destruct dist.
  assert (S0 : map (fun b => Z.of_nat (length b)) (thread_boundaries parts) =
    match map (fun p : part => Z.of_nat (length p)) parts with [] => [] | s :: r => (1 + s)%Z :: r end).
  { apply list_ext with (d := 0%Z).
    - rewrite map_length, tb_length. destruct parts; simpl; now rewrite ?map_length.
    - intros i Hi. rewrite map_length, tb_length in Hi.
      rewrite (nth_indep _ 0%Z (Z.of_nat (length (@nil Z)))) by (now rewrite map_length, tb_length).
      rewrite (map_nth (fun b => Z.of_nat (length b))). rewrite tb_nth by auto. rewrite app_length, ends_length.
      destruct parts as [|p0 ps]; [congruence|]. cbn [map]. destruct i.
      + cbn [nth]. simpl length. lia.
      + cbn [nth]. rewrite (nth_indep _ 0%Z (Z.of_nat (length (@nil (list A))))) by (rewrite map_length; simpl in Hi; lia).
        rewrite (map_nth (fun p : part => Z.of_nat (length p))). simpl. reflexivity. }
  unfold balance_various. rewrite S0.
  destruct parts as [|p0 ps] eqn:Ep; [congruence|]. rewrite <- Ep in *. 
  replace (map (fun p : part => Z.of_nat (length p)) parts) with (Z.of_nat (length p0) :: map (fun p : part => Z.of_nat (length p)) ps) in * by (now rewrite Ep).
  assert (F0 : forall l a, 0 < a -> (fold_left Nat.add l a =? 0) = false).
  { induction l; intros a0 Ha; simpl; [destruct (Nat.eqb_spec a0 0); auto; lia|]. apply IHl. lia. }
  assert (FB : (fold_left Nat.add (map (length (A:=Z)) (thread_boundaries parts)) 0 =? 0) = false).
  { assert (N0 : nth 0 (thread_boundaries parts) [] = 0%Z :: ends (elements_before parts 0) (nth 0 parts [])) by (rewrite tb_nth by (rewrite Ep; simpl; lia); reflexivity).
    assert (LL := tb_length parts). destruct (thread_boundaries parts) as [|b0 bs]; [rewrite Ep in LL; discriminate|].
    simpl in N0. subst b0. cbn [map fold_left]. apply F0. simpl. lia. }
  rewrite FB. destruct (Z.eqb_spec (1 + Z.of_nat (length p0)) 0); [lia|].
  replace (1 + Z.of_nat (length p0) - 1)%Z with (Z.of_nat (length p0)) by lia.
  change (Z.of_nat (length p0) :: map (fun p : part => Z.of_nat (length p)) ps) with (map (fun p : part => Z.of_nat (length p)) (p0 :: ps)).
  rewrite <- Ep. fold (conc parts). rewrite tb_length.
  destruct (foldM_seq_inv (balance_various_step dist)
    (fun t st => exists q, st = conc q /\ length q = length parts /\ concat q = concat parts /\
       (forall k, k < t -> length (nth k q []) = demand 1 dist k (S k))) 0 (length parts) (conc parts)) as (st & E & q & -> & L & C & P).
  - exists parts. repeat split; auto. intros; lia.
  - intros t st Ht (q & -> & L & C & P).
    assert (M : forall i j, i <= j <= length parts -> nth i dist 0 <= nth j dist 0) by (intros; apply Hm; lia).
    assert (Tq : length (concat q) = demand 1 dist 0 (length q)).
    { rewrite C, Htot, L, Hlast, Hhd. unfold demand. lia. }
    destruct (balance_fixed_step_ok 1 dist q t) as (q' & E & L' & C' & P'); try lia; auto.
    exists (conc q'). split.
    + apply balance_step_sim; auto; try lia.
      destruct (Nat.eq_dec t 0); [auto|]. right.
      assert (Hc : nth t dist 0 < nth (t + 1) dist 0 \/ nth t dist 0 = nth (t + 1) dist 0) by (pose proof (M t (t + 1)); lia).
      destruct Hc as [Hc|Hc]; [auto|]. right.
      assert (Hz' := Hz t ltac:(lia) Hc). rewrite Hlast in Hz'.
      assert (Hp := prefix_demand 1 dist q t t ltac:(lia) ltac:(lia) Hm P (le_n _)).
      assert (Hsk : length (concat (skipn t q)) = 0).
      { rewrite <- (firstn_skipn t q), concat_app, app_length in Tq. rewrite Hp in Tq. unfold demand in Tq.
        rewrite firstn_skipn in Tq. rewrite L in Tq. pose proof (M 0 t). lia. }
      intros k Hk. destruct (Nat.lt_ge_cases k (length q)) as [Hkl|Hkl]; [|now apply nth_overflow].
      rewrite (concat_split (skipn t q) (k - t)) in Hsk by (rewrite skipn_length; lia).
      rewrite !app_length in Hsk. rewrite nth_skipn in Hsk. replace (t + (k - t)) with k in Hsk by lia.
      destruct (nth k q []); auto. simpl in Hsk. lia.
    + exists q'. repeat split; auto; try congruence. intros; apply P'; lia.
  - exists q. rewrite E. cbn [obind]. unfold conc at 1. repeat split; auto.
    intros t Ht. rewrite P by lia. unfold demand. replace (t + 1) with (S t) by lia. lia.
Qed.
End Various.
