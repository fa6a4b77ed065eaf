(** * The targeted exchange *)
From Coq Require Import List Arith Bool Lia Permutation ZArith Sorted.
From Verif Require Import Base M_Mpi S_Mpi L_Mpi M_Comm L_Comm S_Comm S_Order L_Coll L_Coll2.
Import ListNotations.

Definition message_dec : forall a b : message, {a = b} + {a <> b}.
Proof. decide equality; [apply list_eq_dec, Z.eq_dec|apply Nat.eq_dec]. Defined.

Definition filt (r : nat) (X : list message) := filter (fun m => m_target m =? r) X.
Definition below (r : nat) (X : list message) := filter (fun m => m_target m <? r) X.
Definition above (r : nat) (X : list message) := filter (fun m => r <=? m_target m) X.
Definition tsorted (X : list message) : Prop := StronglySorted (fun a b => m_target a <= m_target b) X.
Definition tin (l r : nat) (X : list message) : Prop := Forall (fun m => l <= m_target m < r) X.

Lemma encodes_app a b : encodes (a ++ b) = encodes a ++ encodes b.
Proof. unfold encodes. rewrite map_app, concat_app. auto. Qed.
Lemma encodes_cons m a : encodes (m :: a) = encode m ++ encodes a.
Proof. reflexivity. Qed.
Lemma encode_len m : length (encode m) = length (m_data m) + 2.
Proof. unfold encode. rewrite app_length. cbn. lia. Qed.
Lemma encodes_len_ge a : 2 * length a <= length (encodes a).
Proof. induction a as [|m a IH]; [auto|]. rewrite encodes_cons, app_length, encode_len. cbn [length]. lia. Qed.

Lemma filter_none {A} (p : A -> bool) l : Forall (fun x => p x = false) l -> filter p l = [].
Proof. induction 1 as [|x l H _ IH]; cbn; auto. rewrite H. auto. Qed.
Lemma filter_all {A} (p : A -> bool) l : Forall (fun x => p x = true) l -> filter p l = l.
Proof. induction 1 as [|x l H _ IH]; cbn; auto. rewrite H, IH. auto. Qed.

Lemma below_low l r X : tin l r X -> below l X = [].
Proof. intros H. apply filter_none. eapply Forall_impl; [|exact H]. cbn. intros m Hm. apply Nat.ltb_ge. lia. Qed.

Lemma split_at r X : tsorted X -> X = below r X ++ above r X.
Proof.
  induction 1 as [|m X S1 IH F]; [auto|]. unfold below, above in *. cbn [filter].
  destruct (Nat.ltb_spec (m_target m) r) as [L|L]; destruct (Nat.leb_spec r (m_target m)) as [L'|L']; try lia.
  - cbn [app]. f_equal. auto.
  - assert (filter (fun m0 => m_target m0 <? r) X = []) as E.
    { apply filter_none. eapply Forall_impl; [|exact F]. cbn. intros x Hx. apply Nat.ltb_ge. lia. }
    rewrite E in *. cbn [app] in *. f_equal. auto.
Qed.

Lemma tsorted_filter p X : tsorted X -> tsorted (filter p X).
Proof.
  induction 1 as [|m X S1 IH F]; cbn; [constructor|]. destruct (p m); auto. constructor; auto.
  rewrite Forall_forall in *. intros x Hx. apply filter_In in Hx. apply F. tauto.
Qed.

Lemma below_next r X : tsorted X -> below (r + 1) X = below r X ++ filt r X.
Proof.
  intros H. rewrite (split_at r X H) at 1. unfold below at 1. rewrite filter_app. f_equal.
  - apply filter_all. apply Forall_forall. intros x Hx. unfold below in Hx. apply filter_In in Hx.
    apply Nat.ltb_lt. destruct Hx as [_ Hx]. apply Nat.ltb_lt in Hx. lia.
  - clear H. unfold above, filt. induction X as [|m X IH]; cbn [filter]; auto.
    destruct (Nat.leb_spec r (m_target m)) as [L|L]; cbn [filter];
      destruct (Nat.ltb_spec (m_target m) (r + 1)), (Nat.eqb_spec (m_target m) r); try lia; cbn [filter]; auto; f_equal; auto.
Qed.

(** ** movebefore *)
Lemma move_ok r C : forall B fuel pre, tsorted B -> length B < fuel ->
  move_loop fuel (encodes pre ++ encodes B ++ C) r (length (encodes pre)) (length (encodes pre) + length (encodes B)) =
  Ok (length (encodes (pre ++ below r B))).
Proof.
  induction B as [|m B IH]; intros fuel pre HS Hf; (destruct fuel as [|fuel]; [cbn in Hf; lia|]); cbn [move_loop].
  - cbn [encodes map concat length]. rewrite Nat.add_0_r, Nat.ltb_irrefl. cbn [below filter]. rewrite app_nil_r. auto.
  - rewrite encodes_cons, app_length, encode_len.
    destruct (Nat.ltb_spec (length (encodes pre)) (length (encodes pre) + (length (m_data m) + 2 + length (encodes B)))); [|lia].
    inversion HS as [|? ? HS1 HS2]; subst.
    assert (E1 : rd (encodes pre ++ (encode m ++ encodes B) ++ C) (length (encodes pre) + 1) = Ok (Z.of_nat (m_target m))).
    { unfold rd. rewrite nth_error_app2 by lia. replace (length (encodes pre) + 1 - length (encodes pre)) with 1 by lia. reflexivity. }
    assert (E2 : rd (encodes pre ++ (encode m ++ encodes B) ++ C) (length (encodes pre)) = Ok (Z.of_nat (length (m_data m) + 2))).
    { unfold rd. rewrite nth_error_app2 by lia. rewrite Nat.sub_diag. reflexivity. }
    rewrite E1, E2. destruct (Z.ltb_spec (Z.of_nat (m_target m)) (Z.of_nat r)) as [L|L].
    + destruct (Z.leb_spec (Z.of_nat (length (m_data m) + 2)) 0); [lia|]. rewrite Nat2Z.id.
      cbn [below filter]. destruct (Nat.ltb_spec (m_target m) r); [|lia].
      specialize (IH fuel (pre ++ [m]) HS1 ltac:(cbn in Hf; lia)).
      assert (E3 : encodes (pre ++ [m]) = encodes pre ++ encode m).
      { rewrite encodes_app. f_equal. unfold encodes. cbn [map concat]. apply app_nil_r. }
      rewrite E3, app_length, encode_len in IH. rewrite <- !app_assoc in IH. rewrite <- !app_assoc. cbn [app] in IH.
      unfold below in IH. rewrite <- IH. f_equal. lia.
    + unfold below. rewrite filter_none, app_nil_r; auto. constructor; [apply Nat.ltb_ge; lia|].
      eapply Forall_impl; [|exact HS2]. cbn. intros x Hx. apply Nat.ltb_ge. lia.
Qed.

Section Moves.
  Context {A : Type}.
  Local Notation P := (prog (list Z) A).

  (** the messages [B] lie between [pre] and [C] *)
  Lemma mb_ok data r pre B C b e (k : nat -> P) : data = encodes pre ++ encodes B ++ C -> tsorted B ->
    b = length (encodes pre) -> e = length (encodes pre) + length (encodes B) -> mb data r b e k = k (length (encodes pre) + length (encodes (below r B))).
  Proof.
    intros -> HS -> ->. unfold mb, movebefore. rewrite move_ok; auto.
    - rewrite encodes_app, app_length. auto.
    - rewrite !app_length. pose proof (encodes_len_ge B). lia.
  Qed.

  Lemma ins_ok data pre X C b e (k : list Z -> P) : data = encodes pre ++ encodes X ++ C ->
    b = length (encodes pre) -> e = length (encodes pre) + length (encodes X) -> ins b e data k = k (encodes X).
  Proof.
    intros -> -> ->. unfold ins.
    rewrite (proj2 (Nat.leb_le (length (encodes pre)) (length (encodes pre) + length (encodes X)))) by lia.
    rewrite (proj2 (Nat.leb_le (length (encodes pre) + length (encodes X)) _)) by (rewrite !app_length; lia). cbn [andb].
    f_equal. unfold slice. rewrite skipn_app, skipn_all2, Nat.sub_diag by lia. cbn [app skipn].
    replace (length (encodes pre) + length (encodes X) - length (encodes pre)) with (length (encodes X)) by lia.
    rewrite firstn_app, firstn_all, Nat.sub_diag. cbn [firstn]. apply app_nil_r.
  Qed.

  (** moving over the messages of one rank *)
  Lemma mb_rank data r pre X C b e (k : nat -> P) : data = encodes pre ++ encodes X ++ C -> tsorted X ->
    b = length (encodes pre) + length (encodes (below r X)) -> e = length (encodes pre) + length (encodes X) ->
    mb data (r + 1) b e k = k (length (encodes pre) + length (encodes (below (r + 1) X))).
  Proof.
    intros -> HS -> ->.
    rewrite (mb_ok _ (r + 1) (pre ++ below r X) (above r X) C).
    - rewrite !encodes_app, !app_length. f_equal. rewrite <- Nat.add_assoc. f_equal.
      rewrite <- app_length, <- encodes_app. f_equal. f_equal.
      rewrite (split_at r X HS) at 3. unfold below at 3. rewrite filter_app. f_equal.
      symmetry. apply filter_all. apply Forall_forall. intros x Hx. apply filter_In in Hx. destruct Hx as [_ Hx].
      apply Nat.ltb_lt in Hx. apply Nat.ltb_lt. lia.
    - rewrite (split_at r X HS) at 1. rewrite !encodes_app, <- !app_assoc. auto.
    - apply tsorted_filter; auto.
    - rewrite encodes_app, app_length. auto.
    - rewrite encodes_app, app_length. rewrite (split_at r X HS) at 1. rewrite encodes_app, app_length. lia.
  Qed.

  Lemma ins_rank data r pre X C b e (k : list Z -> P) : data = encodes pre ++ encodes X ++ C -> tsorted X ->
    b = length (encodes pre) + length (encodes (below r X)) -> e = length (encodes pre) + length (encodes (below (r + 1) X)) ->
    ins b e data k = k (encodes (filt r X)).
  Proof.
    intros -> HS -> ->. apply ins_ok with (pre := pre ++ below r X) (C := encodes (above (r + 1) X) ++ C).
    - rewrite (split_at (r + 1) X HS) at 1. rewrite below_next by auto. rewrite !encodes_app, <- !app_assoc. auto.
    - rewrite encodes_app, app_length. auto.
    - rewrite below_next by auto. rewrite !encodes_app, !app_length. lia.
  Qed.

  Definition lower_send (rank : nat) (Y X : list message) (s c : nat) : list message :=
    concat (map (fun q => if q =? rank then [] else filt q Y ++ filt q X) (seq s c)).
  Definition for_rank (rank : nat) (Y : list message) (s c : nat) : list message :=
    concat (map (fun q => if q =? rank then filt q Y else []) (seq s c)).

  Lemma aa_lower_ok rank Y X (HY : tsorted Y) (HX : tsorted X) : forall todo r send rbuf (k : list Z * list Z -> P),
    aa_lower todo r rank (encodes Y) (encodes X) (length (encodes (below r Y))) (length (encodes (below r X))) send rbuf k =
    k (send ++ encodes (lower_send rank Y X r todo), rbuf ++ encodes (for_rank rank Y r todo)).
  Proof.
    induction todo as [|todo IH]; intros r send rbuf k; cbn [aa_lower].
    - unfold lower_send, for_rank. cbn. rewrite !app_nil_r. auto.
    - rewrite (mb_rank _ r [] Y []) by (auto; cbn; rewrite ?app_nil_r; auto). cbn [encodes map concat length Nat.add].
      fold (encodes (below (r + 1) Y)).
      rewrite (mb_rank _ r [] X []) by (auto; cbn; rewrite ?app_nil_r; auto). cbn [encodes map concat length Nat.add].
      fold (encodes (below (r + 1) X)).
      unfold lower_send, for_rank. cbn [seq map concat]. replace (S r) with (r + 1) by lia.
      destruct (Nat.eqb_spec r rank) as [E|N].
      + rewrite (ins_rank _ r [] Y []) by (auto; cbn; rewrite ?app_nil_r; auto).
        rewrite IH. rewrite !encodes_app, <- !app_assoc. reflexivity.
      + rewrite (ins_rank _ r [] Y []) by (auto; cbn; rewrite ?app_nil_r; auto).
        rewrite (ins_rank _ r [] X []) by (auto; cbn; rewrite ?app_nil_r; auto).
        rewrite IH. rewrite !encodes_app, <- !app_assoc. auto.
  Qed.

  Definition upper_send (rank : nat) (Y W X : list message) (s c : nat) : list message :=
    concat (map (fun q => if q =? rank then [] else filt q Y ++ filt q W ++ filt q X) (seq s c)).
  Definition for_rank2 (rank : nat) (Y W : list message) (s c : nat) : list message :=
    concat (map (fun q => if q =? rank then filt q Y ++ filt q W else []) (seq s c)).

  Lemma aa_upper_ok rank Y W X (HY : tsorted Y) (HW : tsorted W) (HX : tsorted X) : forall todo r send rbuf (k : list Z * list Z -> P),
    aa_upper todo r rank (encodes Y ++ encodes W) (encodes X) (length (encodes Y)) (length (encodes (below r Y)))
      (length (encodes Y) + length (encodes (below r W))) (length (encodes (below r X))) send rbuf k =
    k (send ++ encodes (upper_send rank Y W X r todo), rbuf ++ encodes (for_rank2 rank Y W r todo)).
  Proof.
    induction todo as [|todo IH]; intros r send rbuf k; cbn [aa_upper].
    - unfold upper_send, for_rank2. cbn. rewrite !app_nil_r. auto.
    - rewrite (mb_rank _ r [] Y (encodes W)) by (auto; cbn; rewrite ?app_nil_r; auto). cbn [encodes map concat length Nat.add].
      fold (encodes (below (r + 1) Y)). fold (encodes Y). fold (encodes W).
      rewrite (mb_rank _ r Y W []) by (auto; rewrite ?app_nil_r, ?app_length; auto).
      rewrite (mb_rank _ r [] X []) by (auto; cbn; rewrite ?app_nil_r; auto). cbn [encodes map concat length Nat.add].
      fold (encodes (below (r + 1) X)). fold (encodes X).
      unfold upper_send, for_rank2. cbn [seq map concat]. replace (S r) with (r + 1) by lia.
      destruct (Nat.eqb_spec r rank) as [E|N].
      + rewrite (ins_rank _ r [] Y (encodes W)) by (auto; cbn; rewrite ?app_nil_r; auto).
        rewrite (ins_rank _ r Y W []) by (auto; rewrite ?app_nil_r; auto).
        rewrite IH. rewrite !encodes_app, <- !app_assoc. auto.
      + rewrite (ins_rank _ r [] Y (encodes W)) by (auto; cbn; rewrite ?app_nil_r; auto).
        rewrite (ins_rank _ r Y W []) by (auto; rewrite ?app_nil_r; auto).
        rewrite (ins_rank _ r [] X []) by (auto; cbn; rewrite ?app_nil_r; auto).
        rewrite IH. rewrite !encodes_app, <- !app_assoc. auto.
  Qed.
End Moves.

(** ** Sums of counts *)
Definition nsum (f : nat -> nat) (s c : nat) : nat := list_sum (map f (seq s c)).
Lemma nsum_split f s a b : nsum f s (a + b) = nsum f s a + nsum f (s + a) b.
Proof. unfold nsum. rewrite seq_app, map_app, list_sum_app. auto. Qed.
Lemma nsum_ext f g s c : (forall i, s <= i < s + c -> f i = g i) -> nsum f s c = nsum g s c.
Proof. intros H. unfold nsum. f_equal. apply map_ext_in. intros i Hi. apply in_seq in Hi. apply H. lia. Qed.
Lemma nsum_one f s : nsum f s 1 = f s.
Proof. unfold nsum. cbn. lia. Qed.
Lemma nsum_shift f s h c : nsum (fun i => f (i + h)) s c = nsum f (s + h) c.
Proof. unfold nsum. f_equal. revert s. induction c as [|c IH]; intros s; cbn; auto. f_equal. exact (IH (S s)). Qed.
Lemma nsum_add f g s c : nsum (fun i => f i + g i) s c = nsum f s c + nsum g s c.
Proof. unfold nsum. generalize (seq s c). intros l. induction l as [|x l IH]; [auto|]. cbn [map list_sum fold_right]. unfold list_sum in IH. lia. Qed.
Lemma nsum_zero s c : nsum (fun _ => 0) s c = 0.
Proof. unfold nsum. generalize (seq s c). intros l. induction l; cbn; auto. Qed.
Lemma nsum_pick f t s c : s <= t < s + c -> nsum (fun i => if i =? t then 0 else f i) s c + f t = nsum f s c.
Proof.
  intros H. replace c with ((t - s) + (1 + (s + c - t - 1))) by lia. rewrite !nsum_split, !nsum_one.
  replace (s + (t - s)) with t by lia. rewrite Nat.eqb_refl.
  rewrite (nsum_ext (fun i => if i =? t then 0 else f i) f s (t - s)).
  2:{ intros i Hi. destruct (Nat.eqb_spec i t); [lia|auto]. }
  rewrite (nsum_ext (fun i => if i =? t then 0 else f i) f (t + 1)).
  2:{ intros i Hi. destruct (Nat.eqb_spec i t); [lia|auto]. }
  lia.
Qed.

Local Notation cnt := (count_occ message_dec).
Lemma cnt_filter p X x : cnt (filter p X) x = if p x then cnt X x else 0.
Proof.
  induction X as [|m X IH]; cbn; [destruct (p x); auto|]. destruct (message_dec m x) as [->|N].
  - destruct (p x) eqn:E; cbn; [destruct (message_dec x x); [lia|congruence]|]. auto.
  - destruct (p m) eqn:E; cbn; [destruct (message_dec m x); [congruence|auto]|]. auto.
Qed.
Lemma cnt_concat (F : nat -> list message) x s c : cnt (concat (map F (seq s c))) x = nsum (fun q => cnt (F q) x) s c.
Proof. unfold nsum. induction (seq s c) as [|q l IH]; cbn; auto. rewrite count_occ_app. rewrite IH. auto. Qed.

Lemma cnt_by_target (F : nat -> list message) x s c : (forall q, Forall (fun m => m_target m = q) (F q)) ->
  cnt (concat (map F (seq s c))) x = if inr s (s + c) (m_target x) then cnt (F (m_target x)) x else 0.
Proof.
  intros HF. rewrite cnt_concat.
  assert (Z : forall q, q <> m_target x -> cnt (F q) x = 0).
  { intros q Hq. apply count_occ_not_In. intros Hx. specialize (HF q). rewrite Forall_forall in HF. apply HF in Hx. congruence. }
  destruct (inr_spec s (s + c) (m_target x)) as [H|H].
  - rewrite <- (nsum_pick (fun q => cnt (F q) x) (m_target x) s c H).
    rewrite (nsum_ext _ (fun _ => 0)). { rewrite nsum_zero. auto. }
    intros i Hi. destruct (Nat.eqb_spec i (m_target x)); auto.
  - rewrite (nsum_ext _ (fun _ => 0)). { apply nsum_zero. } intros i Hi. apply Z. lia.
Qed.

Lemma sorted_by_target (F : nat -> list message) s c : (forall q, Forall (fun m => m_target m = q) (F q)) ->
  tsorted (concat (map F (seq s c))) /\ tin s (s + c) (concat (map F (seq s c))).
Proof.
  intros HF. revert s. induction c as [|c IH]; intros s; cbn; [split; constructor|].
  destruct (IH (S s)) as (S1 & T1). split.
  - assert (forall X, Forall (fun m => m_target m = s) X -> tsorted (X ++ concat (map F (seq (S s) c)))) as G; [|apply G, HF].
    induction X as [|m X IHX]; intros HX; auto. inversion HX as [|? ? E HX']; subst. cbn. constructor; [exact (IHX HX')|].
    apply Forall_app. split.
    + eapply Forall_impl; [|exact HX']. cbn. intros; lia.
    + eapply Forall_impl; [|exact T1]. cbn. intros; lia.
  - apply Forall_app. split.
    + eapply Forall_impl; [|apply HF]. cbn. intros; lia.
    + eapply Forall_impl; [|exact T1]. cbn. intros; lia.
Qed.

Lemma filt_target q X : Forall (fun m => m_target m = q) (filt q X).
Proof. apply Forall_forall. intros x Hx. apply filter_In in Hx. apply Nat.eqb_eq. tauto. Qed.

(** ** One round *)
Section Round.
  Context {A : Type}.
  Variable n : nat.
  Variable rb : nat -> list Z.
  Local Notation Gh := (list message * list message)%type.

  Definition a2a_emb (i : nat) (g : Gh) : list Z * list Z := (encodes (fst g), rb i ++ encodes (snd g)).
  Definition a2a_pre (l r : nat) (g : nat -> Gh) : Prop := forall i, l <= i < r -> tsorted (fst (g i)) /\ tin l r (fst (g i)).
  Definition a2a_post (l r : nat) (g gF : nat -> Gh) : Prop := forall t x, l <= t < r ->
    cnt (snd (gF t)) x = cnt (snd (g t)) x +
      if m_target x =? t then nsum (fun i => if i =? t then 0 else cnt (fst (g i)) x) l (r - l) else 0.

  Definition a2a_next (l r : nat) (g : nat -> Gh) (i : nat) : Gh :=
    let mid := rh_mid l r in
    let h := mid - l in
    let X := fun q => fst (g q) in
    if i <? mid then
      if rh_odd i l r then (below i (X i), snd (g i))
      else (lower_send i (below mid (X (i + h))) (X i) l h, snd (g i) ++ for_rank i (below mid (X (i + h))) l h)
    else
      let W := if rh_treatodd i l r then above mid (X (mid - 1)) else [] in
      (upper_send i (above mid (X (i - h))) W (X i) mid (r - mid), snd (g i) ++ for_rank2 i (above mid (X (i - h))) W mid (r - mid)).

  Lemma tin_above l mid r X : tin l r X -> tin mid r (above mid X).
  Proof.
    intros H. apply Forall_forall. intros x Hx. apply filter_In in Hx. destruct Hx as [Hx L]. apply Nat.leb_le in L.
    unfold tin in H. rewrite Forall_forall in H. specialize (H x Hx). lia.
  Qed.
  Lemma tin_below l mid r X : tin l r X -> tin l mid (below mid X).
  Proof.
    intros H. apply Forall_forall. intros x Hx. apply filter_In in Hx. destruct Hx as [Hx L]. apply Nat.ltb_lt in L.
    unfold tin in H. rewrite Forall_forall in H. specialize (H x Hx). lia.
  Qed.

  Lemma aa_round_run l r g : l + 1 < r -> r <= n -> a2a_pre l r g ->
    body_run n l r (fun i => aa_round (A := A) i l r (a2a_emb i (g i))) (fun i => a2a_emb i (a2a_next l r g i)).
  Proof.
    intros H Hn HP. destruct (rh_mid_spec l r H) as (X & E & Y). set (mid := rh_mid l r) in *. set (h := mid - l) in *.
    assert (Sp : forall i, l <= i < r -> encodes (fst (g i)) = encodes (below mid (fst (g i))) ++ encodes (above mid (fst (g i)))).
    { intros i Hi. rewrite <- encodes_app. f_equal. apply split_at. apply HP. auto. }
    apply round_up with (a := fun i => encodes (above mid (fst (g i)))) (b := fun i => encodes (below mid (fst (g i)))); auto.
    - intros i k Hi Ho. fold mid in Hi. fold mid. fold h. unfold aa_round, a2a_emb. cbn [fst snd]. rewrite lower_true, twin_lower, Ho by (fold mid; lia).
      fold mid. fold h.
      rewrite (mb_ok _ mid [] (fst (g i)) []) by (cbn [encodes map concat app length]; rewrite ?app_nil_r; auto; apply HP; lia).
      cbn [encodes map concat length Nat.add]. fold (encodes (below mid (fst (g i)))). fold (encodes (fst (g i))).
      rewrite (ins_ok _ (below mid (fst (g i))) (above mid (fst (g i))) []).
      2:{ rewrite app_nil_r. apply Sp. lia. } 2:{ auto. } 2:{ rewrite (Sp i) by lia. rewrite app_length. auto. }
      pose proof (paired_twin i l r H ltac:(fold mid; lia) Ho) as Ht. fold mid in Ht. fold h in Ht.
      eexists. split; [reflexivity|]. cbn beta.
      pose proof (aa_lower_ok (A := A) i (below mid (fst (g (i + h)))) (fst (g i))) as L.
      assert (B0 : below l (below mid (fst (g (i + h)))) = []) by (apply (below_low l mid), tin_below with (r := r), HP; lia).
      assert (B1 : below l (fst (g i)) = []) by (apply (below_low l r), HP; lia).
      specialize (L ltac:(apply tsorted_filter, HP; lia) ltac:(apply HP; lia) h l [] (rb i ++ encodes (snd (g i))) k).
      rewrite B0, B1 in L. cbn [encodes map concat length] in L.
      fold (encodes (below mid (fst (g (i + h))))) in L. fold (encodes (fst (g i))) in L. rewrite L.
      unfold a2a_next. fold mid. fold h. destruct (Nat.ltb_spec i mid); [|lia]. rewrite Ho. cbn [fst snd app].
      rewrite encodes_app, app_assoc. auto.
    - intros i k Hi Ho. fold mid in Hi. fold mid. unfold aa_round, a2a_emb. cbn [fst snd]. rewrite lower_true, Ho by (fold mid; lia). fold mid.
      apply odd_spec in Ho as Ho'. fold mid in Ho'.
      rewrite (mb_ok _ i [] (fst (g i)) []) by (cbn [encodes map concat app length]; rewrite ?app_nil_r; auto; apply HP; lia).
      cbn [encodes map concat length Nat.add]. fold (encodes (below i (fst (g i)))). fold (encodes (fst (g i))).
      replace mid with (i + 1) at 1 by lia.
      rewrite (mb_rank _ i [] (fst (g i)) []) by (cbn [encodes map concat app length]; rewrite ?app_nil_r; auto; apply HP; lia).
      cbn [encodes map concat length Nat.add]. fold (encodes (below (i + 1) (fst (g i)))). fold (encodes (fst (g i))).
      replace (i + 1) with mid by lia.
      rewrite (ins_ok _ (below mid (fst (g i))) (above mid (fst (g i))) []).
      2:{ rewrite app_nil_r. apply Sp. lia. } 2:{ auto. } 2:{ rewrite (Sp i) by lia. rewrite app_length. auto. }
      f_equal. f_equal. unfold a2a_next. fold mid. destruct (Nat.ltb_spec i mid); [|lia]. rewrite Ho. cbn [fst snd]. f_equal.
      pose proof (split_at i (fst (g i)) (proj1 (HP i ltac:(lia)))) as Si.
      assert (Ei : encodes (fst (g i)) = encodes (below i (fst (g i))) ++ encodes (above i (fst (g i)))) by (rewrite <- encodes_app; f_equal; auto).
      rewrite resize_less by (rewrite Ei, app_length; lia). rewrite Ei at 1. rewrite firstn_app, firstn_all, Nat.sub_diag. cbn. apply app_nil_r.
    - intros i k Hi. fold mid in Hi. fold mid. fold h. unfold aa_round, a2a_emb. cbn [fst snd]. rewrite lower_false, twin_upper by (fold mid; lia).
      fold mid. fold h.
      rewrite (mb_ok _ mid [] (fst (g i)) []) by (cbn [encodes map concat app length]; rewrite ?app_nil_r; auto; apply HP; lia).
      cbn [encodes map concat length Nat.add]. fold (encodes (below mid (fst (g i)))). fold (encodes (fst (g i))).
      eexists. eexists. split; [reflexivity|]. cbn beta.
      rewrite (ins_ok _ [] (below mid (fst (g i))) (encodes (above mid (fst (g i))))).
      2:{ cbn [encodes map concat app]. apply Sp. lia. } 2:{ auto. } 2:{ auto. }
      split; [reflexivity|].
      assert (B0 : forall q, l <= q < r -> below mid (above mid (fst (g q))) = []).
      { intros q Hq. apply (below_low mid r), (tin_above l), HP; auto. }
      unfold a2a_next. fold mid. fold h. destruct (Nat.ltb_spec i mid); [lia|]. cbn zeta.
      destruct (rh_treatodd i l r) eqn:Ht.
      + eexists. split; [reflexivity|]. cbn beta.
        pose proof (aa_upper_ok (A := A) i (above mid (fst (g (i - h)))) (above mid (fst (g (mid - 1)))) (fst (g i))
          ltac:(apply tsorted_filter, HP; lia) ltac:(apply tsorted_filter, HP; lia) ltac:(apply HP; lia) (r - mid) mid [] (rb i ++ encodes (snd (g i))) k) as L.
        rewrite !B0 in L by lia. cbn [encodes map concat length] in L. rewrite Nat.add_0_r in L.
        fold (encodes (above mid (fst (g (i - h))))) in L. fold (encodes (above mid (fst (g (mid - 1))))) in L. fold (encodes (fst (g i))) in L.
        fold (encodes (below mid (fst (g i)))) in L. rewrite L. cbn [fst snd app]. rewrite (encodes_app (snd (g i))), app_assoc. auto.
      + pose proof (aa_upper_ok (A := A) i (above mid (fst (g (i - h)))) [] (fst (g i))
          ltac:(apply tsorted_filter, HP; lia) ltac:(constructor) ltac:(apply HP; lia) (r - mid) mid [] (rb i ++ encodes (snd (g i))) k) as L.
        rewrite !B0 in L by lia. cbn [encodes map concat length below filter] in L. rewrite Nat.add_0_r, app_nil_r in L.
        fold (encodes (above mid (fst (g (i - h))))) in L. fold (encodes (fst (g i))) in L.
        fold (below mid (fst (g i))) in L. fold (encodes (below mid (fst (g i)))) in L. rewrite L. cbn [fst snd app]. rewrite (encodes_app (snd (g i))), app_assoc. auto.
  Qed.

  Lemma sent_target rank Y X q : Forall (fun m => m_target m = q) (if q =? rank then [] else filt q Y ++ filt q X).
  Proof. destruct (q =? rank); [constructor|]. apply Forall_app; split; apply filt_target. Qed.
  Lemma sent_target2 rank Y W X q : Forall (fun m => m_target m = q) (if q =? rank then [] else filt q Y ++ filt q W ++ filt q X).
  Proof. destruct (q =? rank); [constructor|]. repeat (apply Forall_app; split); apply filt_target. Qed.
  Lemma kept_target rank Y q : Forall (fun m => m_target m = q) (if q =? rank then filt q Y else []).
  Proof. destruct (q =? rank); [apply filt_target|constructor]. Qed.
  Lemma kept_target2 rank Y W q : Forall (fun m => m_target m = q) (if q =? rank then filt q Y ++ filt q W else []).
  Proof. destruct (q =? rank); [|constructor]. apply Forall_app; split; apply filt_target. Qed.

  Lemma next_pre l r g : l + 1 < r -> a2a_pre l r g ->
    a2a_pre l (rh_mid l r) (a2a_next l r g) /\ a2a_pre (rh_mid l r) r (a2a_next l r g).
  Proof.
    intros H HP. destruct (rh_mid_spec l r H) as (X & E & Y). set (mid := rh_mid l r) in *.
    split; intros i Hi; unfold a2a_next; fold mid; destruct (Nat.ltb_spec i mid); try lia; cbn zeta.
    - destruct (rh_odd i l r) eqn:Ho; cbn [fst].
      + apply odd_spec in Ho. fold mid in Ho. split; [apply tsorted_filter, HP; lia|].
        assert (tin l i (below i (fst (g i)))) as T by (apply tin_below with (r := r), HP; lia).
        eapply Forall_impl; [|exact T]. cbn. intros; lia.
      + pose proof (sorted_by_target _ l (mid - l) (sent_target i (below mid (fst (g (i + (mid - l))))) (fst (g i)))) as SB.
        replace (l + (mid - l)) with mid in SB by lia. exact SB.
    - cbn [fst].
      pose proof (sorted_by_target _ mid (r - mid) (sent_target2 i (above mid (fst (g (i - (mid - l)))))
        (if rh_treatodd i l r then above mid (fst (g (mid - 1))) else []) (fst (g i)))) as SB.
      replace (mid + (r - mid)) with r in SB by lia. exact SB.
  Qed.

  Lemma cnt_lower_send i Y X l c x : l <= m_target x < l + c ->
    cnt (lower_send i Y X l c) x = if m_target x =? i then 0 else cnt Y x + cnt X x.
  Proof.
    intros H. unfold lower_send. rewrite cnt_by_target by (intros; apply sent_target).
    destruct (inr_spec l (l + c) (m_target x)); [|lia]. destruct (m_target x =? i); auto.
    rewrite count_occ_app. unfold filt. rewrite !cnt_filter, Nat.eqb_refl. auto.
  Qed.
  Lemma cnt_upper_send i Y W X l c x : l <= m_target x < l + c ->
    cnt (upper_send i Y W X l c) x = if m_target x =? i then 0 else cnt Y x + cnt W x + cnt X x.
  Proof.
    intros H. unfold upper_send. rewrite cnt_by_target by (intros; apply sent_target2).
    destruct (inr_spec l (l + c) (m_target x)); [|lia]. destruct (m_target x =? i); auto.
    rewrite !count_occ_app. unfold filt. rewrite !cnt_filter, Nat.eqb_refl. lia.
  Qed.
  Lemma cnt_for_rank i Y l c x : l <= i < l + c -> cnt (for_rank i Y l c) x = if m_target x =? i then cnt Y x else 0.
  Proof.
    intros H. unfold for_rank. rewrite cnt_by_target by (intros; apply kept_target).
    destruct (Nat.eqb_spec (m_target x) i) as [e|e].
    - destruct (inr_spec l (l + c) (m_target x)); [|lia]. unfold filt. rewrite cnt_filter, Nat.eqb_refl. auto.
    - destruct (inr l (l + c) (m_target x)); auto.
  Qed.
  Lemma cnt_for_rank2 i Y W l c x : l <= i < l + c -> cnt (for_rank2 i Y W l c) x = if m_target x =? i then cnt Y x + cnt W x else 0.
  Proof.
    intros H. unfold for_rank2. rewrite cnt_by_target by (intros; apply kept_target2).
    destruct (Nat.eqb_spec (m_target x) i) as [e|e].
    - destruct (inr_spec l (l + c) (m_target x)); [|lia]. rewrite count_occ_app. unfold filt. rewrite !cnt_filter, Nat.eqb_refl. auto.
    - destruct (inr l (l + c) (m_target x)); auto.
  Qed.

  (** what the other half adds *)
  Definition extra_low (l r : nat) (c : nat -> nat) (i : nat) : nat := if rh_odd i l r then 0 else c (i + (rh_mid l r - l)).
  Definition extra_up (l r : nat) (c : nat -> nat) (i : nat) : nat :=
    c (i - (rh_mid l r - l)) + if rh_treatodd i l r then c (rh_mid l r - 1) else 0.

  Lemma extra_low_sum l r c : l + 1 < r -> nsum (extra_low l r c) l (rh_mid l r - l) = nsum c (rh_mid l r) (r - rh_mid l r).
  Proof.
    intros H. destruct (rh_mid_spec l r H) as (X & E & Y). set (mid := rh_mid l r) in *. set (h := mid - l) in *.
    assert (G : nsum (extra_low l r c) l (r - mid) = nsum c mid (r - mid)).
    { rewrite (nsum_ext _ (fun i => c (i + h))).
      - rewrite nsum_shift. f_equal. lia.
      - intros i Hi. unfold extra_low. fold mid. fold h. destruct (rh_odd i l r) eqn:Ho; auto.
        apply odd_spec in Ho. fold mid in Ho. lia. }
    destruct (Nat.eq_dec ((r - l) mod 2) 1) as [Od|Od].
    - replace h with ((r - mid) + 1) by lia. rewrite nsum_split, nsum_one, G. unfold extra_low.
      rewrite (proj2 (odd_spec (l + (r - mid)) l r)) by (fold mid; lia). lia.
    - replace h with (r - mid) by lia. auto.
  Qed.

  Lemma extra_up_sum l r c : l + 1 < r -> nsum (extra_up l r c) (rh_mid l r) (r - rh_mid l r) = nsum c l (rh_mid l r - l).
  Proof.
    intros H. destruct (rh_mid_spec l r H) as (X & E & Y). set (mid := rh_mid l r) in *. set (h := mid - l) in *.
    unfold extra_up. rewrite nsum_add. fold mid. fold h.
    assert (G : nsum (fun i => c (i - h)) mid (r - mid) = nsum c l (r - mid)).
    { replace mid with (l + h) at 1 by lia. rewrite <- (nsum_shift (fun i => c (i - h)) l h). apply nsum_ext. intros i Hi. f_equal. lia. }
    rewrite G. destruct (Nat.eq_dec ((r - l) mod 2) 1) as [Od|Od].
    - replace h with ((r - mid) + 1) by lia. rewrite nsum_split, nsum_one. f_equal.
      replace (r - mid) with (1 + (r - mid - 1)) at 1 by lia. rewrite nsum_split, nsum_one.
      rewrite (proj2 (treat_spec mid l r)) by (fold mid; lia).
      rewrite (nsum_ext _ (fun _ => 0)), nsum_zero. { rewrite ?Nat.add_0_r. f_equal. lia. }
      intros i Hi. destruct (rh_treatodd i l r) eqn:Ht; auto. apply treat_spec in Ht. fold mid in Ht. lia.
    - rewrite (nsum_ext (fun i => if rh_treatodd i l r then _ else 0) (fun _ => 0) mid), nsum_zero. { rewrite Nat.add_0_r. f_equal. lia. }
      intros i Hi. destruct (rh_treatodd i l r) eqn:Ht; auto. apply treat_spec in Ht. fold mid in Ht. lia.
  Qed.

  Lemma next_post l r g gl gu : l + 1 < r -> a2a_pre l r g ->
    a2a_post l (rh_mid l r) (a2a_next l r g) gl -> a2a_post (rh_mid l r) r (a2a_next l r g) gu ->
    a2a_post l r g (fun i => if i <? rh_mid l r then gl i else gu i).
  Proof.
    intros H HP Ql Qu t x Ht. destruct (rh_mid_spec l r H) as (X & E & Y).
    pose proof (extra_low_sum l r (fun i => cnt (fst (g i)) x) H) as EL.
    pose proof (extra_up_sum l r (fun i => cnt (fst (g i)) x) H) as EU.
    set (mid := rh_mid l r) in *. set (h := mid - l) in *. set (c := fun i => cnt (fst (g i)) x) in *.
    assert (SP : nsum (fun i => if i =? t then 0 else cnt (fst (g i)) x) l (r - l) =
                 nsum (fun i => if i =? t then 0 else c i) l h + nsum (fun i => if i =? t then 0 else c i) mid (r - mid)).
    { replace (r - l) with (h + (r - mid)) by lia. rewrite nsum_split. fold (c 0). replace (l + h) with mid by lia. reflexivity. }
    destruct (Nat.ltb_spec t mid) as [L|L].
    - rewrite (Ql t x ltac:(lia)).
      assert (R1 : cnt (snd (a2a_next l r g t)) x = cnt (snd (g t)) x + if m_target x =? t then extra_low l r c t else 0).
      { unfold a2a_next, extra_low. fold mid. fold h. destruct (Nat.ltb_spec t mid); [|lia].
        destruct (rh_odd t l r) eqn:Ho; cbn [snd]; [destruct (m_target x =? t); lia|].
        rewrite count_occ_app, cnt_for_rank by lia. unfold below. rewrite cnt_filter. fold (c (t + h)).
        destruct (Nat.eqb_spec (m_target x) t); auto. destruct (Nat.ltb_spec (m_target x) mid); [auto|lia]. }
      rewrite R1. clear R1. destruct (Nat.eqb_spec (m_target x) t) as [Tx|Tx]; [|lia].
      rewrite (nsum_ext (fun i => if i =? t then 0 else cnt (fst (a2a_next l r g i)) x)
                 (fun i => (if i =? t then 0 else c i) + if i =? t then 0 else extra_low l r c i)).
      2:{ intros i Hi. destruct (Nat.eqb_spec i t) as [|Ni]; auto. unfold a2a_next, extra_low. fold mid. fold h.
          destruct (Nat.ltb_spec i mid); [|lia]. destruct (rh_odd i l r) eqn:Ho; cbn [fst].
          - apply odd_spec in Ho. fold mid in Ho. unfold below. rewrite cnt_filter. destruct (Nat.ltb_spec (m_target x) i); [unfold c; lia|lia].
          - rewrite cnt_lower_send by lia. destruct (Nat.eqb_spec (m_target x) i); [lia|]. unfold below. rewrite cnt_filter.
            destruct (Nat.ltb_spec (m_target x) mid); [unfold c; lia|lia]. }
      rewrite nsum_add. pose proof (nsum_pick (extra_low l r c) t l h ltac:(lia)) as PK. fold h in EL |- *. rewrite EL in PK.
      rewrite SP. rewrite (nsum_ext (fun i => if i =? t then 0 else c i) c mid).
      2:{ intros i Hi. destruct (Nat.eqb_spec i t); [lia|auto]. } lia.
    - rewrite (Qu t x ltac:(lia)).
      assert (R1 : cnt (snd (a2a_next l r g t)) x = cnt (snd (g t)) x + if m_target x =? t then extra_up l r c t else 0).
      { unfold a2a_next, extra_up. fold mid. fold h. destruct (Nat.ltb_spec t mid); [lia|]. cbn [snd].
        rewrite count_occ_app, cnt_for_rank2 by lia. destruct (Nat.eqb_spec (m_target x) t); auto.
        assert (forall q, cnt (above mid (fst (g q))) x = c q) as Ab.
        { intros q. unfold above. rewrite cnt_filter. destruct (Nat.leb_spec mid (m_target x)); [auto|lia]. }
        destruct (rh_treatodd t l r); rewrite ?Ab; auto. }
      rewrite R1. clear R1. destruct (Nat.eqb_spec (m_target x) t) as [Tx|Tx]; [|lia].
      rewrite (nsum_ext (fun i => if i =? t then 0 else cnt (fst (a2a_next l r g i)) x)
                 (fun i => (if i =? t then 0 else c i) + if i =? t then 0 else extra_up l r c i)).
      2:{ intros i Hi. destruct (Nat.eqb_spec i t) as [|Ni]; auto. unfold a2a_next, extra_up. fold mid. fold h.
          destruct (Nat.ltb_spec i mid); [lia|]. cbn [fst]. rewrite cnt_upper_send by lia. destruct (Nat.eqb_spec (m_target x) i); [lia|].
          assert (forall q, cnt (above mid (fst (g q))) x = c q) as Ab.
          { intros q. unfold above. rewrite cnt_filter. destruct (Nat.leb_spec mid (m_target x)); [auto|lia]. }
          destruct (rh_treatodd i l r); rewrite ?Ab; unfold c; cbn [count_occ]; lia. }
      rewrite nsum_add. pose proof (nsum_pick (extra_up l r c) t mid (r - mid) ltac:(lia)) as PK. rewrite EU in PK.
      rewrite SP. rewrite (nsum_ext (fun i => if i =? t then 0 else c i) c l).
      2:{ intros i Hi. destruct (Nat.eqb_spec i t); [lia|auto]. } lia.
  Qed.

  Lemma a2a_td l r g : r <= n -> a2a_pre l r g ->
    exists gF, td_run n (aa_round (A := A)) l r (fun i => a2a_emb i (g i)) (fun i => a2a_emb i (gF i)) /\ a2a_post l r g gF.
  Proof.
    intros Hn HP. apply (td_ok n (aa_round (A := A)) _ a2a_emb a2a_pre a2a_post); auto.
    - clear. intros l r g Hl HP t x Ht. replace (r - l) with 1 by lia. rewrite nsum_one.
      replace l with t by lia. rewrite Nat.eqb_refl. destruct (m_target x =? t); lia.
    - clear l r g Hn HP. intros l r g H Hn HP. exists (a2a_next l r g). destruct (next_pre l r g H HP) as (P1 & P2).
      split; [apply aa_round_run; auto|]. split; [auto|]. split; [auto|]. intros gl gu. apply next_post; auto.
  Qed.
End Round.

(** ** The whole operation *)
Lemma cnt_gathered (X : nat -> list message) l r x : cnt (gathered X l r) x = nsum (fun i => cnt (X i) x) l (r - l).
Proof. unfold gathered. apply cnt_concat. Qed.

Lemma all_to_all_run {A} n l r (X : nat -> list message) (rb : nat -> list Z) :
  r <= n -> (forall i, l <= i < r -> tsorted (X i) /\ tin l r (X i)) ->
  exists R, (forall t, l <= t < r -> Permutation (R t) (addressed X l r t)) /\
    body_run n l r (fun i k => all_to_all (A := A) i l r (encodes (X i)) (rb i) k) (fun i => rb i ++ encodes (R i)).
Proof.
  intros Hn HX. set (g := fun i => (X i, filt i (X i))).
  destruct (a2a_td (A := A) n rb l r g Hn) as (gF & HR & HQ). { intros i Hi. apply HX. auto. }
  exists (fun t => snd (gF t)). split.
  - intros t Ht. apply (Permutation_count_occ message_dec). intros x. rewrite (HQ t x Ht). unfold g. cbn [fst snd].
    unfold addressed, filt. rewrite !cnt_filter, cnt_gathered. destruct (m_target x =? t); auto.
    pose proof (nsum_pick (fun i => cnt (X i) x) t l (r - l) ltac:(lia)). cbn beta in *. lia.
  - intros K. specialize (HR (r - l) (le_n _) (fun i st => K i (snd st))). eapply seg_pre; [|exact HR].
    intros i Hi. cbn beta. unfold all_to_all.
    destruct (HX i Hi) as (HS & _).
    rewrite (mb_ok _ i [] (X i) []) by (cbn [encodes map concat app length]; rewrite ?app_nil_r; auto).
    cbn [encodes map concat length Nat.add]. fold (encodes (below i (X i))). fold (encodes (X i)).
    rewrite (mb_rank _ i [] (X i) []) by (cbn [encodes map concat app length]; rewrite ?app_nil_r; auto).
    cbn [encodes map concat length Nat.add]. fold (encodes (below (i + 1) (X i))). fold (encodes (X i)).
    rewrite (ins_rank _ i [] (X i) []) by (cbn [encodes map concat app length]; rewrite ?app_nil_r; auto).
    reflexivity.
Qed.
