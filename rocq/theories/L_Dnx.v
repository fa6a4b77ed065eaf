(** * Lemmas about dense matrices *)
From Coq Require Import List Bool Arith Lia.
From Verif Require Import Base M_Csx M_CsxMap M_Dnx S_Csx S_Dnx L_Utils L_Csx L_Csx2.
Import ListNotations.
Local Open Scope out_scope.

Lemma nth_error_upd {A} (l : list A) i k (x : A) : i < length l ->
  nth_error (upd l i x) k = if i =? k then Some x else nth_error l k.
Proof.
  revert i k. induction l as [|a l IH]; intros i k H; [simpl in H; lia|].
  destruct i, k; simpl; auto. apply IH. simpl in H; lia.
Qed.

Lemma rd_lt {A} (l : list A) i : i < length l -> exists a, nth_error l i = Some a /\ rd l i = Ok a.
Proof.
  intros H. destruct (nth_error l i) as [a|] eqn:E.
  - exists a. split; auto. now apply rd_some.
  - apply nth_error_None in E. lia.
Qed.

Lemma wr_lt {A} (l : list A) i x : i < length l -> wr l i x = Ok (upd l i x).
Proof. intros. apply wr_ok; auto. Qed.

(** ** Scattered read-modify-write loops *)
Definition lift2 {A} (op : A -> A -> A) (a b : option A) : option A :=
  match a, b with Some a, Some b => Some (op a b) | _, _ => None end.

Section Scatter.
Context {T X : Type}.
Variable op : T -> T -> T.
Variable p : X -> nat.
Variable g : X -> option T.
Variable f : list T -> X -> outcome (list T).

Definition hits (k : nat) (a : option T) (x : X) : option T := if p x =? k then lift2 op a (g x) else a.

Lemma scatter_ok L v :
  (forall x, In x L -> exists b, g x = Some b) ->
  (forall x, In x L -> p x < length v) ->
  (forall w x b, In x L -> length w = length v -> g x = Some b ->
     f w x = (a <- rd w (p x) ;; wr w (p x) (op a b))) ->
  exists v', foldM f L v = Ok v' /\ length v' = length v /\
    forall k, nth_error v' k = fold_left (hits k) L (nth_error v k).
Proof.
  intros G P F. revert v G P F. induction L as [|x L IH]; intros v G P F.
  - exists v. auto.
  - destruct (G x (or_introl eq_refl)) as [b Gb].
    destruct (rd_lt v (p x) (P x (or_introl eq_refl))) as [a [Na Ra]].
    cbn [foldM]. rewrite (F v x b (or_introl eq_refl) eq_refl Gb), Ra. cbn [obind].
    rewrite wr_lt by (apply P; left; auto). cbn [obind].
    destruct (IH (upd v (p x) (op a b))) as [v' [E [Lv N]]].
    + intros y Hy. apply (G y). right; auto.
    + intros y Hy. rewrite upd_length. apply P. right; auto.
    + intros w y c Hy Hw. rewrite upd_length in Hw. apply F; auto. right; auto.
    + exists v'. split; auto. split. { now rewrite Lv, upd_length. }
      intros k. rewrite N. cbn [fold_left]. f_equal.
      rewrite nth_error_upd by (apply P; left; auto). unfold hits.
      destruct (Nat.eqb_spec (p x) k); auto. subst k. rewrite Na, Gb. reflexivity.
Qed.

Lemma fold_hits_none k L a : (forall x, In x L -> p x <> k) -> fold_left (hits k) L a = a.
Proof.
  revert a. induction L as [|x L IH]; intros a H; auto. cbn [fold_left].
  rewrite IH by (intros; apply H; right; auto). unfold hits.
  destruct (Nat.eqb_spec (p x) k) as [E|E]; auto. exfalso. apply (H x); auto. left; auto.
Qed.

Lemma fold_hits_one k L x a : NoDup L -> In x L -> p x = k -> (forall y, In y L -> p y = k -> y = x) ->
  fold_left (hits k) L a = lift2 op a (g x).
Proof.
  intros D I E U. apply in_split in I. destruct I as [l1 [l2 ->]].
  rewrite fold_left_app. cbn [fold_left]. apply NoDup_remove in D. destruct D as [D N].
  rewrite (fold_hits_none k l1).
  2:{ intros y Hy Py. assert (y = x) by (apply U; auto; apply in_or_app; auto). subst y.
      apply N. apply in_or_app; auto. }
  rewrite fold_hits_none.
  2:{ intros y Hy Py. assert (y = x) by (apply U; auto; apply in_or_app; right; right; auto). subst y.
      apply N. apply in_or_app; auto. }
  unfold hits. subst k. now rewrite Nat.eqb_refl.
Qed.
End Scatter.

(** ** Primary and secondary index of an element *)
Definition prim_of (o : order) (i j : nat) := match o with OrdR => i | OrdC => j end.
Definition sec_of (o : order) (i j : nat) := match o with OrdR => j | OrdC => i end.
(** row and column from primary, secondary: the same functions *)

Lemma pos_prim {T} (m : dnx T) i j : pos m i j = prim_of (d_ord m) i j * d_ld m + sec_of (d_ord m) i j.
Proof. unfold pos, prim_of, sec_of. destruct (d_ord m); reflexivity. Qed.

Lemma pos_back {T} (m : dnx T) p s : pos m (prim_of (d_ord m) p s) (sec_of (d_ord m) p s) = p * d_ld m + s.
Proof. unfold pos, prim_of, sec_of. destruct (d_ord m); reflexivity. Qed.

Lemma prim_lt {T} (m : dnx T) i j : i < d_rows m -> j < d_cols m ->
  prim_of (d_ord m) i j < d_prim m /\ sec_of (d_ord m) i j < d_sec m.
Proof. unfold prim_of, sec_of, d_prim, d_sec. destruct (d_ord m); auto. Qed.

Lemma back_lt {T} (m : dnx T) p s : p < d_prim m -> s < d_sec m ->
  prim_of (d_ord m) p s < d_rows m /\ sec_of (d_ord m) p s < d_cols m.
Proof. unfold prim_of, sec_of, d_prim, d_sec. destruct (d_ord m); auto. Qed.

Lemma line_inj ld p s p' s' : s < ld -> s' < ld -> p * ld + s = p' * ld + s' -> p = p' /\ s = s'.
Proof.
  intros H H' E. assert (p = p').
  { destruct (Nat.lt_trichotomy p p') as [C|[C|C]]; auto; exfalso; nia. }
  subst p'. split; auto. lia.
Qed.

Lemma pos_inj {T} (m : dnx T) i j i' j' : fits m -> i < d_rows m -> j < d_cols m -> i' < d_rows m -> j' < d_cols m ->
  pos m i j = pos m i' j' -> i = i' /\ j = j'.
Proof.
  intros [Hs _] Hi Hj Hi' Hj' E. rewrite !pos_prim in E.
  pose proof (prim_lt m i j Hi Hj) as [A1 A2]. pose proof (prim_lt m i' j' Hi' Hj') as [B1 B2].
  apply line_inj in E; try lia. revert E. unfold prim_of, sec_of. destruct (d_ord m); tauto.
Qed.

Lemma fits_pos {T} (m : dnx T) p s : fits m -> p < d_prim m -> s < d_sec m -> p * d_ld m + s < length (d_vals m).
Proof.
  intros [_ H] Hp Hs. rewrite <- pos_back. destruct (back_lt m p s Hp Hs). apply H; auto.
Qed.

Lemma fits_at {T} (m : dnx T) i j : fits m -> i < d_rows m -> j < d_cols m -> exists a, at_ m i j = Some a.
Proof.
  intros [_ H] Hi Hj. unfold at_. destruct (nth_error (d_vals m) (pos m i j)) eqn:E; eauto.
  apply nth_error_None in E. specialize (H i j Hi Hj). lia.
Qed.

(** the same sizes, order, ...; only the values differ *)
Definition same_header {T} (m m' : dnx T) : Prop :=
  d_rows m' = d_rows m /\ d_cols m' = d_cols m /\ d_ld m' = d_ld m /\ d_ord m' = d_ord m /\
  d_upl m' = d_upl m /\ d_sym m' = d_sym m.

Lemma fits_len {T} (m m' : dnx T) : d_rows m' = d_rows m -> d_cols m' = d_cols m -> d_ld m' = d_ld m -> d_ord m' = d_ord m ->
  length (d_vals m') = length (d_vals m) -> fits m -> fits m'.
Proof.
  unfold fits, pos, d_sec. intros -> -> -> -> ->. auto.
Qed.

Lemma updates_fits {T} (m m' : dnx T) inside g : updates m m' inside g -> fits m -> fits m'.
Proof. intros [A [B [C [D [_ [_ [L _]]]]]]]. apply fits_len; auto. Qed.

(** ** Loops over a part of every line *)
Lemma lines_loop {T} (dst : dnx T) (op : T -> T -> T) (js : nat -> list nat) (g : nat -> nat -> option T)
  (f : list T -> nat -> nat -> outcome (list T)) (v0 : list T) :
  fits dst -> length v0 = length (d_vals dst) ->
  (forall p, p < d_prim dst -> NoDup (js p) /\ forall s, In s (js p) -> s < d_sec dst) ->
  (forall p s, p < d_prim dst -> In s (js p) -> exists b, g p s = Some b) ->
  (forall w p s b, p < d_prim dst -> In s (js p) -> length w = length (d_vals dst) -> g p s = Some b ->
     f w p s = (a <- rd w (p * d_ld dst + s) ;; wr w (p * d_ld dst + s) (op a b))) ->
  exists v', foldM (fun v p => foldM (fun v s => f v p s) (js p) v) (seq 0 (d_prim dst)) v0 = Ok v' /\
    length v' = length (d_vals dst) /\
    (forall p s, p < d_prim dst -> In s (js p) ->
       nth_error v' (p * d_ld dst + s) = lift2 op (nth_error v0 (p * d_ld dst + s)) (g p s)) /\
    (forall k, (forall p s, p < d_prim dst -> In s (js p) -> k <> p * d_ld dst + s) -> nth_error v' k = nth_error v0 k).
Proof.
  intros F0 Lv J G F.
  set (L := flat_map (fun p => map (fun s => (p, s)) (js p)) (seq 0 (d_prim dst))).
  set (q := fun x : nat * nat => fst x * d_ld dst + snd x).
  assert (IL : forall x, In x L <-> fst x < d_prim dst /\ In (snd x) (js (fst x))).
  { intros [p s]. unfold L. rewrite in_flat_map. cbn [fst snd]. split.
    - intros [p' [Hp' Hs]]. apply in_seq in Hp'. apply in_map_iff in Hs. destruct Hs as [s' [E Hs]]. inversion E; subst. split; auto; lia.
    - intros [Hp Hs]. exists p. split. { apply in_seq; lia. } apply in_map_iff. exists s. auto. }
  assert (ND : NoDup L).
  { unfold L. assert (S : forall n k, k + n <= d_prim dst -> NoDup (flat_map (fun p => map (fun s => (p, s)) (js p)) (seq k n))).
    { induction n; intros k Hk; simpl; [constructor|].
      assert (App : forall (l1 l2 : list (nat * nat)), NoDup l1 -> NoDup l2 -> (forall x, In x l1 -> ~ In x l2) -> NoDup (l1 ++ l2)).
      { induction l1 as [|a l1 IH]; intros l2 N1 N2 D; simpl; auto. inversion N1; subst. constructor.
        - rewrite in_app_iff. intros [?|?]; auto. apply (D a); auto. left; auto.
        - apply IH; auto. intros x Hx. apply D. right; auto. }
      apply App.
      - destruct (J k ltac:(lia)) as [N _]. clear -N. induction N; simpl; constructor; auto.
        rewrite in_map_iff. intros [y [E Hy]]. inversion E; subst. auto.
      - apply IHn. lia.
      - intros [p s] H1 H2. apply in_map_iff in H1. destruct H1 as [s1 [E1 _]]. inversion E1; subst.
        apply in_flat_map in H2. destruct H2 as [p2 [Hp2 H2]]. apply in_seq in Hp2. apply in_map_iff in H2. destruct H2 as [s2 [E2 _]].
        inversion E2; subst. lia. }
    apply S. lia. }
  assert (QI : forall x y, In x L -> In y L -> q x = q y -> x = y).
  { intros [p s] [p' s'] H1 H2 E. apply IL in H1. apply IL in H2. unfold q in E. cbn [fst snd] in *.
    destruct H1 as [P1 S1], H2 as [P2 S2]. destruct F0 as [Fs _].
    pose proof (proj2 (J p P1) s S1). pose proof (proj2 (J p' P2) s' S2).
    apply line_inj in E; try lia. destruct E; subst; auto. }
  destruct (scatter_ok op q (fun x => g (fst x) (snd x)) (fun v x => f v (fst x) (snd x)) L v0) as [v' [E [LE N]]].
  - intros x Hx. apply IL in Hx. apply G; tauto.
  - intros x Hx. apply IL in Hx. unfold q. rewrite Lv. apply fits_pos; auto; try tauto. apply (J (fst x)); tauto.
  - intros w x b Hx Hw Gb. apply IL in Hx. apply F; auto; try tauto. now rewrite Hw.
  - exists v'. split; [|split; [congruence|split]].
    + rewrite <- E. unfold L. rewrite <- foldM_flat_map. apply foldM_ext_in. intros v p Hp.
      rewrite foldM_map. reflexivity.
    + intros p s Hp Hs. rewrite N. rewrite (fold_hits_one op q _ _ L (p, s)); auto.
      * apply IL; auto.
      * intros y Hy Ey. apply QI; auto. apply IL; auto.
    + intros k Hk. rewrite N. apply fold_hits_none. intros [p s] Hx Ex. apply IL in Hx. cbn [fst snd] in Hx.
      apply (Hk p s); try tauto. symmetry. exact Ex.
Qed.

(** the same in row/column terms *)
Lemma lines_updates {T} (dst : dnx T) (js : nat -> list nat) (inside : nat -> nat -> bool) (g : nat -> nat -> option T) v' :
  (forall i j, i < d_rows dst -> j < d_cols dst ->
     inside i j = true <-> In (sec_of (d_ord dst) i j) (js (prim_of (d_ord dst) i j))) ->
  (forall p s, p < d_prim dst -> In s (js p) -> s < d_sec dst) ->
  length v' = length (d_vals dst) ->
  (forall i j, i < d_rows dst -> j < d_cols dst -> inside i j = true -> nth_error v' (pos dst i j) = g i j) ->
  (forall k, (forall p s, p < d_prim dst -> In s (js p) -> k <> p * d_ld dst + s) -> nth_error v' k = nth_error (d_vals dst) k) ->
  updates dst (with_vals dst v') inside g.
Proof.
  intros I B L V O. unfold updates. cbn [d_rows d_cols d_ld d_ord d_upl d_sym d_vals with_vals].
  split; [reflexivity|]. split; [reflexivity|]. split; [reflexivity|]. split; [reflexivity|]. split; [reflexivity|]. split; [reflexivity|].
  split; [exact L|]. split.
  - intros i j Hi Hj H. unfold at_. change (pos (with_vals dst v') i j) with (pos dst i j). cbn [d_vals with_vals]. auto.
  - intros k Hk. apply O. intros p s Hp Hs. pose proof (B p s Hp Hs) as Hsec.
    destruct (back_lt dst p s Hp Hsec) as [Hi Hj]. rewrite <- pos_back. apply Hk; auto. apply I; auto.
    revert Hs. unfold prim_of, sec_of. destruct (d_ord dst); auto.
Qed.

(** ** Triangles *)
Definition square_part {T} (m : dnx T) : Prop := is_uplo (d_upl m) = true -> d_rows m = d_cols m.

Lemma span_ok {T} (m : dnx T) p : square_part m -> p < d_prim m ->
  line_start m p <= line_end m p /\ line_end m p <= d_sec m.
Proof.
  unfold square_part, line_start, line_end, move_start, move_end, d_prim, d_sec.
  destruct (d_upl m), (d_ord m); simpl; intros H Hp; try specialize (H eq_refl); lia.
Qed.

Lemma line_span_ok {T} (m : dnx T) p : square_part m -> p < d_prim m ->
  line_span m p = Ok (seq (line_start m p) (line_end m p - line_start m p)).
Proof.
  intros H Hp. destruct (span_ok m p H Hp). unfold line_span.
  destruct (Nat.ltb_spec (line_end m p) (line_start m p)); auto; lia.
Qed.

Lemma part_span {T} (m : dnx T) i j : square_part m -> i < d_rows m -> j < d_cols m ->
  in_part (d_upl m) i j = true <->
  In (sec_of (d_ord m) i j) (seq (line_start m (prim_of (d_ord m) i j)) (line_end m (prim_of (d_ord m) i j) - line_start m (prim_of (d_ord m) i j))).
Proof.
  intros Q Hi Hj. destruct (prim_lt m i j Hi Hj) as [Hp Hs].
  destruct (span_ok m _ Q Hp) as [A B]. rewrite in_seq. revert A B Hp Hs.
  unfold square_part, line_start, line_end, move_start, move_end, d_prim, d_sec, prim_of, sec_of, in_part in *.
  destruct (d_upl m), (d_ord m); simpl in *; intros; try specialize (Q eq_refl); try (rewrite Nat.leb_le); split; intros; auto; try lia.
Qed.

Lemma span_js {T} (m : dnx T) p : square_part m -> p < d_prim m ->
  NoDup (seq (line_start m p) (line_end m p - line_start m p)) /\
  forall s, In s (seq (line_start m p) (line_end m p - line_start m p)) -> s < d_sec m.
Proof.
  intros Q Hp. split; [apply seq_NoDup|]. intros s Hs. apply in_seq in Hs. destruct (span_ok m p Q Hp). lia.
Qed.

Lemma lift2_assign {A} (a b : option A) (x y : A) : a = Some x -> b = Some y -> lift2 (fun _ z => z) a b = b.
Proof. intros -> ->. reflexivity. Qed.

Lemma assign_step {A} (w : list A) k (b : A) : k < length w -> wr w k b = (a <- rd w k ;; wr w k ((fun _ z => z) a b)).
Proof. intros H. destruct (rd_lt w k H) as [a [_ ->]]. reflexivity. Qed.
