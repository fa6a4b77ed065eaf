(** * Lemmas: threaded arrays *)
From Coq Require Import ZArith List Bool Arith Lia Permutation.
From Verif Require Import Base S_Order S_Containers M_Utils M_Packing S_Packing M_Containers L_Merge L_Utils L_Packing L_Balance.
Import ListNotations.

Lemma nth_put {A} b e (l new : list A) j d : b <= e <= length l -> length new = e - b ->
  nth j (put b e l new) d = if (b <=? j) && (j <? e) then nth (j - b) new d else nth j l d.
Proof.
  intros H L. unfold put.
  assert (Lf : length (firstn b l) = b) by (rewrite firstn_length; lia).
  destruct (Nat.leb_spec b j) as [Hb|Hb]; simpl.
  - rewrite app_nth2 by lia. rewrite Lf. destruct (Nat.ltb_spec j e).
    + now rewrite app_nth1 by lia.
    + rewrite app_nth2 by lia. rewrite nth_skipn. f_equal. lia.
  - rewrite app_nth1 by lia. apply nth_firstn_lt. lia.
Qed.

Lemma find_part d n i : distribution_of n d -> i < n -> exists t, t + 1 < length d /\ nth t d 0 <= i < nth (t + 1) d 0.
Proof.
  intros (H2 & Hm & H0 & Hl) Hi.
  assert (G : forall k, k + 1 <= length d -> i < nth k d 0 -> exists t, t + 1 < length d /\ nth t d 0 <= i < nth (t + 1) d 0).
  { induction k; intros Hk Hik.
    - exfalso. replace (nth 0 d 0) with (hd 0 d) in Hik by now destruct d. lia.
    - destruct (Nat.lt_ge_cases i (nth k d 0)); [apply IHk; auto; lia|]. exists k. replace (k + 1) with (S k) by lia. lia. }
  apply (G (length d - 1)); [lia|]. rewrite <- last_nth by (destruct d; simpl in *; [lia|discriminate]). lia.
Qed.

Lemma dist_bounds d n i j : distribution_of n d -> i <= j < length d -> nth i d 0 <= nth j d 0 <= n.
Proof.
  intros (H2 & Hm & H0 & Hl) H. split; [apply Hm; auto|]. rewrite <- Hl.
  rewrite last_nth by (destruct d; simpl in *; [lia|discriminate]). apply Hm. lia.
Qed.

Lemma threads_in_order n sched t : parallel_order n sched -> In t sched <-> t < n.
Proof.
  intros H. split; intros Ht.
  - apply (Permutation_in _ H) in Ht. apply in_seq in Ht. lia.
  - apply (Permutation_in _ (Permutation_sym H)). apply in_seq. lia.
Qed.

(** every thread writes its own part of the array *)
Lemma write_parts {A} (f : list A -> nat -> outcome (list A)) (src : list A) d n off sched buf0 :
  distribution_of n d -> length src = n -> parallel_order (length d - 1) sched ->
  off + n <= length buf0 ->
  (forall buf t, length buf = length buf0 -> t + 1 < length d ->
     f buf t = Ok (put (off + nth t d 0) (off + nth (t + 1) d 0) buf (slice (nth t d 0) (nth (t + 1) d 0) src))) ->
  exists buf, foldM f sched buf0 = Ok buf /\ length buf = length buf0 /\ slice off (off + n) buf = src.
Proof.
  intros Hd Ls Hs Hb Hf.
  destruct (foldM_inv f (fun pre buf => length buf = length buf0 /\
     forall t i dft, In t pre -> nth t d 0 <= i < nth (t + 1) d 0 -> nth (off + i) buf dft = nth i src dft) sched buf0) as (buf & E & L & P).
  - split; auto. intros ? ? ? [].
  - intros pre t post buf Es (L & P).
    assert (Ht : t < length d - 1) by (apply (threads_in_order _ _ _ Hs); rewrite Es; apply in_or_app; right; left; auto).
    assert (B : nth t d 0 <= nth (t + 1) d 0 <= n) by (apply dist_bounds; auto; lia).
    rewrite Hf by (auto; lia). eexists. split; [reflexivity|].
    assert (Lsl : length (slice (nth t d 0) (nth (t + 1) d 0) src) = off + nth (t + 1) d 0 - (off + nth t d 0)) by (rewrite slice_length; lia).
    split; [rewrite put_length; auto; lia|].
    intros t' i dft Hin Hi. rewrite nth_put by (auto; lia).
    destruct (Nat.leb_spec (off + nth t d 0) (off + i)); destruct (Nat.ltb_spec (off + i) (off + nth (t + 1) d 0)); simpl.
    + rewrite nth_slice by lia. f_equal. lia.
    + apply in_app_or in Hin. destruct Hin as [Hin|[->|[]]]; [eapply P; eauto|lia].
    + apply in_app_or in Hin. destruct Hin as [Hin|[->|[]]]; [eapply P; eauto|lia].
    + apply in_app_or in Hin. destruct Hin as [Hin|[->|[]]]; [eapply P; eauto|lia].
  - exists buf. split; auto. split; auto.
    destruct src as [|a0 src0] eqn:Es.
    + simpl in Ls. subst n. rewrite Nat.add_0_r. apply slice_nil.
    + rewrite <- Es in *. apply list_ext with (d := a0); [rewrite slice_length; lia|].
      intros i Hi. rewrite slice_length in Hi by lia. rewrite nth_slice by lia.
      destruct (find_part d n i Hd) as (t & Ht & Hti); [lia|].
      apply (P t); auto. apply (threads_in_order _ _ _ Hs). lia.
Qed.

Definition good_memory {A} (esz : nat) (mem : memory A) (alignment : nat) : Prop :=
  shift mem <= (alignment - 1) / esz + 1.

Lemma allocate_ok {A} esz (mem : memory A) size alignment : good_memory esz mem alignment ->
  let '(buf, off) := ta_allocate esz mem size alignment in off + size <= length buf.
Proof.
  unfold good_memory, ta_allocate. destruct alignment; intros H; rewrite map_length, seq_length; [lia|].
  simpl in H. rewrite Nat.sub_0_r in H. lia.
Qed.

Lemma from_vector_ok {A} esz mem sched d (data : list A) alignment :
  good_memory esz mem alignment -> distribution_of (length data) d -> parallel_order (length d - 1) sched ->
  exists a, ta_from_vector esz mem sched d data alignment = Ok a /\
    ta_list a = data /\ ta_size a = length data /\ ta_distribution a = d.
Proof.
  intros Hm Hd Hs. unfold ta_from_vector.
  destruct (Nat.eqb_spec (length data) 0) as [H0|H0].
  - eexists. split; [reflexivity|]. destruct data; [|discriminate]. repeat split; auto.
  - pose proof (allocate_ok esz mem (length data) alignment Hm) as HA.
    destruct (ta_allocate esz mem (length data) alignment) as (buf0, off).
    destruct (write_parts (fun buf t => obind (rd d t) (fun b => obind (rd d (t + 1)) (fun e => copy_range off data buf b e)))
       data d (length data) off sched buf0) as (buf & E & L & S); auto.
    + intros buf t Lb Ht. rewrite (rd_ok _ _ 0), (rd_ok _ (t + 1) 0) by lia. cbn [obind].
      assert (B := dist_bounds d (length data) t (t + 1) Hd ltac:(lia)). unfold copy_range.
      destruct (Nat.leb_spec (nth t d 0) (nth (t + 1) d 0)); [|lia].
      destruct (Nat.leb_spec (nth (t + 1) d 0) (length data)); [|lia].
      destruct (Nat.leb_spec (off + nth (t + 1) d 0) (length buf)); [|lia]. reflexivity.
    + unfold copy_parts. rewrite E. cbn [obind]. eexists. split; [reflexivity|]. unfold ta_list. simpl. auto.
Qed.

Lemma parts_distribution_nth {A} (data : list (list A)) t : t <= length data ->
  nth t (parts_distribution data) 0 = length (concat (firstn t data)).
Proof.
  unfold parts_distribution. set (go := fix go (size : nat) (l : list (list A)) : list nat := match l with [] => [] | d :: r => (size + length d) :: go (size + length d) r end).
  assert (G : forall l sz t, t < length l -> nth t (go sz l) 0 = sz + length (concat (firstn (S t) l))).
  { induction l; intros sz k Hk; simpl in Hk; [lia|]. destruct k; simpl.
    - rewrite app_nil_r. auto.
    - rewrite IHl by lia. simpl. rewrite !app_length. simpl. lia. }
  destruct t; [reflexivity|]. intros H. simpl nth. rewrite G by lia. lia.
Qed.
Lemma parts_distribution_length {A} (data : list (list A)) : length (parts_distribution data) = S (length data).
Proof.
  unfold parts_distribution. set (go := fix go (size : nat) (l : list (list A)) : list nat := match l with [] => [] | d :: r => (size + length d) :: go (size + length d) r end).
  assert (G : forall l sz, length (go sz l) = length l) by (induction l; intros; simpl; auto).
  simpl. now rewrite G.
Qed.
Lemma parts_distribution_ok {A} (data : list (list A)) : data <> [] ->
  distribution_of (length (concat data)) (parts_distribution data).
Proof.
  intros Hne. unfold distribution_of. rewrite parts_distribution_length. repeat split.
  - destruct data; [congruence|simpl; lia].
  - intros i j H. rewrite parts_distribution_length in H. rewrite !parts_distribution_nth by lia.
    replace j with (i + (j - i)) by lia. generalize (j - i) as k. intros k. clear.
    revert data; induction i; intros data; simpl; [lia|]. destruct data; simpl; [lia|]. rewrite !app_length. specialize (IHi data). lia.
  - rewrite last_nth by (intros E; assert (L := parts_distribution_length data); rewrite E in L; discriminate).
    rewrite parts_distribution_length. replace (S (length data) - 1) with (length data) by lia.
    rewrite parts_distribution_nth by lia. now rewrite firstn_all.
Qed.
Lemma parts_slice {A} (data : list (list A)) t : t < length data ->
  slice (nth t (parts_distribution data) 0) (nth (t + 1) (parts_distribution data) 0) (concat data) = nth t data [].
Proof.
  intros H. rewrite !parts_distribution_nth by lia.
  rewrite (concat_split data t) by auto.
  replace (t + 1) with (S t) by lia.
  assert (G : forall n (l : list (list A)), n < length l -> firstn (S n) l = firstn n l ++ [nth n l []]).
  { clear. induction n; intros [|a l] H; simpl in *; try lia; auto. f_equal. apply IHn. lia. }
  rewrite (G t data) by auto. rewrite concat_app, app_length. simpl. rewrite app_nil_r.
  unfold slice. rewrite skipn_app, Nat.sub_diag, skipn_all. simpl.
  replace (length (concat (firstn t data)) + length (nth t data []) - length (concat (firstn t data))) with (length (nth t data [])) by lia.
  rewrite firstn_app, Nat.sub_diag, firstn_all. simpl. apply app_nil_r.
Qed.

Lemma from_parts_ok {A} esz mem sched (data : list (list A)) alignment :
  good_memory esz mem alignment -> data <> [] -> parallel_order (length data) sched ->
  exists a, ta_from_parts esz mem sched data alignment = Ok a /\
    ta_list a = concat data /\ ta_size a = length (concat data) /\ ta_distribution a = parts_distribution data.
Proof.
  intros Hm Hne Hs. unfold ta_from_parts.
  pose proof (parts_distribution_ok data Hne) as Hd. pose proof Hd as (H2 & Hmo & H0 & Hl). rewrite Hl.
  destruct (Nat.eqb_spec (length (concat data)) 0) as [Hz|Hz].
  - eexists. split; [reflexivity|]. destruct (concat data); [|discriminate]. repeat split; auto.
  - pose proof (allocate_ok esz mem (length (concat data)) alignment Hm) as HA.
    destruct (ta_allocate esz mem (length (concat data)) alignment) as (buf0, off).
    destruct (write_parts (fun buf t => obind (rd data t) (fun dd => obind (rd (parts_distribution data) t) (fun b =>
        if off + b + length dd <=? length buf then Ok (put (off + b) (off + b + length dd) buf dd) else UB)))
       (concat data) (parts_distribution data) (length (concat data)) off sched buf0) as (buf & E & L & S); auto.
    + rewrite parts_distribution_length. simpl. now rewrite Nat.sub_0_r.
    + intros buf t Lb Ht. rewrite parts_distribution_length in Ht.
      rewrite (rd_ok _ _ []) by lia. cbn [obind]. rewrite (rd_ok _ t 0) by (rewrite parts_distribution_length; lia). cbn [obind].
      assert (Sl := parts_slice data t ltac:(lia)).
      assert (B := dist_bounds _ _ t (t + 1) Hd ltac:(rewrite parts_distribution_length; lia)).
      assert (Ll : length (nth t data []) = nth (t + 1) (parts_distribution data) 0 - nth t (parts_distribution data) 0).
      { rewrite <- Sl at 1. rewrite slice_length; lia. }
      destruct (Nat.leb_spec (off + nth t (parts_distribution data) 0 + length (nth t data [])) (length buf)); [|lia].
      rewrite Sl. do 2 f_equal. lia.
    + rewrite E. cbn [obind]. eexists. split; [reflexivity|]. unfold ta_list. simpl. auto.
Qed.

Lemma fill_loop {A} (init : A) off : forall n b buf, off + b + n <= length buf ->
  foldM (fun buf i => wr buf (off + i) init) (seq b n) buf = Ok (put (off + b) (off + b + n) buf (repeat init n)).
Proof.
  induction n; intros b buf H; simpl.
  - unfold put. simpl. rewrite Nat.add_0_r. now rewrite firstn_skipn.
  - rewrite wr_ok by lia. cbn [obind]. rewrite IHn by (rewrite upd_length; lia). f_equal.
    rewrite upd_put by lia. set (b1 := put (off + b) (S (off + b)) buf [init]).
    assert (L1 : length b1 = length buf) by (unfold b1; apply put_length; cbn [length]; lia).
    apply list_ext with (d := init).
    + rewrite !put_length; cbn [length]; rewrite ?repeat_length; lia.
    + intros i Hi. rewrite nth_put by (rewrite ?repeat_length; lia).
      rewrite (nth_put (off + b) (off + b + S n)) by (cbn [length]; rewrite ?repeat_length; lia).
      unfold b1. rewrite nth_put by (cbn [length]; lia).
      destruct (Nat.leb_spec (off + S b) i); destruct (Nat.ltb_spec i (off + S b + n)); destruct (Nat.leb_spec (off + b) i);
        destruct (Nat.ltb_spec i (S (off + b))); destruct (Nat.ltb_spec i (off + b + S n)); cbn [andb]; try lia; auto.
      * rewrite nth_repeat_lt by lia. destruct (i - (off + b)) eqn:E; [lia|]. cbn [nth]. rewrite nth_repeat_lt by lia. auto.
      * replace (i - (off + b)) with 0 by lia. auto.
Qed.

Lemma slice_repeat {A} (a : A) b e n : b <= e <= n -> slice b e (repeat a n) = repeat a (e - b).
Proof.
  intros H. apply list_ext with (d := a).
  - rewrite slice_length; rewrite ?repeat_length; lia.
  - intros i Hi. rewrite slice_length in Hi by (rewrite repeat_length; lia).
    rewrite nth_slice by lia. rewrite !nth_repeat_lt by lia. auto.
Qed.

Lemma fill_ok {A} esz mem sched d n (init : A) alignment :
  good_memory esz mem alignment -> distribution_of n d -> parallel_order (length d - 1) sched ->
  exists a, ta_fill esz mem sched d n init alignment = Ok a /\
    ta_list a = repeat init n /\ ta_size a = n /\ ta_distribution a = d.
Proof.
  intros Hm Hd Hs. unfold ta_fill.
  destruct (Nat.eqb_spec n 0) as [H0|H0].
  - eexists. split; [reflexivity|]. subst. repeat split; auto.
  - pose proof (allocate_ok esz mem n alignment Hm) as HA.
    destruct (ta_allocate esz mem n alignment) as (buf0, off).
    destruct (write_parts (fun buf t => obind (rd d t) (fun b => obind (rd d (t + 1)) (fun e => foldM (fun buf i => wr buf (off + i) init) (seq b (e - b)) buf)))
       (repeat init n) d n off sched buf0) as (buf & E & L & S); auto.
    + apply repeat_length.
    + intros buf t Lb Ht. rewrite (rd_ok _ _ 0), (rd_ok _ (t + 1) 0) by lia. cbn [obind].
      assert (B := dist_bounds d n t (t + 1) Hd ltac:(lia)).
      rewrite fill_loop by lia. rewrite slice_repeat by lia. do 2 f_equal. lia.
    + rewrite E. cbn [obind]. eexists. split; [reflexivity|]. unfold ta_list. simpl. auto.
Qed.

Lemma copy_ok {A} esz mem sched (o : tarray A) :
  good_memory esz mem (ta_alignment o) -> ta_off o + ta_size o <= length (ta_buf o) ->
  distribution_of (ta_size o) (ta_distribution o) ->
  parallel_order (length (ta_distribution o) - 1) sched ->
  exists a, ta_copy esz mem sched o = Ok a /\
    ta_list a = ta_list o /\ ta_size a = ta_size o /\ ta_distribution a = ta_distribution o /\ ta_alignment a = ta_alignment o.
Proof.
  intros Hm Hb Hd Hs. unfold ta_copy.
  destruct (Nat.eqb_spec (ta_size o) 0) as [H0|H0].
  - eexists. split; [reflexivity|]. unfold ta_list. simpl. rewrite H0, Nat.add_0_r, !slice_nil. auto.
  - pose proof (allocate_ok esz mem (ta_size o) (ta_alignment o) Hm) as HA.
    destruct (ta_allocate esz mem (ta_size o) (ta_alignment o)) as (buf0, off).
    set (d := ta_distribution o) in *. set (src := skipn (ta_off o) (ta_buf o)).
    assert (Lsrc : ta_size o <= length src) by (unfold src; rewrite skipn_length; lia).
    destruct (write_parts (fun buf t => obind (rd d t) (fun b => obind (rd d (t + 1)) (fun e => copy_range off src buf b e)))
       (firstn (ta_size o) src) d (ta_size o) off sched buf0) as (buf & E & L & S); auto.
    + rewrite firstn_length. lia.
    + intros buf t Lb Ht. rewrite (rd_ok _ _ 0), (rd_ok _ (t + 1) 0) by lia. cbn [obind].
      assert (B := dist_bounds d (ta_size o) t (t + 1) Hd ltac:(lia)). unfold copy_range.
      destruct (Nat.leb_spec (nth t d 0) (nth (t + 1) d 0)); [|lia].
      destruct (Nat.leb_spec (nth (t + 1) d 0) (length src)); [|lia].
      destruct (Nat.leb_spec (off + nth (t + 1) d 0) (length buf)); [|lia]. simpl. do 2 f_equal.
      unfold slice. rewrite skipn_firstn_comm, firstn_firstn. f_equal. lia.
    + unfold copy_parts. rewrite E. cbn [obind]. eexists. split; [reflexivity|]. unfold ta_list. simpl. rewrite S.
      repeat split; auto. unfold src, slice. f_equal. lia.
Qed.

(** ** pack / unpack *)
Lemma chunks_concat (l : list (list Z)) k : (forall x, In x l -> length x = k) -> chunks (length l) k (concat l) = l.
Proof.
  induction l; intros H; auto. simpl. assert (La : length a = k) by (apply H; now left).
  rewrite firstn_app, skipn_app, La, Nat.sub_diag, firstn_all2, skipn_all2 by lia. simpl. rewrite app_nil_r.
  f_equal. apply IHl. intros; apply H; now right.
Qed.

Section Pack.
Context {A : Type}.
Variables (esz : nat) (rep : A -> list Z) (unrep : list Z -> A).
Variable good : A -> Prop.
Hypothesis rep_len : forall a, good a -> length (rep a) = esz.
Hypothesis unrep_rep : forall a, good a -> unrep (rep a) = a.

Definition ta_message (a : tarray A) : list Z :=
  le_bytes 8 (Z.of_nat (length (ta_distribution a))) ++ words (ta_distribution a) ++
  le_bytes 8 (Z.of_nat (ta_size a)) ++ concat (map rep (firstn (ta_size a) (ta_buf a))).

Lemma words_length l : length (words l) = length l * 8.
Proof. unfold words. induction l; cbn [map concat length]; auto. rewrite app_length, le_bytes_length, IHl. reflexivity. Qed.

Lemma concat_rep_length l : Forall good l -> length (concat (map rep l)) = length l * esz.
Proof. induction 1; simpl; auto. rewrite app_length, rep_len by auto. lia. Qed.

Lemma ta_message_length a : ta_size a <= length (ta_buf a) -> Forall good (firstn (ta_size a) (ta_buf a)) ->
  length (ta_message a) = ta_packedSize esz a.
Proof.
  intros H F. unfold ta_message, ta_packedSize, sizeof_size_t. rewrite !app_length, !le_bytes_length, words_length.
  rewrite concat_rep_length by auto. rewrite firstn_length, Nat.min_l by lia. lia.
Qed.

Lemma store_head pre mid post m : length m <= length mid ->
  store (pre ++ mid ++ post, length pre) m = Ok ((pre ++ m) ++ skipn (length m) mid ++ post, length (pre ++ m)).
Proof.
  intros H. rewrite <- (firstn_skipn (length m) mid) at 1. rewrite <- (app_assoc (firstn (length m) mid)).
  rewrite store_mid by (rewrite firstn_length; lia). now rewrite <- !app_assoc.
Qed.

Lemma ta_pack_mid a pre mid post : ta_size a <= length (ta_buf a) ->
  length mid = length (ta_message a) ->
  ta_pack rep a (pre ++ mid ++ post, length pre) = Ok (pre ++ ta_message a ++ post, length (pre ++ ta_message a)).
Proof.
  intros H L. unfold ta_pack, sizeof_size_t.
  unfold ta_message in *. rewrite !app_length, !le_bytes_length in L.
  set (m1 := le_bytes 8 _). set (m2 := words _) in *. set (m3 := le_bytes 8 (Z.of_nat (ta_size a))). set (m4 := concat _) in *.
  assert (L1 : length m1 = 8) by apply le_bytes_length.
  assert (L3 : length m3 = 8) by apply le_bytes_length.
  rewrite store_head by lia. cbn [obind]. rewrite store_head by (rewrite skipn_length; lia). cbn [obind].
  rewrite store_head by (rewrite !skipn_length; lia). cbn [obind].
  set (r3 := skipn (length m3) _). assert (Lr3 : length r3 = length m4) by (unfold r3; rewrite !skipn_length; lia).
  destruct (Nat.eqb_spec (ta_size a) 0) as [H0|H0].
  - assert (m4 = []) by (unfold m4; rewrite H0; reflexivity).
    destruct r3; [|rewrite H1 in Lr3; discriminate]. rewrite H1. cbn [app]. rewrite <- !app_assoc. cbn [app]. rewrite ?app_nil_r. reflexivity.
  - destruct (Nat.leb_spec (ta_size a) (length (ta_buf a))); [|lia].
    rewrite store_mid by lia. now rewrite <- !app_assoc.
Qed.

Definition fits64 (n : nat) : Prop := (Z.of_nat n < 2 ^ 64)%Z.

Lemma of_le_nat n : fits64 n -> Z.to_nat (of_le (le_bytes 8 (Z.of_nat n))) = n.
Proof. intros H. rewrite of_le_bytes; [lia|]. unfold fits64 in H. change (256 ^ Z.of_nat 8)%Z with (2 ^ 64)%Z. lia. Qed.

Lemma ta_unpack_mid mem a old pre post :
  ta_size a <= length (ta_buf a) -> Forall good (firstn (ta_size a) (ta_buf a)) ->
  fits64 (ta_size a) -> fits64 (length (ta_distribution a)) -> Forall fits64 (ta_distribution a) ->
  ta_distribution a <> [] -> ta_alignment old = 0 ->
  exists a', ta_unpack esz unrep mem old (pre ++ ta_message a ++ post) (length pre) =
      Ok (a', length (pre ++ ta_message a)) /\
    ta_size a' = ta_size a /\ ta_distribution a' = ta_distribution a /\ ta_alignment a' = 0 /\
    (ta_size a = 0 \/ ta_off a' = 0 /\ ta_buf a' = firstn (ta_size a) (ta_buf a)).
Proof.
  intros H F Fs Fl Fd Hne Ha. unfold ta_unpack, ta_message, sizeof_size_t.
  set (m1 := le_bytes 8 _). set (m2 := words _). set (m3 := le_bytes 8 (Z.of_nat (ta_size a))). set (m4 := concat _).
  rewrite <- !app_assoc. rewrite load_mid by (unfold m1; apply le_bytes_length). cbn [obind].
  assert (D1 : Z.to_nat (of_le m1) = length (ta_distribution a)) by (apply of_le_nat; auto).
  assert (D3 : Z.to_nat (of_le m3) = ta_size a) by (apply of_le_nat; auto).
  rewrite !D1. rewrite (app_assoc pre).
  rewrite load_mid by (unfold m2; now rewrite words_length). cbn [obind].
  rewrite (app_assoc (pre ++ m1)), load_mid by (unfold m3; apply le_bytes_length). cbn [obind].
  rewrite !D3.
  assert (Ed : map (fun w => Z.to_nat (of_le w)) (chunks (length (ta_distribution a)) 8 m2) = ta_distribution a).
  { unfold m2, words. rewrite <- (map_length (fun n => le_bytes sizeof_size_t (Z.of_nat n)) (ta_distribution a)).
    rewrite chunks_concat.
    - rewrite map_map. clear - Fd. induction Fd; cbn [map]; auto. unfold sizeof_size_t at 1. rewrite of_le_nat by auto. f_equal. apply IHFd.
    - intros x Hx. apply in_map_iff in Hx. destruct Hx as (n & <- & _). apply le_bytes_length. }
  rewrite !Ed.
  assert (E1 : match ta_distribution a with [] => true | _ => false end = false) by (destruct (ta_distribution a); congruence).
  rewrite E1, andb_false_r.
  destruct (Nat.eqb_spec (ta_size a) 0) as [H0|H0].
  - exists (mkTarray 0 (ta_alignment old) (ta_distribution a) (ta_buf old) (ta_off old)). split; [|cbn; repeat split; auto].
    assert (m4 = []) by (unfold m4; rewrite H0; reflexivity). rewrite H1, !app_nil_r. now rewrite <- !app_assoc.
  - rewrite Ha. cbn [ta_allocate].
    rewrite (app_assoc ((pre ++ m1) ++ m2)), load_mid by (unfold m4; rewrite concat_rep_length, firstn_length by auto; f_equal; lia).
    cbn [obind]. eexists. split; [rewrite <- !app_assoc; reflexivity|]. cbn. repeat split; auto. right. split; auto.
    unfold put. rewrite skipn_all2 by (rewrite map_length, seq_length; lia). rewrite app_nil_r. cbn [firstn app].
    unfold m4. replace (ta_size a) with (length (map rep (firstn (ta_size a) (ta_buf a)))) at 1
      by (rewrite map_length, firstn_length; lia).
    rewrite chunks_concat.
    + rewrite map_map. clear - F unrep_rep. induction F; simpl; auto. rewrite unrep_rep by auto. now f_equal.
    + intros x Hx. apply in_map_iff in Hx. destruct Hx as (y & <- & Hy). apply rep_len.
      rewrite Forall_forall in F. auto.
Qed.
End Pack.
