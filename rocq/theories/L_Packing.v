(** * Lemmas: packing *)
From Coq Require Import ZArith List Bool Arith Lia.
From Verif Require Import Base M_Packing S_Packing.
Import ListNotations.

Lemma le_bytes_length n v : length (le_bytes n v) = n.
Proof. revert v; induction n; simpl; auto. Qed.

Lemma of_le_bytes n v : (0 <= v < 256 ^ Z.of_nat n)%Z -> of_le (le_bytes n v) = v.
Proof.
  revert v; induction n; intros v H; cbn [le_bytes of_le].
  - simpl in H. lia.
  - rewrite Nat2Z.inj_succ, Z.pow_succ_r in H by lia.
    rewrite IHn.
    + rewrite Z.add_comm. symmetry. apply Z.div_mod. lia.
    + split; [apply Z.div_pos; lia|]. apply Z.div_lt_upper_bound; lia.
Qed.

Lemma store_mid pre mid post b : length mid = length b ->
  store (pre ++ mid ++ post, length pre) b = Ok (pre ++ b ++ post, length (pre ++ b)).
Proof.
  intros H. unfold store. rewrite !app_length.
  destruct (Nat.leb_spec (length pre + length b) (length pre + (length mid + length post))); [|lia].
  do 2 f_equal. unfold put. rewrite firstn_app, Nat.sub_diag, firstn_all. simpl. rewrite app_nil_r. do 2 f_equal.
  rewrite app_assoc, skipn_app, skipn_all2 by (rewrite app_length; lia). simpl.
  rewrite app_length. replace (length pre + length b - (length pre + length mid)) with 0 by lia. reflexivity.
Qed.

Lemma load_mid pre b post n : length b = n ->
  load (pre ++ b ++ post) (length pre) n = Ok (b, length (pre ++ b)).
Proof.
  intros <-. unfold load. rewrite !app_length.
  destruct (Nat.leb_spec (length pre + length b) (length pre + (length b + length post))); [|lia].
  do 2 f_equal. unfold slice.
  rewrite skipn_app, Nat.sub_diag, skipn_all. simpl.
  replace (length pre + length b - length pre) with (length b) by lia.
  rewrite firstn_app, Nat.sub_diag, firstn_all. simpl. apply app_nil_r.
Qed.

Fixpoint encode (t : ty) : den t -> list Z :=
  match t with
  | TFixed n => fun b => b
  | TString => fun s => le_bytes 8 (Z.of_nat (length s)) ++ s
  | TVec t => fun l => le_bytes 8 (Z.of_nat (length l)) ++ concat (map (encode t) l)
  end.

Lemma fold_size {A} (f : A -> nat) l a : fold_left (fun s d => s + f d) l a = a + fold_right (fun d s => f d + s) 0 l.
Proof. revert a; induction l; simpl; intros; [lia|]. rewrite IHl. lia. Qed.

Lemma encode_length t : forall v, fits t v -> length (encode t v) = packedSize t v.
Proof.
  induction t; cbn [encode packedSize]; intros v H; auto.
  rewrite fold_size, app_length, le_bytes_length. unfold sizeof_size_t. f_equal. destruct H as [_ H].
    induction H; simpl; auto. rewrite app_length. rewrite IHt by auto. f_equal; auto.
Qed.

Lemma pack_mid t : forall v pre mid post, fits t v -> length mid = length (encode t v) ->
  pack t v (pre ++ mid ++ post, length pre) = Ok (pre ++ encode t v ++ post, length (pre ++ encode t v)).
Proof.
  induction t as [n| |t IH]; intros v pre mid post F H; cbn [pack].
  - apply store_mid. exact H.
  - cbn [encode] in H. rewrite app_length in H.
    rewrite <- (firstn_skipn 8 mid), <- app_assoc.
    assert (L1 : length (firstn 8 mid) = length (le_bytes sizeof_size_t (Z.of_nat (length v)))).
    { rewrite firstn_length, le_bytes_length in *. unfold sizeof_size_t. lia. }
    rewrite store_mid by exact L1. cbn [obind].
    rewrite (app_assoc pre), store_mid.
    + cbn [encode]. unfold sizeof_size_t. now rewrite <- !app_assoc.
    + rewrite skipn_length, le_bytes_length in *. lia.
  - cbn [encode] in H. rewrite app_length in H.
    rewrite <- (firstn_skipn 8 mid), <- app_assoc.
    assert (L1 : length (firstn 8 mid) = length (le_bytes sizeof_size_t (Z.of_nat (length v)))).
    { rewrite firstn_length, le_bytes_length in *. unfold sizeof_size_t. lia. }
    rewrite store_mid by exact L1. cbn [obind]. rewrite (app_assoc pre).
    assert (L2 : length (skipn 8 mid) = length (concat (map (encode t) v))).
    { rewrite skipn_length, le_bytes_length in *. lia. }
    cbn [encode]. destruct F as [_ F].
    unfold sizeof_size_t. set (hd := le_bytes 8 _) in *. clearbody hd.
    rewrite <- (app_assoc hd), !(app_assoc pre hd). set (pr := pre ++ hd). clearbody pr.
    set (md := skipn 8 mid) in *. clearbody md.
    clear H L1 hd pre mid. revert pr md L2. induction F as [|d l Hd Hl IHl]; intros pr md L2; cbn [foldM map concat].
    + simpl in *. destruct md; [|discriminate]. now rewrite app_nil_r.
    + simpl in L2. rewrite app_length in L2.
      rewrite <- (firstn_skipn (length (encode t d)) md), <- app_assoc.
      rewrite IH; auto.
      * cbn [obind]. rewrite (app_assoc pr). rewrite IHl.
        -- rewrite <- !app_assoc. reflexivity.
        -- rewrite skipn_length. lia.
      * rewrite firstn_length. lia.
Qed.

Lemma resize_length {A} n (l : list A) d : length (resize n l d) = n.
Proof. unfold resize. rewrite app_length, firstn_length, repeat_length. lia. Qed.

Lemma firstn_upd_snoc {A} (l : list A) k d : k < length l -> firstn (S k) (upd l k d) = firstn k l ++ [d].
Proof.
  revert k; induction l; intros k H; simpl in H; [lia|]. destruct k; [reflexivity|].
  simpl. f_equal. apply IHl. lia.
Qed.

Lemma unpack_mid t : forall v old pre post, fits t v ->
  unpack t old (pre ++ encode t v ++ post) (length pre) = Ok (v, length (pre ++ encode t v)).
Proof.
  assert (D : forall n, (Z.of_nat n < 2 ^ 64)%Z -> of_le (le_bytes 8 (Z.of_nat n)) = Z.of_nat n).
  { intros. apply of_le_bytes. split; [lia|]. exact H. }
  induction t as [n| |t IH]; intros v old pre post F; cbn [unpack].
  - apply load_mid. exact F.
  - cbn [encode]. rewrite <- app_assoc. rewrite load_mid by reflexivity. cbn [obind].
    rewrite (app_assoc pre), load_mid.
    + now rewrite <- !app_assoc.
    + rewrite D by exact F. lia.
  - cbn [encode]. rewrite <- app_assoc. rewrite load_mid by reflexivity. cbn [obind].
    destruct F as [Fl F]. rewrite D by exact Fl. rewrite Nat2Z.id. change (list (den t)) in v. change (list (den t)) in old.
    rewrite (app_assoc pre).
    set (hd := le_bytes 8 _). clearbody hd. rewrite !(app_assoc pre hd). set (pr := pre ++ hd). clearbody pr. clear pre hd Fl.
    assert (G : forall rest done pre, v = done ++ rest -> pr ++ concat (map (encode t) v) = pre ++ concat (map (encode t) rest) ->
      forall data, length data = length v -> firstn (length done) data = done ->
      foldM (fun '(data, p) i => obind (rd data i) (fun d => obind (unpack t d (pr ++ concat (map (encode t) v) ++ post) p)
        (fun x => let '(d, p) := x in obind (wr data i d) (fun data => Ok (data, p)))))
        (seq (length done) (length rest)) (data, length pre) = Ok (v, length (pre ++ concat (map (encode t) rest)))).
    { induction rest as [|d rest IHr]; intros done pre Ev Ep dt Lt Hd; cbn [length seq foldM].
      - simpl. do 2 f_equal. 
        + rewrite app_nil_r in Ev. subst. rewrite <- Lt, firstn_all in Hd. exact Hd.
        + now rewrite app_nil_r.
      - assert (length done < length v) by (rewrite Ev, app_length; simpl; lia).
        rewrite (rd_ok _ _ d) by lia. cbn [obind].
        rewrite app_assoc, Ep. cbn [map concat]. rewrite <- !app_assoc.
        rewrite IH. cbn [obind]. 2:{ rewrite Ev in F. apply Forall_app in F. destruct F as [_ F]. now inversion F. }
        rewrite wr_ok by lia. cbn [obind].
        specialize (IHr (done ++ [d]) (pre ++ encode t d)).
        rewrite app_length in IHr. simpl (length [d]) in IHr. replace (length done + 1) with (S (length done)) in IHr by lia.
        rewrite <- !app_assoc in IHr. cbn [map concat] in Ep. 
        specialize (IHr Ev Ep (upd dt (length done) d)).
        rewrite (app_assoc pr), Ep, <- !app_assoc in IHr. rewrite IHr; auto.
        + rewrite upd_length. exact Lt.
        + rewrite firstn_upd_snoc by lia. now rewrite Hd. }
    assert (G' : forall n, n = length v -> forall data : list (den t), length data = length v ->
      foldM (fun '(data, p) i => obind (rd data i) (fun d => obind (unpack t d (pr ++ concat (map (encode t) v) ++ post) p)
        (fun x => let '(d, p) := x in obind (wr data i d) (fun data => Ok (data, p)))))
        (seq 0 n) (data, length pr) = Ok (v, length (pr ++ concat (map (encode t) v)))).
    { intros n -> data Ld. exact (G v [] pr eq_refl eq_refl data Ld eq_refl). }
    exact (G' _ (resize_length (length v) old (dflt t)) _ (resize_length (length v) old (dflt t))).
Qed.

Lemma packAll_mid l : forall pre mid post, Forall (fun x => fits (projT1 x) (projT2 x)) l ->
  length mid = messageSize l ->
  exists msg, length msg = messageSize l /\
    packAll l (pre ++ mid ++ post, length pre) = Ok (pre ++ msg ++ post, length (pre ++ msg)) /\
    (forall old pre' post', map (@projT1 _ _) old = map (@projT1 _ _) l ->
      unpackAll old (pre' ++ msg ++ post') (length pre') = Ok (l, length (pre' ++ msg))).
Proof.
  induction l as [|[t v] l IH]; intros pre mid post F H.
  - destruct mid; [|discriminate]. exists []. split; auto. split.
    + simpl. now rewrite app_nil_r.
    + intros [|] ? ? E; [|discriminate]. simpl. now rewrite app_nil_r.
  - inversion F as [|? ? Fv Fl]; subst. simpl in Fv, H.
    set (k := packedSize t v) in *.
    assert (Lk : length (encode t v) = k) by (now apply encode_length).
    destruct (IH (pre ++ encode t v) (skipn k mid) post Fl) as (msg & Lm & Pm & Um).
    { rewrite skipn_length. lia. }
    exists (encode t v ++ msg). split; [|split].
    + rewrite app_length. simpl. fold k. lia.
    + unfold packAll. cbn [foldM projT1 projT2].
      rewrite <- (firstn_skipn k mid), <- app_assoc, pack_mid; auto.
      * cbn [obind]. rewrite (app_assoc pre). unfold packAll in Pm. rewrite Pm. now rewrite <- !app_assoc.
      * rewrite firstn_length. lia.
    + intros [|[t' o] old] pre' post' E; [discriminate|]. simpl in E. inversion E; subst t'.
      cbn [unpackAll projT1 projT2]. rewrite <- app_assoc, unpack_mid by auto. cbn [obind].
      rewrite (app_assoc pre'), Um by auto. cbn [obind]. now rewrite <- !app_assoc.
Qed.
