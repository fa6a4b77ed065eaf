(** Lemmas about the dual operators: the explicit operator. *)
From Coq Require Import List Arith Bool Permutation Sorted Reals Lia Lra.
From Verif Require Import Base S_Dual M_Dual S_Equality M_Equality L_Equality6 L_Equality7 M_TotalFeti S_Feti L_TotalFeti.
Import ListNotations.
Local Open Scope out_scope.
Local Open Scope R_scope.

(** loops that write different positions *)
Lemma foldM_writes {A T} (dflt : T) (f : list T -> A -> outcome (list T)) (ix : A -> nat) (val : A -> T) N l :
  (forall vals x, In x l -> length vals = N -> f vals x = Ok (upd vals (ix x) (val x))) -> (forall x, In x l -> (ix x < N)%nat) -> NoDup (map ix l) ->
  forall vals, length vals = N -> exists vals', foldM f l vals = Ok vals' /\ length vals' = N /\ (forall x, In x l -> nth (ix x) vals' dflt = val x) /\
    (forall k, ~ In k (map ix l) -> nth k vals' dflt = nth k vals dflt).
Proof.
  induction l as [|a l IH]; intros H1 H2 H3 vals Lv; cbn [foldM map].
  - exists vals. repeat split; auto. intros ? [].
  - rewrite H1 by (easy || now left). cbn [obind]. cbn [map] in H3. inversion H3 as [|? ? Na Nl]; subst.
    destruct (IH (fun v x I => H1 v x (or_intror I)) (fun x I => H2 x (or_intror I)) Nl (upd vals (ix a) (val a)) ltac:(now rewrite upd_length)) as (v' & E1 & E2 & E3 & E4).
    exists v'. split; [exact E1|]. split; [exact E2|]. assert (La : (ix a < length vals)%nat) by (apply H2; now left). split.
    + intros x [<-|I]; [|now apply E3]. rewrite E4 by easy. rewrite nth_upd by easy. now rewrite Nat.eqb_refl.
    + intros k Nk. rewrite E4 by (intros I; apply Nk; now right). rewrite nth_upd by easy. destruct (Nat.eqb_spec (ix a) k) as [Eq|]; [|reflexivity]. destruct Nk. now left.
Qed.

(* ---- dense rows ---------------------------------------------------------------------- *)
Lemma zeros_ok base stop vals cc : (base + stop <= length vals)%nat ->
  exists vals', zeros 0 base stop (vals, cc) = Ok (vals', Nat.max cc stop) /\ length vals' = length vals /\
    forall k, nth k vals' 0 = if (base + cc <=? k)%nat && (k <? base + stop)%nat then 0 else nth k vals 0.
Proof.
  intros H. unfold zeros.
  destruct (foldM_writes 0 (fun vals c => wr vals (base + c) 0) (fun c => base + c)%nat (fun _ => 0) (length vals) (seq cc (stop - cc))) with (vals := vals) as (v' & E1 & E2 & E3 & E4).
  - intros v x I Lv. apply in_seq in I. apply wr_ok. lia.
  - intros x I. apply in_seq in I. lia.
  - apply FinFun.Injective_map_NoDup; [intros a b; lia|apply seq_NoDup].
  - reflexivity.
  - exists v'. rewrite E1. cbn [obind]. split; [reflexivity|]. split; [exact E2|]. intros k.
    destruct (Nat.leb_spec (base + cc) k) as [A|A], (Nat.ltb_spec k (base + stop)) as [A'|A']; cbn [andb].
    + replace k with (base + (k - base))%nat by lia. apply (E3 (k - base)%nat). apply in_seq. lia.
    + apply E4. rewrite in_map_iff. intros (c & <- & I). apply in_seq in I. lia.
    + apply E4. rewrite in_map_iff. intros (c & <- & I). apply in_seq in I. lia.
    + apply E4. rewrite in_map_iff. intros (c & <- & I). apply in_seq in I. lia.
Qed.

Lemma entry_sum_cons e es j : entry_sum (e :: es) j = (if (fst e =? j)%nat then snd e else 0) + entry_sum es j.
Proof. reflexivity. Qed.
Lemma entry_sum_out es j : (forall e, In e es -> fst e <> j) -> entry_sum es j = 0.
Proof. intros H. apply Sum_zero. intros e I. destruct (Nat.eqb_spec (fst e) j) as [Eq|]; [|reflexivity]. destruct (H e I Eq). Qed.

Lemma fill_entries_ok ncols base es : forall vals cc, StronglySorted lt (map fst es) -> (forall e, In e es -> (cc <= fst e < ncols)%nat) -> (base + ncols <= length vals)%nat -> (cc <= ncols)%nat ->
  exists vals' cc', foldM (fill_entry 0 base) es (vals, cc) = Ok (vals', cc') /\ length vals' = length vals /\ (cc <= cc' <= ncols)%nat /\ (forall e, In e es -> (fst e < cc')%nat) /\
    forall k, nth k vals' 0 = if (base + cc <=? k)%nat && (k <? base + cc')%nat then entry_sum es (k - base) else nth k vals 0.
Proof.
  induction es as [|(c, v) es IH]; intros vals cc S R Lv Lc; cbn [foldM].
  - exists vals, cc. split; [reflexivity|]. split; [reflexivity|]. split; [lia|]. split; [intros ? []|]. intros k.
    destruct (Nat.leb_spec (base + cc) k), (Nat.ltb_spec k (base + cc)); cbn [andb]; (reflexivity || lia).
  - cbn [map fst] in S. apply StronglySorted_inv in S as [S F]. rewrite Forall_forall in F. pose proof (R (c, v) (or_introl eq_refl)) as R0. cbn [fst] in R0.
    unfold fill_entry at 1. cbn [fst snd]. destruct (zeros_ok base c vals cc ltac:(lia)) as (v1 & E1 & L1 & N1). rewrite E1. cbn [obind]. replace (Nat.max cc c) with c by lia.
    rewrite wr_ok by lia. cbn [obind].
    assert (G : forall e, In e es -> (c < fst e)%nat) by (intros e I; apply F, in_map, I).
    destruct (IH (upd v1 (base + c) v) (c + 1)%nat S) as (v' & cc' & E2 & L2 & C2 & M2 & N2).
    + intros e I. pose proof (G e I). pose proof (R e (or_intror I)). lia.
    + rewrite upd_length. lia.
    + lia.
    + rewrite E2. exists v', cc'. split; [reflexivity|]. split; [now rewrite L2, upd_length|]. split; [lia|]. split.
      * intros e [<-|I]; [cbn [fst]; lia|now apply M2].
      * intros k. rewrite N2. rewrite nth_upd by lia. rewrite N1. rewrite entry_sum_cons. cbn [fst snd].
        destruct (Nat.leb_spec (base + cc) k) as [A|A], (Nat.ltb_spec k (base + cc')) as [A'|A'], (Nat.leb_spec (base + (c + 1)) k) as [D|D], (Nat.eqb_spec (base + c) k) as [Q|Q], (Nat.ltb_spec k (base + c)) as [W|W],
          (Nat.eqb_spec c (k - base)) as [Z|Z]; cbn [andb]; try lia; try reflexivity; try lra.
        -- rewrite entry_sum_out; [lra|]. intros e I. pose proof (G e I). lia.
        -- rewrite entry_sum_out; [lra|]. intros e I. pose proof (G e I). lia.
Qed.

Lemma fill_row_ok ncols i p es vals : StronglySorted lt (map fst es) -> (forall e, In e es -> (fst e < ncols)%nat) -> (i * ncols + ncols <= length vals)%nat ->
  exists vals', fill_row 0 ncols vals (i, (p, es)) = Ok vals' /\ length vals' = length vals /\
    forall k, nth k vals' 0 = if (i * ncols <=? k)%nat && (k <? i * ncols + ncols)%nat then entry_sum es (k - i * ncols) else nth k vals 0.
Proof.
  intros S R Lv. unfold fill_row. cbn [fst snd]. destruct (fill_entries_ok ncols (i * ncols) es vals 0 S ltac:(intros e I; specialize (R e I); lia) Lv ltac:(lia)) as (v1 & cc & E1 & L1 & C1 & M1 & N1).
  rewrite E1. cbn [obind]. destruct (zeros_ok (i * ncols) ncols v1 cc ltac:(lia)) as (v2 & E2 & L2 & N2). rewrite E2. cbn [obind]. exists v2. split; [reflexivity|]. split; [lia|].
  intros k. rewrite N2, N1. rewrite Nat.add_0_r.
  destruct (Nat.leb_spec (i * ncols + cc) k), (Nat.ltb_spec k (i * ncols + ncols)), (Nat.leb_spec (i * ncols) k), (Nat.ltb_spec k (i * ncols + cc)); cbn [andb]; try lia; try reflexivity.
  symmetry. apply entry_sum_out. intros e I. pose proof (M1 e I). lia.
Qed.

Lemma slice_nth {T} (l : list T) b e k d : (k < e - b)%nat -> nth k (slice b e l) d = nth (b + k) l d.
Proof.
  intros H. unfold slice. assert (G : forall m (l : list T) k, (k < m)%nat -> nth k (firstn m l) d = nth k l d).
  { induction m; intros l' k' Hk; [lia|]. destruct l'; [reflexivity|]. destruct k'; [reflexivity|]. cbn. apply IHm. lia. }
  rewrite G by easy. clear. revert l. induction b; intros l; [reflexivity|]. destruct l; cbn [skipn Nat.add nth]; [now destruct k|apply IHb].
Qed.
Lemma slice_length {T} (l : list T) b e : (b <= e <= length l)%nat -> length (slice b e l) = (e - b)%nat.
Proof. intros H. unfold slice. rewrite firstn_length, skipn_length. lia. Qed.

Lemma fill_Bt_ok ncols (b : list (nat * list (nat * R))) vals : (forall x, In x b -> StronglySorted lt (map fst (snd x)) /\ forall e, In e (snd x) -> (fst e < ncols)%nat) -> length vals = (length b * ncols)%nat ->
  exists vals', fill_Bt 0 ncols b vals = Ok vals' /\ length vals' = length vals /\
    forall i, (i < length b)%nat -> slice (i * ncols) (i * ncols + ncols) vals' = map (entry_sum (snd (nth i b (O, [])))) (seq 0 ncols).
Proof.
  intros H Lv. unfold fill_Bt.
  assert (G : forall post pre v, b = pre ++ post -> length v = (length b * ncols)%nat ->
    (forall i j, (i < length pre)%nat -> (j < ncols)%nat -> nth (i * ncols + j) v 0 = entry_sum (snd (nth i b (O, []))) j) ->
    exists v', foldM (fill_row 0 ncols) (combine (seq (length pre) (length post)) post) v = Ok v' /\ length v' = (length b * ncols)%nat /\
      (forall i j, (i < length b)%nat -> (j < ncols)%nat -> nth (i * ncols + j) v' 0 = entry_sum (snd (nth i b (O, []))) j)).
  { induction post as [|(p, es) post IH]; intros pre v Eb Lv' Hv.
    - rewrite app_nil_r in Eb. subst pre. exists v. cbn [combine length seq foldM]. auto.
    - cbn [length seq combine foldM]. pose proof (H (p, es)) as He. rewrite Eb in He at 1. specialize (He ltac:(apply in_or_app; right; now left)). destruct He as [S R0]. cbn [snd] in *.
      assert (Lp : (length pre < length b)%nat) by (rewrite Eb, app_length; cbn; lia).
      destruct (fill_row_ok ncols (length pre) p es v S R0) as (v1 & E1 & L1 & N1); [rewrite Lv'; nia|]. rewrite E1. cbn [obind].
      destruct (IH (pre ++ [(p, es)]) v1) as (v2 & E2 & L2 & N2).
      + rewrite <- app_assoc. exact Eb.
      + lia.
      + intros i j Hi Hj. rewrite app_length in Hi. cbn in Hi. rewrite N1. destruct (Nat.eq_dec i (length pre)) as [->|Ni].
        * replace (length pre * ncols <=? length pre * ncols + j)%nat with true by (symmetry; apply Nat.leb_le; lia). replace (length pre * ncols + j <? length pre * ncols + ncols)%nat with true by (symmetry; apply Nat.ltb_lt; lia).
          cbn [andb]. replace (length pre * ncols + j - length pre * ncols)%nat with j by lia. do 2 f_equal. rewrite Eb, app_nth2, Nat.sub_diag by lia. reflexivity.
        * replace (length pre * ncols <=? i * ncols + j)%nat with false by (symmetry; apply Nat.leb_gt; nia). cbn [andb]. apply Hv; [lia|easy].
      + rewrite app_length in E2. cbn [length] in E2. replace (length pre + 1)%nat with (Datatypes.S (length pre)) in E2 by lia. exists v2. auto. }
  destruct (G b [] vals eq_refl Lv) as (v' & E1 & L1 & N1); [intros; cbn in *; lia|]. cbn [length] in E1. exists v'. split; [exact E1|]. split; [lia|].
  intros i Hi. apply (nth_ext _ _ 0 0).
  - rewrite map_length, seq_length, slice_length; nia.
  - intros k Hk. rewrite slice_length in Hk by nia. rewrite slice_nth by easy. rewrite map_seq_nth by lia. apply N1; [easy|lia].
Qed.

(* ---- assembled matrix ---------------------------------------------------------------- *)
Lemma upd_same {T} (l : list T) i x y : upd (upd l i x) i y = upd l i y.
Proof. revert i. induction l as [|a l IH]; intros i; [destruct i; reflexivity|]. destruct i; cbn; [reflexivity|]. now rewrite IH. Qed.
Lemma F_entry_ok n ncols r K vals lr p es : (lr * n + r < length vals)%nat -> (forall e, In e es -> (r * ncols + fst e < length K)%nat) ->
  F_entry 0 Rplus Rmult n ncols r K vals (lr, (p, es)) = Ok (upd vals (lr * n + r) (Sum es (fun e => snd e * nth (r * ncols + fst e) K 0))).
Proof.
  intros H R0. unfold F_entry. cbn [fst snd]. rewrite wr_ok by easy. cbn [obind].
  assert (G : forall es s, (forall e, In e es -> (r * ncols + fst e < length K)%nat) ->
    foldM (fun vals e => o <- rd vals (lr * n + r) ;; k <- rd K (r * ncols + fst e) ;; wr vals (lr * n + r) (o + snd e * k)) es (upd vals (lr * n + r) s) =
    Ok (upd vals (lr * n + r) (s + Sum es (fun e => snd e * nth (r * ncols + fst e) K 0)))).
  { clear es R0. induction es as [|e es IH]; intros s R0; cbn [foldM]; [now rewrite Sum_nil, Rplus_0_r|].
    rewrite (rd_ok _ _ 0) by (now rewrite upd_length). cbn [obind]. rewrite (rd_ok K _ 0) by (apply R0; now left). cbn [obind]. rewrite wr_ok by (now rewrite upd_length). cbn [obind].
    rewrite nth_upd by easy. rewrite Nat.eqb_refl, upd_same. rewrite IH by (intros; apply R0; now right). rewrite Sum_cons, Rplus_assoc. reflexivity. }
  rewrite (G es 0 R0), Rplus_0_l. reflexivity.
Qed.

Lemma flat_map_length_const {A T} (f : A -> list T) k l : (forall a, In a l -> length (f a) = k) -> length (flat_map f l) = (length l * k)%nat.
Proof. induction l as [|a l IH]; intros H; cbn [flat_map length]; [reflexivity|]. rewrite app_length, (H a (or_introl eq_refl)), IH; [lia|]. intros b I. apply H. now right. Qed.
Lemma flat_map_nth_const {T} (f : nat -> list T) k m : forall b i j d, (forall a, (b <= a < b + m)%nat -> length (f a) = k) -> (i < m)%nat -> (j < k)%nat ->
  nth (i * k + j) (flat_map f (seq b m)) d = nth j (f (b + i)%nat) d.
Proof.
  induction m as [|m IH]; intros b i j d H Hi Hj; [lia|]. cbn [seq flat_map]. destruct i as [|i].
  - cbn [Nat.mul Nat.add]. rewrite app_nth1 by (rewrite H; lia). now rewrite Nat.add_0_r.
  - rewrite app_nth2 by (rewrite H by lia; nia). rewrite H by lia. replace (S i * k + j - k)%nat with (i * k + j)%nat by nia. rewrite (IH (S b)) by (easy || lia || (intros; apply H; lia)). f_equal. f_equal. lia.
Qed.

Section Explicit.
  Variables (n : nat) (first : nat -> nat) (L : list (list nat)) (len : nat -> nat) (row : nat -> nat -> list (nat * R)).
  Hypothesis HB : entries_ok L len row.
  Hypothesis HC : columns_sorted L row.
  Variable r : nat.
  Local Notation held := (held first L r).
  Local Notation own := (own first r).
  Local Notation st := (stored first L len row r).
  Local Notation B := (B row).
  Local Notation part := (part len row).
  Variable kplus : nat -> nat -> nat -> R.
  Variable solve : nat -> list R -> list R.
  Hypothesis HS : solves first len kplus r solve.

  (** the multipliers of a domain: (position, multiplier) *)
  Definition in_domain (d : nat) : list (nat * nat) := filter (fun pm => existsb (Nat.eqb d) (domains L (snd pm))) (combine (seq 0 (length held)) held).
  Lemma stored_in d : stored_rows first L row r d = map (fun pm => (fst pm, row (snd pm) d)) (in_domain d).
  Proof. reflexivity. Qed.
  Lemma in_domain_held d p m : In (p, m) (in_domain d) -> (p < length held)%nat /\ nth p held O = m /\ (m < length L)%nat.
  Proof.
    intros I. unfold in_domain in I. apply filter_In in I as [I _]. assert (Im : (m < length L)%nat) by (apply in_combine_r in I; now apply (held_lt first L r)).
    apply (In_nth _ _ (O, O)) in I as (k & Hk & E). rewrite combine_length, seq_length, Nat.min_id in Hk. rewrite combine_nth in E by (now rewrite seq_length).
    rewrite seq_nth in E by easy. cbn [Nat.add] in E. injection E as <- <-. auto.
  Qed.
  (** K+ of a row of B *)
  Definition Kplus_row (m d i : nat) : R := Sum (seq 0 (len d)) (fun j => kplus d i j * B m d j).
  Definition F_el (d m m' : nat) : R := Sum (row m d) (fun e => snd e * Kplus_row m' d (fst e)).

  Lemma assemble_ok d bt f : In d own -> length bt = (length (in_domain d) * len d)%nat -> length f = (length (in_domain d) * length (in_domain d))%nat ->
    exists f', assemble 0 Rplus Rmult st solve (d - first r) bt f = Ok f' /\
      forall i j, (i < length (in_domain d))%nat -> (j < length (in_domain d))%nat ->
        nth (i * length (in_domain d) + j) f' 0 = F_el d (snd (nth i (in_domain d) (O, O))) (snd (nth j (in_domain d) (O, O))).
  Proof.
    intros Id Lb Lf. unfold assemble. cbn [B1 Kn stored]. rewrite (own_rd first r _ d Id : rd (map _ (own_domains first r)) _ = _). cbn [obind].
    rewrite (own_rd first r _ d Id : rd (map len (own_domains first r)) _ = _). cbn [obind]. rewrite stored_in. set (P := in_domain d) in *. set (b := map (fun pm => (fst pm, row (snd pm) d)) P).
    assert (Lbb : length b = length P) by (unfold b; apply map_length).
    assert (Hb : forall i, (i < length P)%nat -> nth i b (O, []) = (fst (nth i P (O, O)), row (snd (nth i P (O, O))) d)).
    { intros i Hi. unfold b. rewrite (nth_indep _ (O, []) (fst (O, O), row (snd (O, O)) d)) by (now rewrite map_length). now rewrite (map_nth (fun pm => (fst pm, row (snd pm) d))). }
    assert (Hm : forall i, (i < length P)%nat -> (snd (nth i P (O, O)) < length L)%nat).
    { intros i Hi. assert (I : In (nth i P (O, O)) P) by now apply nth_In. destruct (nth i P (O, O)) as (p, m). cbn [snd]. now apply (in_domain_held d p m). }
    destruct (fill_Bt_ok (len d) b bt) as (bt' & E1 & L1 & N1).
    { intros x I. unfold b in I. apply in_map_iff in I as ((p, m) & <- & I). cbn [snd fst]. apply in_domain_held in I as (_ & _ & Lm). split; [now apply HC|]. now apply HB. }
    { now rewrite Lbb. }
    rewrite E1. cbn [obind]. rewrite Lbb in *. set (K := solve_rows solve (d - first r) (length P) (len d) bt').
    assert (SR : forall i, (i < length P)%nat -> solve (d - first r)%nat (slice (i * len d) (i * len d + len d) bt') = dense len (fun d => Kplus_row (snd (nth i P (O, O))) d) d).
    { intros i Hi. rewrite N1, Hb by easy. cbn [snd]. change (map (entry_sum (row (snd (nth i P (O, O))) d)) (seq 0 (len d))) with (dense len (fun d => B (snd (nth i P (O, O))) d) d).
      rewrite (solve_ok first len r kplus solve HS) by easy. reflexivity. }
    assert (HK : forall i k, (i < length P)%nat -> (k < len d)%nat -> nth (i * len d + k) K 0 = Kplus_row (snd (nth i P (O, O))) d k).
    { intros i k Hi Hk. unfold K, solve_rows. rewrite (flat_map_nth_const _ (len d)).
      - cbn [Nat.add]. rewrite SR by easy. now apply dense_nth.
      - intros a Ha. rewrite SR by lia. apply dense_length.
      - easy.
      - easy. }
    assert (LK : length K = (length P * len d)%nat).
    { unfold K, solve_rows. rewrite (flat_map_length_const _ (len d)), seq_length; [reflexivity|]. intros a Ha. apply in_seq in Ha. rewrite SR by lia. apply dense_length. }
    assert (Hrange : forall i e, (i < length P)%nat -> In e (row (snd (nth i P (O, O))) d) -> (fst e < len d)%nat) by (intros i e Hi I; now apply (HB _ d (Hm i Hi))).
    set (body := fun f r0 => foldM (F_entry 0 Rplus Rmult (length P) (len d) r0 K) (combine (seq 0 (length P)) b) f).
    destruct (foldM_seq_inv body (fun k f => length f = (length P * length P)%nat /\ forall i j, (i < length P)%nat -> (j < k)%nat -> nth (i * length P + j) f 0 = F_el d (snd (nth i P (O, O))) (snd (nth j P (O, O)))) 0 (length P) f) as (f' & E2 & L2 & N2).
    - split; [easy|]. intros; lia.
    - intros k f0 Hk [Lf0 If0]. unfold body.
      set (val := fun lrow : nat * (nat * list (nat * R)) => Sum (snd (snd lrow)) (fun e => snd e * nth (k * len d + fst e) K 0)).
      destruct (foldM_writes 0 (F_entry 0 Rplus Rmult (length P) (len d) k K) (fun lrow : nat * (nat * list (nat * R)) => (fst lrow * length P + k)%nat) val (length P * length P) (combine (seq 0 (length P)) b)) with (vals := f0) as (f1 & E3 & L3 & N3 & O3).
      + intros vals (lr, (p, es)) I Lv. assert (Ilr : (lr < length P)%nat) by (apply in_combine_l in I; apply in_seq in I; lia). apply in_combine_r in I. unfold b in I. apply in_map_iff in I as ((p', m) & E & I).
        injection E as <- <-. cbn [fst snd] in *. unfold val. cbn [fst snd]. apply F_entry_ok.
        * rewrite Lv. nia.
        * intros e Ie. rewrite LK. apply in_domain_held in I as (_ & _ & Lm). pose proof (proj1 (HB m d Lm) e Ie). nia.
      + intros (lr, x) I. cbn [fst]. apply in_combine_l, in_seq in I. nia.
      + rewrite <- (map_map fst (fun lr => (lr * length P + k)%nat)). apply FinFun.Injective_map_NoDup; [intros a c; nia|].
        assert (E : map fst (combine (seq 0 (length P)) b) = seq 0 (length P)).
        { rewrite <- Lbb. clear. generalize 0%nat. induction b as [|x l IH]; intros s; [reflexivity|]. cbn [length seq combine map fst]. now rewrite IH. }
        rewrite E. apply seq_NoDup.
      + exact Lf0.
      + exists f1. split; [exact E3|]. split; [exact L3|]. intros i j Hi Hj. destruct (Nat.eq_dec j k) as [->|Nj].
        * specialize (N3 (i, nth i b (O, []))). cbn [fst] in N3. rewrite N3.
          -- unfold val. cbn [fst snd]. rewrite Hb by easy. cbn [snd]. unfold F_el. apply Sum_ext_in. intros e Ie. rewrite HK; [reflexivity|lia|]. now apply (Hrange i).
          -- replace (i, nth i b (O, [])) with (nth i (combine (seq 0 (length P)) b) (O, (O, []))) by (rewrite combine_nth by (rewrite seq_length; lia); now rewrite seq_nth by easy).
             apply nth_In. rewrite combine_length, seq_length. lia.
        * rewrite O3; [apply If0; [easy|lia]|]. rewrite in_map_iff. intros ((lr, x) & E & I). cbn [fst] in E. destruct (Nat.lt_trichotomy i lr) as [X|[X|X]]; [nia|subst lr; lia|nia].
    - change (exists f', foldM body (seq 0 (length P)) f = Ok f' /\ (forall i j, (i < length P)%nat -> (j < length P)%nat -> nth (i * length P + j) f' 0 = F_el d (snd (nth i P (O, O))) (snd (nth j P (O, O))))).
      exists f'. split; [exact E2|exact N2].
  Qed.

  Lemma extract_ok d x : extract_domain (stored_rows first L row r d) (dual first L x r) = Ok (map (fun pm => x (snd pm)) (in_domain d)).
  Proof.
    unfold extract_domain. rewrite stored_in. rewrite (foldM_append _ (fun rw => nth (fst rw) (dual first L x r) 0)).
    - cbn [app]. rewrite map_map. f_equal. apply map_ext_in. intros (p, m) I. cbn [fst snd]. apply in_domain_held in I as (Hp & E & _). unfold dual, vector.
      rewrite (nth_indep _ 0 (x O)) by (now rewrite map_length). rewrite map_nth. now rewrite E.
    - intros acc rw I. apply in_map_iff in I as ((p, m) & <- & I). cbn [fst]. apply in_domain_held in I as (Hp & _). rewrite (rd_ok _ _ 0); [reflexivity|]. unfold dual, vector. now rewrite map_length.
  Qed.

  Lemma fold_left_Sum {A} (f : A -> R) l : forall s, fold_left (fun s a => s + f a) l s = s + Sum l f.
  Proof. induction l as [|a l IH]; intros s; cbn [fold_left]; [rewrite Sum_nil; lra|]. rewrite IH, Sum_cons. lra. Qed.
  Lemma Sum_seq_nth {A} (l : list A) (d : A) f : Sum (seq 0 (length l)) (fun i => f (nth i l d)) = Sum l f.
  Proof. rewrite <- (Sum_map (fun i => nth i l d) (seq 0 (length l)) f). f_equal. clear. induction l as [|a l IH]; [reflexivity|]. cbn [length seq map nth]. f_equal. rewrite <- seq_shift, map_map. exact IH. Qed.

  Lemma gemv_ok d f x : (forall i j, (i < length (in_domain d))%nat -> (j < length (in_domain d))%nat ->
        nth (i * length (in_domain d) + j) f 0 = F_el d (snd (nth i (in_domain d) (O, O))) (snd (nth j (in_domain d) (O, O)))) ->
    gemv 0 Rplus Rmult (length (in_domain d)) f (map (fun pm => x (snd pm)) (in_domain d)) = map (fun pm => Sum (in_domain d) (fun pm' => F_el d (snd pm) (snd pm') * x (snd pm'))) (in_domain d).
  Proof.
    intros H. unfold gemv. set (P := in_domain d) in *. apply (nth_ext _ _ 0 0); [now rewrite !map_length, seq_length|]. intros i Hi. rewrite map_length, seq_length in Hi.
    rewrite map_seq_nth by easy. rewrite (fold_left_Sum (fun j => nth (i * length P + j) f 0 * nth j (map (fun pm => x (snd pm)) P) 0)), Rplus_0_l.
    rewrite (nth_indep _ 0 ((fun pm => Sum P (fun pm' => F_el d (snd pm) (snd pm') * x (snd pm'))) (O, O))) by (now rewrite map_length). rewrite (map_nth (fun pm => Sum P (fun pm' => F_el d (snd pm) (snd pm') * x (snd pm')))).
    rewrite <- (Sum_seq_nth P (O, O)). apply Sum_ext_in. intros j Ij. apply in_seq in Ij. rewrite H by lia. f_equal.
    rewrite (nth_indep _ 0 ((fun pm => x (snd pm)) (O, O))) by (rewrite map_length; lia). now rewrite (map_nth (fun pm => x (snd pm))).
  Qed.

  Definition in_d (d m : nat) : bool := existsb (Nat.eqb d) (domains L m).
  Lemma Sum_in_domain d f : Sum (in_domain d) (fun pm => f (snd pm)) = Sum held (fun m => if in_d d m then f m else 0).
  Proof.
    unfold in_domain. rewrite Sum_filter. set (g := fun m => if in_d d m then f m else 0). change (Sum (combine (seq 0 (length held)) held) (fun pm => g (snd pm)) = Sum held g).
    generalize 0%nat. induction held as [|m l IH]; intros s; [reflexivity|]. cbn [length seq combine]. rewrite !Sum_cons. cbn [snd]. now rewrite IH.
  Qed.
  Lemma row_out d m : In d own -> In m held -> in_d d m = false -> row m d = [].
  Proof.
    intros Id Im E. apply (proj2 (HB m d (held_lt first L r m Im))). intros I. unfold in_d in E. assert (X : existsb (Nat.eqb d) (domains L m) = true) by (apply existsb_exists; exists d; split; [easy|apply Nat.eqb_refl]). congruence.
  Qed.
  Lemma F_el_sum d m x : In d own -> In m held -> Sum (in_domain d) (fun pm' => F_el d m (snd pm') * x (snd pm')) = Sum (seq 0 (len d)) (fun j => B m d j * Kplus_of len kplus (Bt_of L row x) d j).
  Proof.
    intros Id Im. rewrite (Sum_in_domain d (fun m' => F_el d m m' * x m')).
    etransitivity; [|symmetry; exact (entry_sum_dot (row m d) (len d) (Kplus_of len kplus (Bt_of L row x) d) (row_range first L len row HB r m d Im))].
    rewrite (Sum_ext_in _ _ (fun m' => Sum (row m d) (fun e => snd e * (Kplus_row m' d (fst e) * x m')))).
    - rewrite Sum_swap. apply Sum_ext. intros e. rewrite Sum_scal. f_equal. unfold Kplus_of, Kplus_row.
      rewrite (Sum_ext _ _ (fun m' => Sum (seq 0 (len d)) (fun j => kplus d (fst e) j * (B m' d j * x m')))) by (intros m'; rewrite <- Sum_scal_r; apply Sum_ext; intros; lra).
      rewrite Sum_swap. apply Sum_ext. intros j. rewrite Sum_scal. f_equal. unfold Bt_of. apply (Sum_held first L len row HB r d x j Id).
    - intros m' Im'. unfold F_el. destruct (in_d d m') eqn:E.
      + rewrite <- Sum_scal_r. apply Sum_ext. intros. lra.
      + symmetry. apply Sum_zero. intros e _. unfold Kplus_row, S_Feti.B. rewrite (row_out d m' Id Im' E). rewrite (Sum_zero (seq 0 (len d))); [lra|]. intros. rewrite Sum_nil. lra.
  Qed.

  Lemma insert_ok d f v : In d own -> insert_domain Rplus (stored_rows first L row r d) (map (fun pm => v (snd pm)) (in_domain d)) (map f held) = Ok (map (fun m => f m + if in_d d m then v m else 0) held).
  Proof.
    intros Id. unfold insert_domain. rewrite stored_in.
    pose proof (b_rows_ok [1] (fun m => if in_d d m then [(O, v m)] else []) held) as P. specialize (P ltac:(intros m _; cbv beta; destruct (in_d d m); repeat constructor) [] (map f held) (map_length _ _)).
    cbn [length app] in P. rewrite plus2_map in P.
    transitivity (Ok (map (fun m => f m + Sum (if in_d d m then [(O, v m)] else []) (fun e => snd e * nth (fst e) [1] 0)) held)).
    - rewrite <- P. clear P. unfold in_domain.
      assert (G : forall l s y, foldM (fun (y : list R) (rv : nat * list (nat * R) * R) => o <- rd y (fst (fst rv)) ;; wr y (fst (fst rv)) (o + snd rv))
          (combine (map (fun pm => (fst pm, row (snd pm) d)) (filter (fun pm => in_d d (snd pm)) (combine (seq s (length l)) l)))
                   (map (fun pm => v (snd pm)) (filter (fun pm => in_d d (snd pm)) (combine (seq s (length l)) l)))) y =
        foldM (b_row Rplus Rmult [1]) (flat_map (fun y => map (pair (fst y)) (if in_d d (snd y) then [(O, v (snd y))] else [])) (combine (seq s (length l)) l)) y).
      { induction l as [|m l IH]; intros s y; [reflexivity|]. cbn [length seq combine filter flat_map snd fst]. destruct (in_d d m) eqn:E; cbn [map app]; [|apply IH]. cbn [combine foldM fst snd].
        unfold b_row at 1. cbn [fst snd]. destruct (rd y s); cbn [obind]; [|reflexivity|reflexivity]. cbn [rd nth_error obind]. rewrite Rmult_1_r. destruct (wr y s (a + v m)); cbn [obind]; [|reflexivity|reflexivity]. apply IH. }
      apply G.
    - f_equal. apply map_ext. intros m. destruct (in_d d m); [rewrite Sum_cons|]; rewrite Sum_nil; cbn [fst snd nth]; lra.
  Qed.

  Lemma explicit_ok fs x : length fs = length own ->
    (forall d, In d own -> exists bt f, length bt = (length (in_domain d) * len d)%nat /\ length f = (length (in_domain d) * length (in_domain d))%nat /\ assemble 0 Rplus Rmult st solve (d - first r) bt f = Ok (nth (d - first r) fs [])) ->
    explicit_apply 0 Rplus Rmult st fs (dual first L x r) = Ok (map (part own (Kplus_of len kplus (Bt_of L row x))) held).
  Proof.
    intros Lf Hf. unfold explicit_apply. rewrite (Kn_length first L len row r), (own_seq first r).
    set (w := fun d m => Sum (in_domain d) (fun pm' => F_el d m (snd pm') * x (snd pm'))).
    rewrite (foldM_append _ (fun k => map (fun pm => w (k + first r)%nat (snd pm)) (in_domain (k + first r)))).
    - cbn [app obind]. rewrite map_map. rewrite (map_ext_in _ (fun d => map (fun pm => w d (snd pm)) (in_domain d))).
      2: { intros d Id. replace (d - first r + first r)%nat with d by (unfold S_Feti.own, own_domains in Id; apply in_seq in Id; lia). reflexivity. }
      change (lambdas st) with (length held). rewrite (zero_vector first L r).
      assert (G : forall ds f, incl ds own -> foldM (fun y d => b <- rd (B1 st) d ;; v <- rd (map (fun d => map (fun pm => w d (snd pm)) (in_domain d)) own) d ;; insert_domain Rplus b v y) (map (fun d => (d - first r)%nat) ds) (map f held)
        = Ok (map (fun m => f m + Sum ds (fun d => if in_d d m then w d m else 0)) held)).
      { induction ds as [|d ds IH]; intros f Hds; cbn [map foldM].
        - f_equal. apply map_ext. intros. rewrite Sum_nil. lra.
        - assert (Id : In d own) by (apply Hds; now left). cbn [B1 stored]. rewrite (own_rd first r _ d Id : rd (map _ (own_domains first r)) _ = _). cbn [obind]. rewrite (own_rd first r _ d Id). cbn [obind].
          rewrite insert_ok by easy. cbn [obind]. cbn [B1 stored] in IH. rewrite IH by (intros a Ia; apply Hds; now right). f_equal. apply map_ext. intros m. rewrite Sum_cons. lra. }
      rewrite G by apply incl_refl. f_equal. apply map_ext_in. intros m Im. rewrite Rplus_0_l. unfold L_TotalFeti.part. apply Sum_ext_in. intros d Id. unfold w. destruct (in_d d m) eqn:E.
      + now apply F_el_sum.
      + symmetry. apply Sum_zero. intros j _. unfold S_Feti.B. rewrite (row_out d m Id Im E), Sum_nil. lra.
    - intros acc k I. apply in_map_iff in I as (d & <- & Id). replace (d - first r + first r)%nat with d by (unfold S_Feti.own, own_domains in Id; apply in_seq in Id; lia).
      unfold explicit_out. cbn [B1 stored]. rewrite (own_rd first r _ d Id : rd (map _ (own_domains first r)) _ = _). cbn [obind].
      rewrite (rd_ok fs _ []) by (rewrite Lf; unfold S_Feti.own, own_domains in *; apply in_seq in Id; rewrite seq_length; lia). cbn [obind]. rewrite extract_ok. cbn [obind].
      destruct (Hf d Id) as (bt & f & L1 & L2 & E). destruct (assemble_ok d bt f Id L1 L2) as (f' & E' & H'). rewrite E in E'. injection E' as E'. subst f'.
      replace (length (stored_rows first L row r d)) with (length (in_domain d)) by (rewrite stored_in; now rewrite map_length). rewrite (gemv_ok d (nth (d - first r) fs []) x H'). reflexivity.
  Qed.
End Explicit.
