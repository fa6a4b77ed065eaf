(** Lemmas about the gluing constraints: the loops of [equality_set]. *)
From Coq Require Import List Arith Bool Permutation Sorted Lia.
From Verif Require Import Base S_Order S_Dual M_Dual S_Equality M_Equality L_Equality L_Equality2.
Import ListNotations.
Local Open Scope out_scope.

Section Loops.
  Context {T : Type}.
  Variables (zero one : T) (low diag : nat -> T).

  (* ---- the matrix of coefficients --------------------------------------- *)
  Local Notation coef := (coefficient low diag).
  Lemma wr_run (vals : list T) o (x : T) k : o + k <= length vals -> exists vals', foldM (fun vals c => wr vals (o + c) x) (seq 0 k) vals = Ok vals' /\
    length vals' = length vals /\ forall j d, nth j vals' d = if (o <=? j) && (j <? o + k) then x else nth j vals d.
  Proof.
    intros H. destruct (foldM_seq_inv (fun vals c => wr vals (o + c) x) (fun k' v => length v = length vals /\
      forall j d, nth j v d = if (o <=? j) && (j <? o + k') then x else nth j vals d) 0 k vals) as (v & E & I).
    - split; [reflexivity|]. intros j d. destruct (Nat.leb_spec o j), (Nat.ltb_spec j (o + 0)); cbn [andb]; try reflexivity; lia.
    - intros i v Hi [L I]. exists (upd v (o + i) x). split; [apply wr_ok; lia|]. split; [now rewrite upd_length|]. intros j d. rewrite nth_upd, I by lia.
      destruct (Nat.eqb_spec (o + i) j), (Nat.leb_spec o j), (Nat.ltb_spec j (o + S i)), (Nat.ltb_spec j (o + i)); cbn [andb]; try reflexivity; lia.
    - exists v. rewrite Nat.add_0_l in I. easy.
  Qed.
  Lemma lambdas_row_ok maxm (vals : list T) r : r < maxm - 1 -> length vals = (maxm - 1) * maxm ->
    exists vals', lambdas_row low diag maxm vals r = Ok vals' /\ length vals' = length vals /\
      (forall c d, c <= r + 1 -> nth (r * maxm + c) vals' d = coef (r + 2) c) /\ (forall j d, j < r * maxm -> nth j vals' d = nth j vals d).
  Proof.
    intros Hr L. assert (B : r * maxm + (r + 2) <= length vals) by (rewrite L; nia). unfold lambdas_row.
    destruct (wr_run vals (r * maxm) (low (r + 1)) (r + 1) ltac:(lia)) as (v & -> & Lv & Iv). cbn [obind]. rewrite wr_ok by lia. eexists. split; [reflexivity|].
    rewrite upd_length. split; [lia|]. split.
    - intros c d Hc. rewrite nth_upd, Iv by lia. unfold coefficient. replace (r + 2 - 1) with (r + 1) by lia.
      destruct (Nat.eqb_spec (r * maxm + (r + 1)) (r * maxm + c)), (Nat.leb_spec (r * maxm) (r * maxm + c)),
        (Nat.ltb_spec (r * maxm + c) (r * maxm + (r + 1))), (Nat.ltb_spec c (r + 1)); cbn [andb]; try reflexivity; lia.
    - intros j d Hj. rewrite nth_upd, Iv by lia.
      destruct (Nat.eqb_spec (r * maxm + (r + 1)) j), (Nat.leb_spec (r * maxm) j); cbn [andb]; try reflexivity; lia.
  Qed.
  Lemma lambdas_vals_ok maxm : exists vals, lambdas_vals zero low diag maxm = Ok vals /\
    forall size c, 2 <= size <= maxm -> c < size -> rd vals ((size - 2) * maxm + c) = Ok (coef size c).
  Proof.
    unfold lambdas_vals.
    destruct (foldM_seq_inv (lambdas_row low diag maxm) (fun k v => length v = (maxm - 1) * maxm /\
      forall r c d, r < k -> c <= r + 1 -> nth (r * maxm + c) v d = coef (r + 2) c) 0 (maxm - 1) (repeat zero ((maxm - 1) * maxm))) as (v & E & L & I).
    - split; [apply repeat_length|lia].
    - intros i v Hi [L I]. destruct (lambdas_row_ok maxm v i) as (v' & E & L' & I1 & I2); [lia|easy|]. exists v'. split; [exact E|]. split; [lia|].
      intros r c d Hr Hc. destruct (Nat.eq_dec r i) as [->|]; [now apply I1|]. rewrite I2 by nia. apply I; lia.
    - exists v. split; [exact E|]. intros size c Hs Hc. rewrite (rd_ok _ _ zero) by (rewrite L; nia). f_equal. rewrite I by lia. f_equal. lia.
  Qed.

  (* ---- rows ----------------------------------------------------------------- *)
  Local Notation row := (nat * (nat * T))%type.
  Section Own.
    Variables (b m : nat).
    Definition Bof (f : nat -> list row) : list (list nat) * list (list nat) * list (list T) :=
      (map (fun d => map fst (f d)) (seq b m), map (fun d => map (fun x => fst (snd x)) (f d)) (seq b m), map (fun d => map (fun x => snd (snd x)) (f d)) (seq b m)).
    Lemma Bof_ext f g : (forall d, b <= d < b + m -> f d = g d) -> Bof f = Bof g.
    Proof.
      intros H. unfold Bof. f_equal; [f_equal|]; apply map_ext_in; intros d I; apply in_seq in I; now rewrite H by lia.
    Qed.
    Lemma push_row_ok f d l col v : b <= d < b + m ->
      push_row (Bof f) (d - b) l col v = Ok (Bof (fun d' => f d' ++ if d' =? d then [(l, (col, v))] else [])).
    Proof.
      intros H. unfold push_row, Bof. rewrite !push_at_map by easy. cbn [obind]. f_equal. f_equal; [f_equal|]; apply map_ext; intros d';
        rewrite map_app; f_equal; destruct (d' =? d); reflexivity.
    Qed.
    Lemma Bof_nil : (repeat [] m, repeat [] m, repeat [] m) = Bof (fun _ => []).
    Proof. unfold Bof. cbn [map]. now rewrite <- !repeat_map_seq. Qed.
  End Own.

  Variables (first : nat -> nat) (nb : nat -> list nat) (r : nat).
  Hypothesis Hf : first r <= first (r + 1).
  Local Notation D := (decomposed first nb r).
  Local Notation b := (first r).
  Local Notation m := (first (r + 1) - first r).
  Lemma my_range d : ismy D d = true <-> b <= d < b + m.
  Proof. change (ismy D d) with ((b <=? d) && (d <? first (r + 1))). rewrite andb_true_iff, Nat.leb_le, Nat.ltb_lt. lia. Qed.

  Definition glue_rows (dm : list (nat * nat)) (l sz k d : nat) : list row :=
    map (fun c => (l, (snd (nth c dm (0, 0)), coef sz c))) (filter (fun c => fst (nth c dm (0, 0)) =? d) (seq 0 k)).
  Lemma push_domains_ok maxm vals dm l sz cmap f k : (forall c, c < sz -> rd vals ((sz - 2) * maxm + c) = Ok (coef sz c)) -> k <= sz -> sz <= length dm ->
    foldM (push_domain D maxm vals dm l sz) (seq 0 k) (cmap, Bof b m f) = Ok (cmap ++ firstn k (map fst dm), Bof b m (fun d => f d ++ glue_rows dm l sz k d)).
  Proof.
    intros V. induction k as [|k IH]; intros Hk Hs.
    - cbn. rewrite app_nil_r. do 2 f_equal. apply Bof_ext. intros. now rewrite app_nil_r.
    - rewrite seq_S, foldM_app, IH by lia. cbn [obind foldM Nat.add]. unfold push_domain. rewrite (rd_ok _ _ (0, 0)) by lia. cbn [obind].
      set (dc := nth k dm (0, 0)).
      assert (Ek : (cmap ++ firstn k (map fst dm)) ++ [fst dc] = cmap ++ firstn (S k) (map fst dm)).
      { rewrite (firstn_S (map fst dm) k 0) by (rewrite map_length; lia). rewrite app_assoc. do 2 f_equal. unfold dc.
        symmetry. exact (map_nth fst dm (0, 0) k). }
      assert (Eg : forall d, glue_rows dm l sz (S k) d = glue_rows dm l sz k d ++ if fst dc =? d then [(l, (snd dc, coef sz k))] else []).
      { intros d. unfold glue_rows. rewrite seq_S, filter_app, map_app. f_equal. cbn [filter Nat.add]. fold dc. destruct (fst dc =? d); reflexivity. }
      rewrite Ek. destruct (ismy D (fst dc)) eqn:E.
      + rewrite V by lia. cbn [obind]. change (dbegin D) with b. rewrite push_row_ok by now apply my_range. cbn [obind]. do 2 f_equal. apply Bof_ext. intros d Hd.
        rewrite Eg, Nat.eqb_sym, app_assoc. reflexivity.
      + cbn [obind]. do 2 f_equal. apply Bof_ext. intros d Hd. rewrite Eg. destruct (Nat.eqb_spec (fst dc) d) as [<-|]; [|now rewrite app_nil_r].
        apply my_range in Hd. congruence.
  Qed.

  (* ---- blocks of multipliers with the same domains ------------------------------ *)
  Lemma eqb_list_app a : forall c rest, length a = length c -> eqb_list a (c ++ rest) = true <-> a = c.
  Proof.
    induction a as [|x a IH]; intros [|y c] rest L; cbn in L; try discriminate; [easy|]. cbn [eqb_list app]. rewrite andb_true_iff, Nat.eqb_eq, IH by lia.
    split; [intros [-> ->]; reflexivity|intros [= -> ->]; easy].
  Qed.
  Lemma cmap_of_app x y : cmap_of (x ++ y) = cmap_of x ++ cmap_of y.
  Proof. apply flat_map_app. Qed.
  Lemma expand_app x y : expand (x ++ y) = expand x ++ expand y.
  Proof. apply flat_map_app. Qed.
  Definition blocks_ok (cmap : list nat) (prev : nat) (ds : list (list nat)) : Prop :=
    exists blocks, cmap = cmap_of blocks /\ expand blocks = ds /\ Forall (fun x => 0 < fst x) blocks /\
      (blocks = [] /\ prev = 0 \/ exists bs x, blocks = bs ++ [x] /\ prev = length (cmap_of bs)).
  Lemma merge_block_ok cmap prev ds d : blocks_ok cmap prev ds -> exists cmap' prev',
    merge_block (cmap ++ 1 :: length d :: d) prev (length cmap) = Ok (cmap', prev') /\ blocks_ok cmap' prev' (ds ++ [d]).
  Proof.
    intros (bl & -> & <- & P & K). unfold merge_block.
    assert (New : blocks_ok (cmap_of bl ++ 1 :: length d :: d) (length (cmap_of bl)) (expand bl ++ [d])).
    { exists (bl ++ [(1, d)]). rewrite cmap_of_app, expand_app. cbn. rewrite app_nil_r. repeat split; try easy.
      - apply Forall_app. split; [easy|]. constructor; [cbn; lia|constructor].
      - right. exists bl, (1, d). easy. }
    assert (R2 : rd (cmap_of bl ++ 1 :: length d :: d) (length (cmap_of bl) + 1) = Ok (length d)).
    { rewrite (rd_ok _ _ 0) by (rewrite app_length; cbn; lia). rewrite app_nth2 by lia. now replace (length (cmap_of bl) + 1 - length (cmap_of bl)) with 1 by lia. }
    assert (S2 : skipn (length (cmap_of bl) + 1) (cmap_of bl ++ 1 :: length d :: d) = length d :: d).
    { rewrite skipn_app, (skipn_all2 (cmap_of bl)) by lia. now replace (length (cmap_of bl) + 1 - length (cmap_of bl)) with 1 by lia. }
    destruct K as [[-> ->]|(bs & (cnt, e) & -> & ->)].
    - cbn [cmap_of flat_map length app] in *. change (0 + 1) with 1 in *. rewrite R2. cbn [obind]. rewrite Nat.eqb_refl, S2.
      replace (eqb_list (length d :: d) (length d :: d)) with true. 2: { symmetry. pose proof (eqb_list_app (length d :: d) (length d :: d) [] eq_refl) as Q. rewrite app_nil_r in Q. now apply Q. }
      cbn. eexists _, _. split; [reflexivity|exact New].
    - rewrite R2, S2. rewrite cmap_of_app in New |- *. cbn [cmap_of flat_map fst snd app] in New |- *. rewrite app_nil_r in New |- *. fold (cmap_of bs) in *. set (c := cmap_of bs) in *.
      replace ((c ++ cnt :: length e :: e) ++ 1 :: length d :: d) with (c ++ cnt :: length e :: e ++ 1 :: length d :: d) in * by (rewrite <- app_assoc; reflexivity).
      assert (R1 : rd (c ++ cnt :: length e :: e ++ 1 :: length d :: d) (length c + 1) = Ok (length e)).
      { rewrite (rd_ok _ _ 0) by (rewrite app_length; cbn; lia). rewrite app_nth2 by lia. now replace (length c + 1 - length c) with 1 by lia. }
      assert (S1 : skipn (length c + 1) (c ++ cnt :: length e :: e ++ 1 :: length d :: d) = length e :: e ++ 1 :: length d :: d).
      { rewrite skipn_app, (skipn_all2 c) by lia. now replace (length c + 1 - length c) with 1 by lia. }
      rewrite R1. cbn [obind]. rewrite S1. destruct (Nat.eqb_spec (length e) (length d)) as [L|L]; [|eexists _, _; split; [reflexivity|exact New]].
      destruct (eqb_list (length d :: d) (length e :: e ++ 1 :: length d :: d)) eqn:Q; [|eexists _, _; split; [reflexivity|exact New]].
      change (length e :: e ++ 1 :: length d :: d) with ((length e :: e) ++ 1 :: length d :: d) in Q. apply eqb_list_app in Q; [|cbn; lia]. injection Q as _ <-.
      replace (length c =? length (c ++ cnt :: length d :: d)) with false by (symmetry; apply Nat.eqb_neq; rewrite app_length; cbn; lia). cbn [negb].
      rewrite (rd_ok _ _ 0) by (rewrite app_length; cbn; lia). rewrite app_nth2, Nat.sub_diag by lia. cbn [nth obind].
      rewrite wr_ok by (rewrite app_length; cbn; lia). cbn [obind].
      eexists _, _. split; [reflexivity|]. exists (bs ++ [(cnt + 1, d)]). repeat split.
      + rewrite cmap_of_app. cbn [cmap_of flat_map fst snd app]. rewrite app_nil_r. fold (cmap_of bs). fold c.
        assert (U : upd (c ++ cnt :: length d :: d ++ 1 :: length d :: d) (length c) (cnt + 1) = c ++ (cnt + 1) :: length d :: d ++ 1 :: length d :: d).
        { clear. induction c; cbn; [reflexivity|]. f_equal. assumption. }
        rewrite U. replace (c ++ cnt + 1 :: length d :: d ++ 1 :: length d :: d) with ((c ++ cnt + 1 :: length d :: d) ++ 1 :: length d :: d) by (rewrite <- app_assoc; reflexivity).
        rewrite firstn_app. replace (length (c ++ cnt :: length d :: d)) with (length (c ++ cnt + 1 :: length d :: d)) by (rewrite !app_length; reflexivity).
        rewrite firstn_all, Nat.sub_diag, firstn_O, app_nil_r. reflexivity.
      + rewrite !expand_app, <- app_assoc. f_equal. cbn. rewrite !app_nil_r. rewrite Nat.add_1_r. clear. induction cnt; cbn; [reflexivity|]. now rewrite <- IHcnt.
      + apply Forall_app in P as [P1 P2]. apply Forall_app. split; [easy|]. constructor; [cbn; lia|constructor].
      + right. exists bs, (cnt + 1, d). easy.
  Qed.

  (* ---- all multipliers ------------------------------------------------------------ *)
  Section Lambdas.
    Variables (dmap : list (list (nat * nat))) (maxm : nat) (vals : list T).
    Hypothesis V : forall size c, 2 <= size <= maxm -> c < size -> rd vals ((size - 2) * maxm + c) = Ok (coef size c).
    Local Notation dm p := (nth (fst p) dmap []).
    Definition doms (p : nat * nat) : list nat := firstn (snd p) (map fst (dm p)).
    Definition good (p : nat * nat) : Prop := fst p < length dmap /\ 2 <= snd p <= maxm /\ snd p <= length (dm p).
    Definition in_front (p : nat * nat) : bool := fst (nth 0 (dm p) (0, 0)) <? b.
    Definition rows_at (l : nat) (p : nat * nat) (d : nat) : list row := glue_rows (dm p) l (snd p) (snd p) d.
    Fixpoint halo_of (l : nat) (ps : list (nat * nat)) (h : nat) : nat :=
      match ps with [] => h | p :: ps => halo_of (l + 1) ps (if in_front p then l + 1 else h) end.
    Lemma push_lambdas_ok ps : forall l prev halo cmap ds f, Forall good ps -> blocks_ok cmap prev ds ->
      exists prev' cmap', foldM (push_lambda D maxm vals dmap) ps (l, prev, halo, cmap, Bof b m f)
        = Ok (l + length ps, prev', halo_of l ps halo, cmap', Bof b m (fun d => f d ++ flat_map (fun x => rows_at (fst x) (snd x) d) (combine (seq l (length ps)) ps)))
        /\ blocks_ok cmap' prev' (ds ++ map doms ps).
    Proof.
      induction ps as [|p ps IH]; intros l prev halo cmap ds f G K.
      - cbn [foldM length combine map flat_map halo_of seq]. exists prev, cmap. rewrite Nat.add_0_r, app_nil_r. split; [|exact K]. do 2 f_equal. apply Bof_ext. intros. now rewrite app_nil_r.
      - apply Forall_cons_iff in G as [(G1 & G2 & G3) G]. cbn [foldM]. unfold push_lambda at 1. rewrite (rd_ok _ _ []) by easy. cbn [obind].
        rewrite (rd_ok _ _ (0, 0)) by lia. cbn [obind]. rewrite push_domains_ok; [|intros; apply V; lia|lia|lia]. cbn [obind]. fold (doms p).
        assert (Ld : length (doms p) = snd p) by (unfold doms; rewrite firstn_length, map_length; lia).
        replace ((cmap ++ [1; snd p]) ++ doms p) with (cmap ++ 1 :: length (doms p) :: doms p) by (rewrite <- app_assoc, Ld; reflexivity).
        destruct (merge_block_ok cmap prev ds (doms p) K) as (cmap1 & prev1 & -> & K1). cbn [obind].
        change (dbegin D) with b. fold (in_front p). fold (rows_at l p).
        destruct (IH (l + 1) prev1 (if in_front p then l + 1 else halo) cmap1 _ (fun d => f d ++ glue_rows (dm p) l (snd p) (snd p) d) G K1) as (prev' & cmap' & E & K').
        exists prev', cmap'. split.
        + rewrite E. cbn [length halo_of]. do 2 f_equal; [do 3 f_equal; lia|]. apply Bof_ext. intros d _. rewrite <- app_assoc. f_equal. cbn [seq combine flat_map fst snd].
          rewrite Nat.add_1_r. reflexivity.
        + cbn [map]. now rewrite <- app_assoc in K'.
    Qed.
    Lemma halo_split a : forall c l h, Forall (fun p => in_front p = true) a -> Forall (fun p => in_front p = false) c -> h = l -> halo_of l (a ++ c) h = l + length a.
    Proof.
      induction a as [|p a IH]; intros c l h Fa Fc E; cbn [app halo_of length].
      - subst h. rewrite Nat.add_0_r. clear IH || idtac. generalize l at 1 as l'. induction Fc as [|p c Hp Fc IHc]; intros l'; [reflexivity|]. cbn [halo_of]. rewrite Hp. apply IHc.
      - apply Forall_cons_iff in Fa as [Fp Fa]. rewrite Fp, IH by easy. lia.
    Qed.
  End Lambdas.

  (* ---- fixed copies ---------------------------------------------------------------- *)
  Definition fixed_rows (l : nat) (cols : list nat) : list row := map (fun x => (fst x, (snd x, one))) (combine (seq l (length cols)) cols).
  Lemma push_fixed_rows_ok d cols : b <= d < b + m -> forall l f, foldM (push_fixed_row one (d - b)) cols (l, Bof b m f)
    = Ok (l + length cols, Bof b m (fun d' => f d' ++ if d' =? d then fixed_rows l cols else [])).
  Proof.
    intros Hd. induction cols as [|col cols IH]; intros l f; cbn [foldM length].
    - rewrite Nat.add_0_r. do 2 f_equal. apply Bof_ext. intros d' _. destruct (d' =? d); cbn; now rewrite app_nil_r.
    - unfold push_fixed_row at 1. rewrite push_row_ok by easy. cbn [obind]. rewrite IH. do 2 f_equal; [lia|]. apply Bof_ext. intros d' _. rewrite <- app_assoc.
      destruct (d' =? d); [|reflexivity]. unfold fixed_rows. cbn [length seq combine map fst snd app]. now rewrite Nat.add_1_r.
  Qed.
  Variable cols : nat -> list nat.
  (** the first multiplier of domain [d] *)
  Definition offset_of (l0 d : nat) : nat := l0 + length (flat_map cols (seq b (d - b))).
  Lemma fixed_domains_ok k : k <= m -> forall l cmap f doffset,
    foldM (fixed_domain one D (map cols (seq b m))) (seq 0 k) (l, cmap, Bof b m f, doffset)
    = Ok (l + length (flat_map cols (seq b k)),
          cmap ++ cmap_of (flat_map (fun d => match cols d with [] => [] | _ => [(length (cols d), [d])] end) (seq b k)),
          Bof b m (fun d => f d ++ if d <? b + k then fixed_rows (offset_of l d) (cols d) else []),
          doffset ++ map (offset_of l) (seq b k)).
  Proof.
    intros Hk l cmap f doffset. induction k as [|k IH].
    - cbn [seq foldM flat_map length map cmap_of]. rewrite Nat.add_0_r, !app_nil_r. do 2 f_equal. f_equal. apply Bof_ext. intros d Hd. destruct (Nat.ltb_spec d (b + 0)); [lia|now rewrite app_nil_r].
    - rewrite !seq_S, foldM_app, IH by lia. cbn [obind foldM]. unfold fixed_domain. rewrite Nat.add_0_l, rd_map_seq by lia. cbn [obind].
      pose proof (push_fixed_rows_ok (b + k) (cols (b + k)) ltac:(lia) (l + length (flat_map cols (seq b k))) (fun d => f d ++ if d <? b + k then fixed_rows (offset_of l d) (cols d) else [])) as PF.
      replace (b + k - b) with k in PF by lia. rewrite PF. cbn [obind]. rewrite !flat_map_app, map_app. cbn [flat_map map]. rewrite !app_nil_r.
      assert (Eo : offset_of l (b + k) = l + length (flat_map cols (seq b k))) by (unfold offset_of; do 4 f_equal; lia).
      do 2 f_equal; [f_equal; [f_equal|]|].
      + rewrite app_length. lia.
      + rewrite cmap_of_app, app_assoc. destruct (cols (b + k)) eqn:E; cbn; [now rewrite app_nil_r|reflexivity].
      + apply Bof_ext. intros d Hd. rewrite <- app_assoc. f_equal. destruct (Nat.eqb_spec d (b + k)) as [->|].
        * destruct (Nat.ltb_spec (b + k) (b + k)); [lia|]. destruct (Nat.ltb_spec (b + k) (b + S k)); [|lia]. cbn [app]. now rewrite Eo.
        * rewrite app_nil_r. destruct (Nat.ltb_spec d (b + k)), (Nat.ltb_spec d (b + S k)); try reflexivity; lia.
      + now rewrite Eo, app_assoc.
  Qed.
End Loops.
