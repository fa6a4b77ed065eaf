(** * C52: windows of sparse matrices in dense and in sparse storage (math.spblas.hpp) *)
From Coq Require Import List Bool Arith ZArith Permutation Sorted Lia.
From Verif Require Import Base S_Order M_Csx M_Dnx M_Math S_Csx S_Dnx S_Math L_Utils L_Csx L_Csx2 P_Csx L_Csx3 L_Dnx2 L_Math L_Math2.
Import ListNotations.
Local Open Scope out_scope.

Lemma foldM_if {S A} (f : S -> A -> outcome S) (b : bool) (x : A) (s : S) :
  foldM f (if b then [x] else []) s = if b then f s x else Ok s.
Proof. destruct b; cbn [foldM]; auto. destruct (f s x); auto. Qed.

Lemma lookup_in {T} (m : csx T) i j v : lookup m i j = Some v -> In (i, j, v) (entries m).
Proof.
  unfold lookup. destruct (find _ _) as [e|] eqn:E; [|discriminate]. intros H. inversion H; subst.
  apply find_some in E. destruct E as [E1 E2]. apply andb_true_iff in E2. rewrite !Nat.eqb_eq in E2. destruct E2 as [<- <-].
  destruct e as [[a b] c]. exact E1.
Qed.

Lemma in_lookup {T} (m : csx T) i j v : distinct m -> In (i, j, v) (entries m) -> lookup m i j = Some v.
Proof.
  unfold distinct, lookup. intros D H. induction (entries m) as [|e E IH]; [contradiction|]. cbn [map] in D. inversion D as [|? ? N D']; subst.
  cbn [find]. destruct H as [->|H].
  - unfold e_row, e_col. cbn [fst snd]. rewrite !Nat.eqb_refl. reflexivity.
  - destruct (_ && _) eqn:B; [|auto]. exfalso. apply andb_true_iff in B. rewrite !Nat.eqb_eq in B. destruct B as [B1 B2]. apply N.
    apply in_map_iff. exists (i, j, v). split; auto. destruct e as [[a b] c]. unfold e_row, e_col in *. cbn in *. subst. auto.
Qed.

Lemma line_entries {T} (m : csx T) p x : ord m = OrdR -> p < nrows m -> In x (line m p) <-> In (p, fst x, snd x) (entries m).
Proof.
  intros O Hp. unfold entries. rewrite O. assert (SP : size_primary m = nrows m) by (unfold size_primary; now rewrite O). rewrite SP, in_flat_map. split.
  - intros H. exists p. split; [apply in_seq; lia|]. apply in_map_iff. exists x. auto.
  - intros (q & _ & H). apply in_map_iff in H. destruct H as (y & E & Hy). unfold coords in E. inversion E; subst.
    destruct x, y; cbn [fst snd] in *; subst; auto.
Qed.

Section Sub.
Context {T : Type}.
Variable cplx : bool.
Variable conj : T -> T.
Variable zero : T.
Hypothesis conj_involutive : forall v, conj (conj v) = v.

(** the assignments made for one stored entry *)
Definition writes (m : csx T) (t cj : bool) (os : symmetry) (oshape : uplo) (lo p : nat) (x : nat * T) : list (nat * nat * T) :=
  (if do_copy t cj os (upl m) oshape || (do_copy_conjugated t cj os (upl m) oshape && negb cplx) then [(p, fst x - lo, snd x)] else []) ++
  (if do_copy_conjugated t cj os (upl m) oshape && cplx then [(p, fst x - lo, conj (snd x))] else []) ++
  (if do_transpose_copy t cj os (upl m) oshape || (do_transposed_conjugated t cj os (upl m) oshape && negb cplx) then [(fst x - lo, p, snd x)] else []) ++
  (if do_transposed_conjugated t cj os (upl m) oshape && cplx then [(fst x - lo, p, conj (snd x))] else []).

Definition all_writes (m : csx T) (t cj : bool) (os : symmetry) (oshape : uplo) (w : window) : list (nat * nat * T) :=
  flat_map (fun p => flat_map (writes m t cj os oshape (col_start w) p)
                       (filter (fun x => in_range (col_start w) (col_end w) (fst x)) (line m (row_start w + p)))) (seq 0 (row_end w - row_start w)).

Definition write_one (oshape : uplo) (nc : nat) (v : list T) (x : nat * nat * T) : outcome (list T) :=
  wrz v (dense_index oshape (Z.of_nat (fst (fst x))) (Z.of_nat (snd (fst x))) (Z.of_nat nc)) (snd x).

Lemma sub_loop (m : csx T) t cj os oshape nc w v : valid m -> ord m = OrdR -> ascending m -> L_Csx3.fits m w ->
  foldM (fun v r => window_row m (col_start w) (col_end w) (sub_write cplx conj m t cj os oshape nc w r) v r)
    (seq (row_start w) (row_end w - row_start w)) v = foldM (write_one oshape nc) (all_writes m t cj os oshape w) v.
Proof.
  intros V O AS F. pose proof (valid_rep m V) as R. set (rs := map (line m) (seq 0 (size_primary m))) in *.
  assert (SP : size_primary m = nrows m) by (unfold size_primary; now rewrite O).
  assert (E1 : start_prim m w = row_start w) by (unfold start_prim; now rewrite O).
  assert (E2 : end_prim m w = row_end w) by (unfold end_prim; now rewrite O).
  assert (E3 : start_sec m w = col_start w) by (unfold start_sec; now rewrite O).
  assert (E4 : end_sec m w = col_end w) by (unfold end_sec; now rewrite O).
  pose proof (window_fold m rs w (fun ips => sub_write cplx conj m t cj os oshape nc w ips)
    (fun p s x => foldM (write_one oshape nc) (writes m t cj os oshape (col_start w) p x) s) v R AS F) as H.
  unfold prims in H. rewrite E1, E2, E3, E4 in H. rewrite H; clear H.
  - unfold all_writes. rewrite <- foldM_flat_map. apply foldM_ext_in. intros s p Hp. apply in_seq in Hp.
    rewrite <- foldM_flat_map. f_equal. f_equal. unfold rs. destruct F as (F1 & F2 & _).
    rewrite (nth_indep _ [] (line m 0)) by (rewrite map_length, seq_length; lia). rewrite map_nth, seq_nth by lia. reflexivity.
  - intros p s i x X1 X2. unfold sub_write, writes. rewrite (rd_some _ _ _ X2). cbn [obind].
    rewrite !foldM_app, !foldM_if. unfold write_one. cbn [fst snd]. replace (row_start w + p - row_start w) with p by lia.
    destruct (if _ : bool then wrz s _ _ else _) as [s1| |]; cbn [obind]; auto. rewrite foldM_app, !foldM_if.
    destruct (if _ : bool then wrz s1 _ _ else _) as [s2| |]; cbn [obind]; auto. rewrite foldM_app, !foldM_if.
    destruct (if _ : bool then wrz s2 _ _ else _) as [s3| |]; cbn [obind]; auto. rewrite foldM_if. reflexivity.
Qed.

Lemma cnj_involutive v : cnj cplx conj true (cnj cplx conj true v) = v.
Proof. unfold cnj. destruct cplx; cbn [andb]; auto. Qed.

Lemma in_all_writes (m : csx T) t cj os oshape w y : ord m = OrdR -> L_Csx3.fits m w ->
  In y (all_writes m t cj os oshape w) <->
  exists r c v, In (r, c, v) (entries m) /\ row_start w <= r < row_end w /\ col_start w <= c < col_end w /\
    In y (writes m t cj os oshape (col_start w) (r - row_start w) (c, v)).
Proof.
  intros O (F1 & F2 & F3 & F4). unfold all_writes. rewrite in_flat_map. split.
  - intros (p & Hp & H). apply in_seq in Hp. apply in_flat_map in H. destruct H as (x & Hx & H). apply filter_In in Hx. destruct Hx as [Hx Hr].
    apply line_entries in Hx; auto; [|lia]. unfold in_range in Hr. apply andb_true_iff in Hr. destruct Hr as [A B]. apply Nat.leb_le in A. apply Nat.ltb_lt in B.
    exists (row_start w + p), (fst x), (snd x). split; auto. split; [lia|]. split; [lia|]. replace (row_start w + p - row_start w) with p by lia.
    destruct x; auto.
  - intros (r & c & v & He & Hr & Hc & H). exists (r - row_start w). split; [apply in_seq; lia|]. apply in_flat_map. exists (c, v). split; auto.
    apply filter_In. split. { replace (row_start w + (r - row_start w)) with r by lia. apply line_entries; auto. lia. }
    cbn [fst]. unfold in_range. apply andb_true_iff. split; [apply Nat.leb_le|apply Nat.ltb_lt]; lia.
Qed.

Notation want := (fun sym (m : csx T) w (t cj : bool) i j =>
  option_map (cnj cplx conj cj) (element cplx conj sym m (row_start w + (if t then j else i)) (col_start w + (if t then i else j)))).

Lemma element_stored sym (m : csx T) r c v : distinct m -> In (r, c, v) (entries m) -> element cplx conj sym m r c = Some v.
Proof. intros D H. unfold element. now rewrite (in_lookup m r c v D H). Qed.

Lemma element_mirrored sym (m : csx T) r c v : distinct m -> consistent cplx conj sym m -> unsymmetric sym = false ->
  In (r, c, v) (entries m) -> element cplx conj sym m c r = Some (mirror cplx conj sym v).
Proof.
  intros D [C1 C2] U H. pose proof (in_lookup m r c v D H) as L. unfold element. rewrite U, orb_false_r.
  destruct (upl m) eqn:EU; cbn [uplo_eqb].
  - rewrite (C2 U r c) by auto. rewrite L. reflexivity.
  - destruct (Nat.eq_dec r c) as [->|N]. { rewrite (C2 U c c) by auto. rewrite L. reflexivity. }
    destruct (lookup m c r) as [u|] eqn:K; [|now rewrite L]. exfalso. apply lookup_in in K.
    pose proof (C1 _ H) as A. pose proof (C1 _ K) as B. unfold e_row, e_col in *. cbn [fst snd in_part] in *.
    apply Nat.leb_le in A, B. lia.
  - destruct (Nat.eq_dec r c) as [->|N]. { rewrite (C2 U c c) by auto. rewrite L. reflexivity. }
    destruct (lookup m c r) as [u|] eqn:K; [|now rewrite L]. exfalso. apply lookup_in in K.
    pose proof (C1 _ H) as A. pose proof (C1 _ K) as B. unfold e_row, e_col in *. cbn [fst snd in_part] in *.
    apply Nat.leb_le in A, B. lia.
Qed.

Lemma writes_uns (m : csx T) t cj os lo p c v y : unsymmetric os = true ->
  In y (writes m t cj os UploNone lo p (c, v)) <-> y = if t then (c - lo, p, cnj cplx conj cj v) else (p, c - lo, cnj cplx conj cj v).
Proof.
  intros U. unfold writes, do_copy, do_copy_conjugated, do_transpose_copy, do_transposed_conjugated, cnj.
  destruct os; try discriminate U; destruct t, cj, cplx; cbn; intuition congruence.
Qed.

Lemma writes_sym (m : csx T) t cj os oshape lo p c v y : unsymmetric os = false -> full_or_same (upl m) oshape = true ->
  In y (writes m t cj os oshape lo p (c, v)) <->
  y = (p, c - lo, cnj cplx conj cj (if t then mirror cplx conj os v else v)) \/
  (uplo_eqb (upl m) oshape = false /\ y = (c - lo, p, cnj cplx conj cj (if t then v else mirror cplx conj os v))).
Proof.
  intros U F. unfold writes, do_copy, do_copy_conjugated, do_transpose_copy, do_transposed_conjugated, mirror, cnj.
  rewrite F. destruct (uplo_eqb (upl m) oshape); destruct os; try discriminate U; destruct t, cj, cplx; cbn; rewrite ?conj_involutive; intuition congruence.
Qed.

(** [submatrix] to dense storage: the array holds exactly the elements of the window (transposed,
    conjugated as requested), row by row, of the full matrix or of the upper triangle. *)
Theorem submatrix_dense_is_window (m : csx T) sym w t cj force_full :
  valid m -> ord m = OrdR -> ascending m -> distinct m ->
  row_start w <= row_end w -> row_end w <= nrows m -> col_start w <= col_end w -> col_end w <= ncols m ->
  consistent cplx conj sym m -> present sym m w ->
  (upl m = UploL -> force_full = true \/ unsymmetric sym = true \/ symmetric_block w = false) ->
  exists d, sub_dense cplx conj zero m sym w t cj force_full = Ok d /\
    dn_rows d = (if t then col_end w - col_start w else row_end w - row_start w) /\
    dn_cols d = (if t then row_end w - row_start w else col_end w - col_start w) /\
    dn_shape d = (if force_full || unsymmetric sym || negb (symmetric_block w) then UploNone else upl m) /\
    dn_vals d = map (fun ij => window_at cplx conj zero sym m w t cj (fst ij) (snd ij)) (row_major (dn_shape d) (dn_rows d) (dn_cols d)).
Proof.
  intros V O AS D F1 F2 F3 F4 C PR LW. assert (F : L_Csx3.fits m w) by (unfold L_Csx3.fits; auto).
  unfold sub_dense, sub_dense_. set (os := if symmetric_block w then sym else SymGeneral).
  assert (ESH : force_full || unsymmetric sym || negb (symmetric_block w) = force_full || unsymmetric os).
  { unfold os. destruct (symmetric_block w), force_full, sym; reflexivity. }
  rewrite ESH. set (oshape := if force_full || unsymmetric os then UploNone else upl m).
  assert (G1 : uplo_eqb (upl m) UploNone && negb (uplo_eqb oshape UploNone) = false).
  { unfold oshape. destruct (force_full || unsymmetric os); [apply andb_false_r|]. destruct (upl m); reflexivity. }
  assert (G2 : unsymmetric os && negb (uplo_eqb oshape UploNone) = false).
  { unfold oshape. destruct (unsymmetric os); [rewrite orb_true_r|]; reflexivity. }
  rewrite G1, G2. cbv zeta.
  set (nr := if t then col_end w - col_start w else row_end w - row_start w).
  set (nc := if t then row_end w - row_start w else col_end w - col_start w).
  rewrite (sub_loop m t cj os oshape nc w _ V O AS F).
  assert (BLK : unsymmetric os = false -> os = sym /\ row_start w = col_start w /\ row_end w = col_end w /\ unsymmetric sym = false).
  { unfold os. destruct (symmetric_block w) eqn:SB; [|discriminate]. unfold symmetric_block in SB. apply andb_true_iff in SB. rewrite !Nat.eqb_eq in SB. tauto. }
  assert (FS : unsymmetric os = false -> full_or_same (upl m) oshape = true).
  { intros U. unfold oshape. rewrite U, orb_false_r. unfold full_or_same. destruct force_full; [reflexivity|]. destruct (upl m); reflexivity. }
  assert (OU : unsymmetric os = true -> oshape = UploNone) by (intros U; unfold oshape; rewrite U, orb_true_r; reflexivity).
  assert (PK : packable oshape nr nc).
  { destruct (unsymmetric os) eqn:U; [left; auto|]. destruct (BLK eq_refl) as (_ & B1 & B2 & _).
    assert (E : nr = nc) by (unfold nr, nc; rewrite B1, B2; destruct t; auto).
    unfold oshape. rewrite ?U, orb_false_r. destruct force_full; [left; auto|].
    destruct (upl m) eqn:EU; [left; auto| |right; auto]. exfalso.
    destruct (LW eq_refl) as [|[K|K]]; try congruence.
    - destruct (BLK eq_refl); destruct (BLK eq_refl) as (_ & _ & _ & K'). congruence.
    - unfold os in U. rewrite K in U. discriminate. }
  assert (Q : foldM (write_one oshape nc) (all_writes m t cj os oshape w) (repeat zero (dense_nnz oshape nr nc)) =
    Ok (map (fun ij => match want sym m w t cj (fst ij) (snd ij) with Some v => v | None => zero end) (row_major oshape nr nc))).
  { unfold write_one. apply (packed_assign oshape nr nc zero (want sym m w t cj)); auto.
    - intros y Hy. apply in_all_writes in Hy; auto. destruct Hy as (r & c & v & He & Hr & Hc & Hy).
      pose proof (element_stored sym m r c v D He) as E1.
      destruct (unsymmetric os) eqn:U.
      + rewrite (OU eq_refl) in *. apply (writes_uns m t cj os _ _ c v y U) in Hy. subst y.
        destruct t; cbn [fst snd in_part]; (split; [unfold nr; lia|]; split; [unfold nc; lia|]; split; [reflexivity|]);
          replace (row_start w + (r - row_start w)) with r by lia; replace (col_start w + (c - col_start w)) with c by lia; rewrite E1; reflexivity.
      + destruct (BLK eq_refl) as (EO & B1 & B2 & US). pose proof (element_mirrored sym m r c v D C US He) as E2.
        rewrite EO in Hy.
        apply (writes_sym m t cj sym oshape _ _ c v y US (FS eq_refl)) in Hy.
        destruct Hy as [->|[NE ->]]; cbn [fst snd].
        * split; [unfold nr; destruct t; lia|]. split; [unfold nc; destruct t; lia|]. split.
          { unfold oshape. destruct force_full; [reflexivity|]. cbn [orb]. pose proof (proj1 C _ He) as P. unfold e_row, e_col in P. cbn [fst snd] in P.
            destruct (upl m); cbn [in_part] in *; auto; apply Nat.leb_le in P; apply Nat.leb_le; lia. }
          destruct t.
          -- replace (row_start w + (c - col_start w)) with c by lia. replace (col_start w + (r - row_start w)) with r by lia. rewrite E2. reflexivity.
          -- replace (row_start w + (r - row_start w)) with r by lia. replace (col_start w + (c - col_start w)) with c by lia. rewrite E1. reflexivity.
        * split; [unfold nr; destruct t; lia|]. split; [unfold nc; destruct t; lia|]. split.
          { unfold oshape in *. destruct force_full; [reflexivity|]. cbn [orb] in NE. destruct (upl m); discriminate. }
          destruct t.
          -- replace (row_start w + (r - row_start w)) with r by lia. replace (col_start w + (c - col_start w)) with c by lia. rewrite E1. reflexivity.
          -- replace (row_start w + (c - col_start w)) with c by lia. replace (col_start w + (r - row_start w)) with r by lia. rewrite E2. reflexivity.
    - intros i j v Hi Hj Hp W. set (a := row_start w + (if t then j else i)) in *. set (b := col_start w + (if t then i else j)) in *.
      assert (Ha : row_start w <= a < row_end w) by (unfold a, nr, nc in *; destruct t; lia).
      assert (Hb : col_start w <= b < col_end w) by (unfold b, nr, nc in *; destruct t; lia).
      destruct (element cplx conj sym m a b) as [u|] eqn:E; [|discriminate]. clear W v. unfold element in E.
      destruct (lookup m a b) as [u'|] eqn:LK.
      + clear E. pose proof (lookup_in m a b u' LK) as He.
        destruct (unsymmetric os) eqn:U.
        * exists (i, j, cnj cplx conj cj u'). split; [|auto]. apply in_all_writes; auto. exists a, b, u'. split; auto. split; auto. split; auto.
          rewrite (OU eq_refl). apply writes_uns; auto. unfold a, b. destruct t.
          -- replace (col_start w + i - col_start w) with i by lia. replace (row_start w + j - row_start w) with j by lia. auto.
          -- replace (row_start w + i - row_start w) with i by lia. replace (col_start w + j - col_start w) with j by lia. auto.
        * destruct (BLK eq_refl) as (EO & B1 & B2 & US). destruct t.
          -- destruct (uplo_eqb (upl m) oshape) eqn:NE.
             ++ (* the mirrored entry is stored *)
                assert (LK2 : exists u2, lookup m b a = Some u2).
                { destruct (upl m) eqn:EU.
                  - rewrite (proj2 C US a b) by auto. rewrite LK. cbn. eauto.
                  - assert (oshape = UploL) by (destruct oshape; try discriminate; auto).
                    pose proof (proj1 C _ He) as P. rewrite EU in P. unfold e_row, e_col in P. cbn [fst snd in_part] in P. apply Nat.leb_le in P.
                    rewrite H in Hp. cbn [in_part] in Hp. apply Nat.leb_le in Hp. assert (a = b) by (unfold a, b in *; lia). rewrite <- H0 in *. eauto.
                  - assert (oshape = UploU) by (destruct oshape; try discriminate; auto).
                    pose proof (proj1 C _ He) as P. rewrite EU in P. unfold e_row, e_col in P. cbn [fst snd in_part] in P. apply Nat.leb_le in P.
                    rewrite H in Hp. cbn [in_part] in Hp. apply Nat.leb_le in Hp. assert (a = b) by (unfold a, b in *; lia). rewrite <- H0 in *. eauto. }
                destruct LK2 as (u2 & LK2). apply lookup_in in LK2.
                exists (i, j, cnj cplx conj cj (mirror cplx conj os u2)). split; [|auto]. apply in_all_writes; auto. exists b, a, u2. split; auto.
                split; [lia|]. split; [lia|]. apply (writes_sym m true cj os oshape); auto. left. unfold a, b. f_equal. f_equal; lia.
             ++ exists (i, j, cnj cplx conj cj u'). split; [|auto]. apply in_all_writes; auto. exists a, b, u'. split; auto. split; auto. split; auto.
                apply (writes_sym m true cj os oshape); auto. right. split; auto. unfold a, b. f_equal. f_equal; lia.
          -- exists (i, j, cnj cplx conj cj u'). split; [|auto]. apply in_all_writes; auto. exists a, b, u'. split; auto. split; auto. split; auto.
             apply (writes_sym m false cj os oshape); auto. left. unfold a, b. f_equal. f_equal; lia.
      + destruct (uplo_eqb (upl m) UploNone || unsymmetric sym) eqn:K; [discriminate|]. apply orb_false_iff in K. destruct K as [K1 US].
        destruct (lookup m b a) as [u2|] eqn:LK2; [|discriminate]. clear E. pose proof (lookup_in m b a u2 LK2) as He.
        pose proof (proj1 C _ He) as P. unfold e_row, e_col in P. cbn [fst snd] in P.
        assert (NAB : a <> b) by congruence.
        destruct (unsymmetric os) eqn:U.
        * exfalso. destruct PR as [PR|[PR|[PR|PR]]].
          -- rewrite PR in K1. discriminate.
          -- congruence.
          -- unfold os in U. rewrite PR in U. congruence.
          -- pose proof (PR a b Ha Hb) as P2. destruct (upl m); cbn [in_part uplo_eqb] in *; try discriminate; apply Nat.leb_le in P, P2; lia.
        * destruct (BLK eq_refl) as (EO & B1 & B2 & _). destruct t.
          -- exists (i, j, cnj cplx conj cj (mirror cplx conj os u2)). split; [|auto]. apply in_all_writes; auto. exists b, a, u2. split; auto.
             split; [lia|]. split; [lia|]. apply (writes_sym m true cj os oshape); auto. left. unfold a, b. f_equal. f_equal; lia.
          -- destruct (uplo_eqb (upl m) oshape) eqn:NE.
             ++ exfalso. destruct (upl m) eqn:EU; cbn [uplo_eqb] in *; try discriminate; destruct oshape; try discriminate; cbn [in_part] in *;
                apply Nat.leb_le in P, Hp; unfold a, b in *; lia.
             ++ exists (i, j, cnj cplx conj cj (mirror cplx conj os u2)). split; [|auto]. apply in_all_writes; auto. exists b, a, u2. split; auto.
                split; [lia|]. split; [lia|]. apply (writes_sym m false cj os oshape); auto. right. split; auto. unfold a, b. f_equal. f_equal; lia. }
  rewrite Q. cbn [obind]. eexists. split; [reflexivity|]. cbn [dn_rows dn_cols dn_shape dn_vals].
  split; [reflexivity|]. split; [reflexivity|]. split; [reflexivity|]. apply map_ext. intros [i j]. cbn [fst snd]. unfold window_at.
  destruct (element _ _ _ _ _ _); reflexivity.
Qed.
End Sub.

(** ** CSR to CSR *)
Section SubCsr.
Context {T : Type}.
Variable cplx : bool.
Variable conj : T -> T.

Lemma filter_le_len {A} (f : A -> bool) l : length (filter f l) <= length l.
Proof. induction l as [|a l IH]; cbn [filter length]; auto. destruct (f a); cbn [length]; lia. Qed.

Lemma skip_first (m : csx T) lo r : forall b, at_pos m b r -> sorted Nat.ltb (map fst r) ->
  exists k, skip_below (idxs m) lo (length r) b = Ok (b + k) /\ k <= length r /\
    skipn k r = filter (fun x => lo <=? fst x) r /\ firstn k r = filter (fun x => fst x <? lo) r.
Proof.
  intros b H HS. destruct (skip_ok m lo r b H HS) as (k & E & Hk & K). exists k. split; auto. split; auto. split; auto.
  clear E H b. revert k Hk K. induction r as [|x r IH]; intros k Hk K; cbn [length] in Hk.
  - destruct k; auto.
  - unfold sorted in HS. cbn [map] in HS. inversion HS; subst. cbn [filter] in *.
    assert (AL : lo <= fst x -> forall y, In y r -> lo <= fst y).
    { intros L y Hy. rewrite Forall_forall in H2. specialize (H2 (fst y) (in_map fst _ _ Hy)). unfold le_of in H2. apply Nat.ltb_ge in H2. lia. }
    destruct k as [|k]; cbn [firstn skipn] in *.
    + destruct (Nat.leb_spec lo (fst x)) as [L|L].
      * destruct (Nat.ltb_spec (fst x) lo); [lia|]. symmetry. apply filter_none. intros y Hy. apply Nat.ltb_ge. auto.
      * exfalso. pose proof (f_equal (@length _) K) as Q. cbn [length] in Q. pose proof (filter_le_len (fun x : nat * T => lo <=? fst x) r) as Q2. lia.
    + destruct (Nat.leb_spec lo (fst x)) as [L|L].
      * exfalso. pose proof (f_equal (@length _) K) as Q. cbn [length] in Q. rewrite skipn_length in Q.
        rewrite filter_all in Q; [lia|]. intros y Hy. apply Nat.leb_le. auto.
      * destruct (Nat.ltb_spec (fst x) lo); [|lia]. f_equal. apply IH; auto. lia.
Qed.

Definition emit_sub (lo : nat) (cj : bool) (s : list nat * list T * nat) (x : nat * T) := emit s (fst x - lo) (cnj cplx conj cj (snd x)).

Lemma emit_run (m : csx T) lo cj r : forall b s, at_pos m b r ->
  foldM (sub_csr_entry cplx conj m cj lo) (seq b (length r)) s = foldM (emit_sub lo cj) r s.
Proof.
  induction r as [|x r IH]; intros b s H; [reflexivity|]. cbn [length seq foldM]. destruct (H 0 x eq_refl) as [E1 E2]. rewrite Nat.add_0_r in *.
  unfold sub_csr_entry at 1. rewrite (rd_some _ _ _ E1). cbn [obind]. rewrite (rd_some _ _ _ E2). cbn [obind].
  unfold emit_sub at 1. replace (if cplx && cj then conj (snd x) else snd x) with (cnj cplx conj cj (snd x)) by (unfold cnj; rewrite (andb_comm cplx); reflexivity).
  destruct (emit s _ _); cbn [obind]; auto. apply IH. replace (S b) with (b + 1) by lia. eapply at_pos_tail; eauto.
Qed.

Definition kept lo hi (r : list (nat * T)) := filter (fun x => in_range lo hi (fst x)) r.

Definition good (m : csx T) (w : window) (rs : list (list (nat * T))) (p b e : nat) : Prop :=
  e - b = length (kept (col_start w) (col_end w) (nth (row_start w + p) rs [])) /\
  forall cj s, foldM (sub_csr_entry cplx conj m cj (col_start w)) (seq b (e - b)) s =
    foldM (emit_sub (col_start w) cj) (kept (col_start w) (col_end w) (nth (row_start w + p) rs [])) s.

Lemma range_ok (m : csx T) rs w p s : rep m rs -> ascending m -> row_start w + p < length rs -> p < length (fst s) -> p < length (snd s) ->
  exists b e, sub_range m w s p = Ok (upd (fst s) p b, upd (snd s) p e) /\ good m w rs p b e.
Proof.
  intros H HA Hp L1 L2. set (q := row_start w + p) in *. set (r := nth q rs []).
  assert (E : nth_error rs q = Some r) by (apply nth_error_nth'; auto).
  assert (HS : sorted Nat.ltb (map fst r)) by (apply (proj1 (rep_ascending m rs H) HA); apply nth_In; auto).
  assert (HP : at_pos m (offs rs q) r) by (intros k x K; eapply rep_pos; eauto).
  unfold sub_range. rewrite (Nat.add_comm p). fold q. rewrite (r_ptrs _ _ H).
  rewrite (rd_some _ _ _ (nth_error_map_offs rs (length rs) q ltac:(lia))).
  rewrite (rd_some _ _ _ (nth_error_map_offs rs (length rs) (q + 1) ltac:(lia))). cbn [obind].
  rewrite Nat.add_1_r, (offs_S _ _ _ E). replace (offs rs q + length r - offs rs q) with (length r) by lia.
  destruct (skip_first m (col_start w) r (offs rs q) HP HS) as (k & E1 & HK & EK & _). rewrite E1. cbn [obind].
  rewrite wr_ok by auto. cbn [obind].
  replace (offs rs q + length r - (offs rs q + k)) with (length (skipn k r)) by (rewrite skipn_length; lia).
  assert (HP2 : at_pos m (offs rs q + k) (skipn k r)).
  { intros j x K. rewrite nth_error_skip in K. rewrite <- Nat.add_assoc. apply HP. auto. }
  assert (HS2 : sorted Nat.ltb (map fst (skipn k r))) by (rewrite <- skipn_map; apply sorted_skipn; auto).
  destruct (skip_first m (col_end w) (skipn k r) (offs rs q + k) HP2 HS2) as (k2 & E2 & HK2 & _ & EK2). rewrite E2. cbn [obind].
  rewrite wr_ok by auto. cbn [obind]. exists (offs rs q + k), (offs rs q + k + k2). split; [reflexivity|].
  assert (KE : kept (col_start w) (col_end w) r = firstn k2 (skipn k r)).
  { unfold kept. rewrite EK2, EK. symmetry. apply filter_filter. intros x. unfold in_range. apply andb_comm. }
  assert (KL : length (firstn k2 (skipn k r)) = k2) by (apply firstn_length_le; auto).
  unfold good. fold q. fold r. replace (offs rs q + k + k2 - (offs rs q + k)) with k2 by lia. rewrite KE. split; [auto|]. intros cj s'.
  rewrite <- KL at 1. apply emit_run. intros j x K. apply HP2. rewrite <- (firstn_skipn k2 (skipn k r)). rewrite nth_error_app1; auto. apply nth_error_Some. rewrite K; discriminate.
Qed.

Lemma ranges_ok (m : csx T) rs w n : rep m rs -> ascending m -> row_start w + n <= length rs ->
  exists se, foldM (sub_range m w) (seq 0 n) (repeat 0 n, repeat 0 n) = Ok se /\ length (fst se) = n /\ length (snd se) = n /\
    forall p, p < n -> good m w rs p (nth p (fst se) 0) (nth p (snd se) 0).
Proof.
  intros H HA Hn.
  destruct (foldM_seq_inv (sub_range m w) (fun k s => length (fst s) = n /\ length (snd s) = n /\
    forall p, p < k -> good m w rs p (nth p (fst s) 0) (nth p (snd s) 0)) 0 n (repeat 0 n, repeat 0 n)) as (s & E & I).
  - cbn [fst snd]. rewrite !repeat_length. repeat split; auto; lia.
  - intros i s Hi (I1 & I2 & I3). destruct (range_ok m rs w i s H HA ltac:(lia) ltac:(lia) ltac:(lia)) as (b & e & E & G).
    eexists. split; [exact E|]. cbn [fst snd]. rewrite !upd_length. split; auto. split; auto. intros p Hp. rewrite !nth_upd by lia.
    destruct (Nat.eqb_spec i p) as [->|N]; auto. apply I3. lia.
  - exists s. auto.
Qed.

Lemma count_ok (starts ends : list nat) (f : nat -> nat) n : length starts = n -> length ends = n ->
  (forall p, p < n -> nth p ends 0 - nth p starts 0 = f p) ->
  forall k a, k <= n -> foldM (sub_count starts ends) (seq (n - k) k) a = Ok (a + list_sum (map f (seq (n - k) k))).
Proof.
  intros L1 L2 H. induction k as [|k IH]; intros a Hk; [cbn; f_equal; lia|]. cbn [seq foldM map list_sum fold_right].
  unfold sub_count at 1. rewrite (rd_ok starts (n - S k) 0), (rd_ok ends (n - S k) 0) by lia. cbn [obind]. rewrite H by lia.
  replace (S (n - S k)) with (n - k) by lia. rewrite IH by lia. f_equal. unfold list_sum. lia.
Qed.

Definition sub_row_of (w : window) (cj : bool) (rs : list (list (nat * T))) p :=
  map (fun x => (fst x - col_start w, cnj cplx conj cj (snd x))) (kept (col_start w) (col_end w) (nth (row_start w + p) rs [])).

(** [submatrix] to sparse storage: the entries of the window, shifted and conjugated, in the same order. *)
Theorem submatrix_sparse_is_window (alloc : nat -> nat -> nat -> list nat * list nat * list T) (m : csx T) sym w cj :
  valid m -> ord m = OrdR -> ascending m ->
  row_start w <= row_end w -> row_end w <= nrows m -> col_start w <= col_end w -> col_end w <= ncols m ->
  (forall r c n, length (fst (fst (alloc r c n))) = r + 1 /\ length (snd (fst (alloc r c n))) = n /\ length (snd (alloc r c n)) = n) ->
  exists d s, sub_csr cplx conj alloc m sym w false cj false = Ok (d, s) /\ valid d /\ ord d = OrdR /\
    nrows d = row_end w - row_start w /\ ncols d = col_end w - col_start w /\
    entries d = map (fun e => (e_row e - row_start w, e_col e - col_start w, cnj cplx conj cj (e_val e))) (filter (in_window w) (entries m)) /\
    (symmetric_block w = true -> upl d = upl m /\ s = sym) /\ (symmetric_block w = false -> upl d = UploNone /\ s = SymGeneral).
Proof.
  intros V O HA F1 F2 F3 F4 AL. pose proof (valid_rep m V) as R. set (rs := map (line m) (seq 0 (size_primary m))) in *.
  assert (SP : size_primary m = nrows m) by (unfold size_primary; now rewrite O).
  assert (F : L_Csx3.fits m w) by (unfold L_Csx3.fits; auto).
  assert (LR : length rs = nrows m) by (rewrite (r_len _ _ R); auto).
  unfold sub_csr. set (np := row_end w - row_start w). set (nc := col_end w - col_start w).
  destruct (ranges_ok m rs w np R HA ltac:(unfold np; lia)) as (se & ES & L1 & L2 & G). rewrite ES. cbn [obind].
  pose proof (count_ok (fst se) (snd se) (fun p => length (sub_row_of w cj rs p)) np L1 L2) as CO.
  assert (CO' : foldM (sub_count (fst se) (snd se)) (seq 0 np) 0 = Ok (list_sum (map (fun p => length (sub_row_of w cj rs p)) (seq 0 np)))).
  { specialize (CO ltac:(intros p Hp; rewrite (proj1 (G p Hp)); unfold sub_row_of; now rewrite map_length) np 0 ltac:(lia)).
    rewrite Nat.sub_diag in CO. rewrite CO. reflexivity. }
  rewrite CO'. cbn [obind]. clear CO CO'. set (n := list_sum _).
  assert (EN : n = length (concat (map (sub_row_of w cj rs) (seq 0 np)))).
  { unfold n. clear. induction (seq 0 np) as [|p l IH]; [reflexivity|]. cbn [map concat list_sum fold_right]. rewrite app_length, <- IH. reflexivity. }
  destruct (AL np nc n) as (A1 & A2 & A3). destruct (alloc np nc n) as [[p0 ix0] vs0]. cbn [fst snd] in *.
  set (dst := Csx np nc n OrdR (if symmetric_block w then upl m else UploNone) p0 ix0 vs0).
  assert (Z1 : size_primary dst = np) by reflexivity. assert (Z2 : size_secdary dst = nc) by reflexivity.
  assert (HAl : allocated dst) by (unfold allocated, dst; cbn; repeat split; auto; lia).
  set (body := fun (st : list nat * list T * nat) p => b <- rd (fst se) p ;; e <- rd (snd se) p ;; foldM (sub_csr_entry cplx conj m cj (col_start w)) (seq b (e - b)) st).
  destruct (build_rows dst body (sub_row_of w cj rs) np Z1 HAl ltac:(cbn; lia)) as (pt & st & E & L & W & Of).
  { intros st W p Hp HW HL. unfold body. rewrite (rd_ok _ p 0), (rd_ok _ p 0) by lia. cbn [obind]. rewrite (proj2 (G p Hp)).
    destruct (emits_ok (nnz dst) (fun s x => emit s (fst x) (snd x)) (sub_row_of w cj rs p) ltac:(auto) st W HW HL) as (s' & Es & Ws).
    unfold sub_row_of in Es. rewrite foldM_map in Es. exists s'. split; auto. }
  change (ptrs dst) with p0 in E. change (idxs dst) with ix0 in E. change (vals dst) with vs0 in E.
  rewrite foldM_ext_in with (g := build_step body).
  2: { intros [pt0 st0] p Hp. unfold sub_csr_row, build_step, body. cbn [fst snd]. destruct (wr pt0 p (snd st0)); cbn [obind]; auto.
       destruct (rd (fst se) p); cbn [obind]; auto. destruct (rd (snd se) p); cbn [obind]; auto. }
  rewrite E. cbn [obind].
  assert (BR : rep (with_data dst (upd pt np (nnz dst)) (fst (fst st)) (snd (fst st))) (map (sub_row_of w cj rs) (seq 0 np))).
  { apply build_rep; auto. intros p x Hp Hx. rewrite Z2. unfold sub_row_of in Hx. apply in_map_iff in Hx. destruct Hx as (y & <- & Hy).
    unfold kept in Hy. apply filter_In in Hy. destruct Hy as [_ Hy]. unfold in_range in Hy. apply andb_true_iff in Hy. destruct Hy as [B1 B2].
    apply Nat.leb_le in B1. apply Nat.ltb_lt in B2. cbn [fst]. unfold nc. lia. }
  destruct W as (_ & _ & W3 & _). destruct st as [[ix vs] k]. cbn [fst snd] in *. rewrite wr_ok by lia. cbn [obind].
  rewrite W3, <- EN in *. change (nnz dst) with n in BR. unfold with_data in BR. cbn [nrows ncols nnz ord upl dst] in BR.
  eexists. eexists. split; [reflexivity|]. split; [eapply rep_valid; exact BR|]. cbn [ord nrows ncols upl]. split; [auto|]. split; [auto|]. split; [auto|]. split.
  - rewrite (rep_entries _ _ BR). cbn [ord]. rewrite map_length, seq_length.
    pose proof (sub_entries m rs w R F) as SE. unfold sub_rows in SE. rewrite map_length, seq_length in SE. unfold start_sec, end_sec, start_prim, end_prim in SE. rewrite O in SE.
    fold np in SE.
    transitivity (map (fun e => (e_row e, e_col e, cnj cplx conj cj (e_val e))) (map (shifted (row_start w) (col_start w)) (filter (in_window w) (entries m)))).
    2:{ rewrite map_map. apply map_ext. intros e. reflexivity. }
    rewrite <- SE, flat_map_map, !flat_map_concat_map. f_equal. apply map_ext_in. intros p Hp. apply in_seq in Hp.
    rewrite !nth_map_seq by lia. unfold sub_row_of, sub_line. rewrite !map_map. reflexivity.
  - split; intros ->; auto.
Qed.
End SubCsr.

(** ** Counterexamples and concrete cases *)
Definition low3 : csx nat := Csx 3 3 6 OrdR UploL [0; 1; 3; 6] [0; 0; 1; 0; 1; 2] [1; 2; 3; 4; 5; 6].
Definition upp3 : csx nat := Csx 3 3 5 OrdR UploU [0; 3; 4; 5] [0; 1; 2; 1; 2] [1; 2; 4; 3; 6].

(** the lower triangle of a symmetric block, kept as a lower triangle, is written behind the end of its
    packed array: the position of (r, c) is computed with + where the packed layout needs - *)
Theorem submatrix_dense_lower_refuted :
  exists (m : csx nat) sym w, valid m /\ ord m = OrdR /\ ascending m /\ distinct m /\ upl m = UploL /\
    row_start w <= row_end w /\ row_end w <= nrows m /\ col_start w <= col_end w /\ col_end w <= ncols m /\
    consistent false (fun x => x) sym m /\ present sym m w /\
    sub_dense false (fun x => x) 0 m sym w false false false = UB.
Proof.
  exists low3, SymSymmetric, (Window 0 3 0 3).
  assert (V : valid low3).
  { repeat split; cbn; try lia.
    intros p Hp. assert (p = 0 \/ p = 1 \/ p = 2) as [->|[->| ->]] by lia; cbn; lia. }
  split; [exact V|]. split; [reflexivity|]. split.
  { intros p Hp. assert (p = 0 \/ p = 1 \/ p = 2) as [->|[->| ->]] by (cbn in Hp; lia); cbn; repeat constructor. }
  split. { unfold distinct. vm_compute. repeat constructor; cbn; intuition congruence. }
  split; [reflexivity|]. split; [cbn; lia|]. split; [cbn; lia|]. split; [cbn; lia|]. split; [cbn; lia|]. split.
  { split.
    - intros e He. cbn in He. repeat (destruct He as [<-|He]; [reflexivity|]). destruct He.
    - intros _ i j [E| ->]; [discriminate|]. destruct (lookup low3 j j); reflexivity. }
  split; [right; right; left; reflexivity|]. vm_compute. reflexivity.
Qed.

(** a window on the other side of the diagonal of a symmetric matrix stored as one triangle is returned
    empty, although the matrix has values there *)
Theorem submatrix_dense_other_side_refuted :
  exists (m : csx nat) w d, upl m = UploU /\ consistent false (fun x => x) SymSymmetric m /\
    sub_dense false (fun x => x) 0 m SymSymmetric w false false false = Ok d /\
    dn_vals d <> map (fun ij => window_at false (fun x => x) 0 SymSymmetric m w false false (fst ij) (snd ij)) (row_major (dn_shape d) (dn_rows d) (dn_cols d)).
Proof.
  exists upp3, (Window 1 3 0 1). eexists. split; [reflexivity|]. split.
  { split.
    - intros e He. cbn in He. repeat (destruct He as [<-|He]; [reflexivity|]). destruct He.
    - intros _ i j [E| ->]; [discriminate|]. destruct (lookup upp3 j j); reflexivity. }
  split; [vm_compute; reflexivity|]. vm_compute. discriminate.
Qed.

Example submatrix_dense_ex :
  sub_dense false (fun x => x) 0 upp3 SymSymmetric (Window 0 3 0 3) false false true = Ok (Dense 3 3 UploNone SymSymmetric [1; 2; 4; 2; 3; 0; 4; 0; 6]) /\
  sub_dense false (fun x => x) 0 upp3 SymSymmetric (Window 0 2 0 2) false false false = Ok (Dense 2 2 UploU SymSymmetric [1; 2; 3]) /\
  sub_dense false (fun x => x) 0 upp3 SymSymmetric (Window 0 2 2 3) true false false = Ok (Dense 1 2 UploNone SymGeneral [4; 0]).
Proof. vm_compute. auto. Qed.

Example submatrix_dense_hyp : valid upp3 /\ ord upp3 = OrdR /\ ascending upp3 /\ distinct upp3 /\
  consistent false (fun x => x) SymSymmetric upp3 /\ present SymSymmetric upp3 (Window 0 2 2 3) /\ present SymSymmetric upp3 (Window 0 3 0 3) /\ upl upp3 <> UploL.
Proof.
  assert (V : valid upp3).
  { repeat split; cbn; try lia.
    intros p Hp. assert (p = 0 \/ p = 1 \/ p = 2) as [->|[->| ->]] by lia; cbn; lia. }
  split; [exact V|]. split; [reflexivity|]. split.
  { intros p Hp. assert (p = 0 \/ p = 1 \/ p = 2) as [->|[->| ->]] by (cbn in Hp; lia); cbn; repeat constructor. }
  split. { unfold distinct. vm_compute. repeat constructor; cbn; intuition congruence. } split.
  { split.
    - intros e He. cbn in He. repeat (destruct He as [<-|He]; [reflexivity|]). destruct He.
    - intros _ i j [E| ->]; [discriminate|]. destruct (lookup upp3 j j); reflexivity. }
  split; [|split; [|discriminate]].
  - right; right; right. intros i j Hi Hj. cbn in *. apply Nat.leb_le. lia.
  - right; right; left. reflexivity.
Qed.

Example submatrix_sparse_ex :
  match sub_csr false (fun x => x) (fun r c n => (repeat 9 (r + 1), repeat 9 n, repeat 9 n)) upp3 SymSymmetric (Window 0 2 1 3) false false false with
  | Ok (d, s) => entries d = [(0, 0, 2); (0, 1, 4); (1, 0, 3)] /\ upl d = UploNone /\ s = SymGeneral
  | _ => False end.
Proof. vm_compute. auto. Qed.

Print Assumptions submatrix_dense_is_window.
Print Assumptions submatrix_sparse_is_window.
Print Assumptions submatrix_dense_lower_refuted.
Print Assumptions submatrix_dense_other_side_refuted.
