(** * Lemmas: the loops of _setG and _updateG *)
From Coq Require Import List Arith Lia Bool.
From Verif Require Import Base L_Dual2 L_TotalFeti M_Nb M_Exchange M_Dual M_DualGraph M_Projector M_ProjectorG.
Import ListNotations.
Local Open Scope out_scope.

(** beginnings of rows with the given lengths *)
Fixpoint psums (s : nat) (lens : list nat) : list nat := s :: match lens with [] => [] | l :: lens => psums (s + l) lens end.
Lemma psums_length s lens : length (psums s lens) = S (length lens).
Proof. revert s; induction lens as [|l lens IH]; intros s; cbn [psums length]; auto. Qed.
Lemma psums_nth lens : forall s i, i <= length lens -> nth i (psums s lens) 0 = s + list_sum (firstn i lens).
Proof.
  induction lens as [|l lens IH]; intros s i Hi; cbn [length] in Hi.
  - assert (i = 0) by lia. subst. cbn. lia.
  - destruct i as [|i]; cbn [psums nth firstn]; [cbn; lia|]. rewrite IH by lia. cbn [list_sum fold_right]. unfold list_sum. lia.
Qed.
Lemma psums_le lens s i : i < length lens -> nth i (psums s lens) 0 <= nth (i + 1) (psums s lens) 0.
Proof.
  intros H. rewrite !psums_nth by lia. assert (G : forall l i, list_sum (firstn i l) <= list_sum (firstn (i + 1) l)); [|specialize (G lens i); lia].
  clear. induction l as [|x l IH]; intros [|i]; cbn [firstn Nat.add list_sum fold_right]; try lia. specialize (IH i). unfold list_sum in IH. lia.
Qed.
Lemma psums_snoc lens l : forall s, psums s (lens ++ [l]) = psums s lens ++ [s + list_sum lens + l].
Proof. induction lens as [|x lens IH]; intros s; cbn [app psums]; [cbn; do 2 f_equal; lia|]. rewrite IH. cbn [app list_sum fold_right]. do 3 f_equal. unfold list_sum. lia. Qed.
Lemma concat_length {A} (l : list (list A)) : length (concat l) = list_sum (map (@length A) l).
Proof. induction l as [|x l IH]; cbn; auto. now rewrite app_length, IH. Qed.

(** a loop over vertices and their kernels as a loop over the kernels *)
Definition kernels_of (vs : smap vertex) : list (vertex * nat) := flat_map (fun dv => map (fun k => (snd dv, k)) (seq 0 (v_ksize (snd dv)))) vs.
Lemma foldM_map {S A B} (g : S -> B -> outcome S) (h : A -> B) l : forall s, foldM g (map h l) s = foldM (fun s a => g s (h a)) l s.
Proof. induction l as [|a l IH]; intros s; cbn [map foldM]; auto. destruct (g s (h a)); cbn [obind]; auto. Qed.
Lemma foldM_kernels {St} (f : vertex -> St -> nat -> outcome St) vs st :
  foldM (fun st dv => foldM (f (snd dv)) (seq 0 (v_ksize (snd dv))) st) vs st = foldM (fun st p => f (fst p) st (snd p)) (kernels_of vs) st.
Proof. unfold kernels_of. rewrite foldM_flat. apply L_TotalFeti.foldM_ext_in. intros s a _. rewrite foldM_map. reflexivity. Qed.

(** ** _setG *)
Definition vcols (v : vertex) : list nat := flat_map (fun i => seq (fst (fst i)) (snd (fst i))) (v_indices v).
Lemma fill_one o size : forall pre junk post, length junk = size -> forall b, foldM (fun st cc => let '(cols, c) := st in cols <- wr cols c (o + cc) ;; Ok (cols, c + 1)) (seq b size) (pre ++ junk ++ post, length pre) =
  Ok (pre ++ seq (o + b) size ++ post, length pre + size).
Proof.
  induction size as [|size IH]; intros pre junk post H b; cbn [seq foldM].
  - destruct junk; [|discriminate]. cbn [app]. now rewrite Nat.add_0_r.
  - destruct junk as [|x junk]; [discriminate|]. cbn [app]. rewrite wr_app_at by auto. cbn [obind].
    specialize (IH (pre ++ [o + b]) junk post ltac:(cbn in H; lia) (S b)). rewrite app_length in IH. cbn [length] in IH. rewrite <- !app_assoc in IH. cbn [app] in IH. rewrite IH. f_equal. f_equal; [|lia].
    now rewrite Nat.add_succ_r.
Qed.
Lemma fill_all idx : forall pre junk post, length junk = length (flat_map (fun i : nat * nat * list nat => seq (fst (fst i)) (snd (fst i))) idx) ->
  exists c, foldM fill_cols idx (pre ++ junk ++ post, length pre) = Ok (pre ++ flat_map (fun i => seq (fst (fst i)) (snd (fst i))) idx ++ post, c).
Proof.
  induction idx as [|((o, size), lw) idx IH]; intros pre junk post H; cbn [foldM flat_map].
  - destruct junk; [|discriminate]. eexists. reflexivity.
  - cbn [flat_map fst snd] in H. rewrite app_length, seq_length in H. unfold fill_cols at 1. cbn [fst snd].
    rewrite <- (firstn_skipn size junk), <- app_assoc. rewrite fill_one by (rewrite firstn_length; lia). cbn [obind]. rewrite Nat.add_0_r.
    destruct (IH (pre ++ seq o size) (skipn size junk) post) as (c & E); [rewrite skipn_length; lia|]. exists c. rewrite app_length, seq_length, <- !app_assoc in E. rewrite E. do 2 f_equal. now rewrite <- app_assoc.
Qed.
Lemma set_rows_ok ps : forall rs jr jc, (forall p, In p ps -> v_total (fst p) = length (vcols (fst p))) ->
  length jr = length ps -> length jc = list_sum (map (fun p => v_total (fst p)) ps) ->
  foldM (fun st p => set_row (fst p) st (snd p)) ps (psums 0 (map (@length nat) rs) ++ jr, concat rs ++ jc, length rs) =
  Ok (psums 0 (map (@length nat) (rs ++ map (fun p => vcols (fst p)) ps)), concat (rs ++ map (fun p => vcols (fst p)) ps), length rs + length ps).
Proof.
  induction ps as [|(v, k) ps IH]; intros rs jr jc HT Hr Hc; cbn [foldM map length list_sum fold_right] in *.
  - destruct jr; [|discriminate]. destruct jc; [|discriminate]. now rewrite !app_nil_r, Nat.add_0_r.
  - destruct jr as [|x jr]; [discriminate|]. cbn [length fst snd] in *. unfold set_row at 1. pose proof (HT (v, k) (or_introl eq_refl)) as Tv. cbn [fst] in Tv.
    set (rows0 := psums 0 (map (@length nat) rs)). assert (L0 : length rows0 = S (length rs)) by (unfold rows0; now rewrite psums_length, map_length).
    assert (R0 : rd (rows0 ++ x :: jr) (length rs) = Ok (length (concat rs))).
    { rewrite (rd_ok _ _ 0) by (rewrite app_length; cbn; lia). rewrite app_nth1 by lia. unfold rows0. rewrite psums_nth by (rewrite map_length; lia). rewrite firstn_all2 by (rewrite map_length; lia). now rewrite concat_length. }
    rewrite R0. cbn [obind]. rewrite wr_app_at by lia. cbn [obind].
    assert (R1 : rd (rows0 ++ (length (concat rs) + v_total v) :: jr) (length rs) = Ok (length (concat rs))).
    { rewrite (rd_ok _ _ 0) in R0 by (rewrite app_length; cbn; lia). rewrite (rd_ok _ _ 0) by (rewrite app_length; cbn; lia). rewrite app_nth1 in R0 by lia. rewrite app_nth1 by lia. exact R0. }
    rewrite R1. cbn [obind]. rewrite <- (firstn_skipn (v_total v) jc).
    destruct (fill_all (v_indices v) (concat rs) (firstn (v_total v) jc) (skipn (v_total v) jc)) as (c & E). { rewrite firstn_length. fold (vcols v). unfold list_sum in *. lia. }
    rewrite E. cbn [obind]. fold (vcols v).
    specialize (IH (rs ++ [vcols v]) jr (skipn (v_total v) jc) ltac:(intros; apply HT; right; auto) ltac:(lia)). rewrite skipn_length in IH. unfold list_sum in IH, Hc. specialize (IH ltac:(lia)).
    rewrite <- !app_assoc in IH. cbn [app] in IH.
    assert (E1 : psums 0 (map (@length nat) (rs ++ [vcols v])) ++ jr = rows0 ++ length (concat rs) + v_total v :: jr).
    { rewrite map_app. cbn [map]. rewrite psums_snoc, <- app_assoc, Nat.add_0_l, <- concat_length, Tv. reflexivity. }
    assert (E2 : concat (rs ++ [vcols v]) ++ skipn (v_total v) jc = concat rs ++ vcols v ++ skipn (v_total v) jc). { rewrite concat_app. cbn [concat]. now rewrite app_nil_r, <- app_assoc. }
    assert (E3 : length (rs ++ [vcols v]) = length rs + 1) by (rewrite app_length; reflexivity).
    rewrite E1, E2, E3 in IH. rewrite IH. do 2 f_equal. lia.
Qed.

(** vertices with offsets *)
Fixpoint loffsets (s : nat) (vs : smap vertex) : smap vertex := match vs with [] => [] | (d, v) :: vs => (d, with_loffset s v) :: loffsets (s + v_ksize v) vs end.
Lemma loffsets_keys s vs : map fst (loffsets s vs) = map fst vs.
Proof. revert s; induction vs as [|(d, v) vs IH]; intros s; cbn; auto. now rewrite IH. Qed.
Lemma count_rows_ok dend vs : (forall i j, i < j < length vs -> fst (nth i vs (0, vertex0)) < fst (nth j vs (0, vertex0))) -> forall c, count_rows dend vs c = (loffsets (Gtrows c) vs,
  {| Gtrows := Gtrows c + length (kernels_of vs); Gtnnz := Gtnnz c + list_sum (map (fun p => v_total (fst p)) (kernels_of vs));
     Grows := Grows c + length (kernels_of (below dend vs)); Gnnz := Gnnz c + list_sum (map (fun p => v_total (fst p)) (kernels_of (below dend vs))) |}).
Proof.
  assert (KS : forall (v : vertex) k b, list_sum (map (fun p : vertex * nat => v_total (fst p)) (map (fun j => (v, j)) (seq b k))) = k * v_total v).
  { intros v k. induction k as [|k IH]; intros b; cbn [seq map list_sum fold_right fst]; auto. unfold list_sum in IH. rewrite IH. reflexivity. }
  assert (KL : forall (v : vertex) k b, length (map (fun j : nat => (v, j)) (seq b k)) = k) by (intros; now rewrite map_length, seq_length).
  induction vs as [|(d, v) vs IH]; intros H c.
  - cbn. destruct c; cbn. rewrite !Nat.add_0_r. reflexivity.
  - cbn [count_rows loffsets]. rewrite IH; clear IH.
    2: { intros i j Hij. apply (H (S i) (S j)). cbn. lia. }
    unfold kernels_of. cbn [below flat_map snd Gtrows Gtnnz Grows Gnnz]. destruct (Nat.ltb_spec d dend) as [C|C]; cbn [flat_map snd].
    + rewrite !map_app, !app_length, !list_sum_app, !KS, !KL. rewrite !Nat.add_assoc. reflexivity.
    + assert (B : below dend vs = []).
      { destruct vs as [|(d', v') vs]; auto. specialize (H 0 1 ltac:(cbn; lia)). cbn in H. cbn [below]. destruct (Nat.ltb_spec d' dend); [lia|auto]. }
      rewrite B. rewrite !map_app, !app_length, !list_sum_app, !KS, !KL. cbn [flat_map map list_sum fold_right length]. rewrite !Nat.add_assoc, ?Nat.add_0_r. reflexivity.
Qed.

(** ** _updateG *)
Section Update.
  Context {T : Type}.
  Variables (zero : T) (sub mul : T -> T -> T).

  Lemma clear_ok nnz : forall (done vals : list T), nnz <= length vals -> foldM (fun vals i => wr vals i zero) (seq (length done) nnz) (done ++ vals) = Ok (done ++ repeat zero nnz ++ skipn nnz vals).
  Proof.
    induction nnz as [|nnz IH]; intros done vals H; cbn [seq foldM repeat skipn app]; auto. destruct vals as [|x vals]; [cbn in H; lia|]. rewrite wr_app_at by auto. cbn [obind].
    specialize (IH (done ++ [zero]) vals ltac:(cbn in H; lia)). rewrite app_length in IH. cbn [length] in IH. rewrite Nat.add_1_r, <- !app_assoc in IH. cbn [app] in IH. rewrite IH. reflexivity.
  Qed.

  (** the value of an element: x e is the element of R *)
  Definition gentry (x : nat -> T) (es : list (nat * T)) : T := fold_left (fun s e => sub s (mul (x (fst e)) (snd e))) es zero.
  Lemma update_entry_ok rows R ri kr b c p es (x : nat -> T) : rd rows ri = Ok b -> (forall e, In e es -> rd (M_Projector.vals R) (M_Projector.ncols R * kr + fst e) = Ok (x (fst e))) ->
    forall pre post, length pre = b + c -> update_entry sub mul rows R ri kr (pre ++ zero :: post) (c, (p, es)) = Ok (pre ++ gentry x es :: post).
  Proof.
    intros Hb Hx pre post Hp. unfold update_entry, gentry. cbn [fst snd]. rewrite Hb. cbn [obind]. generalize zero. induction es as [|e es IH]; intros o; cbn [foldM fold_left]; auto.
    rewrite rd_app_at by auto. cbn [obind]. rewrite Hx by (left; auto). cbn [obind]. rewrite wr_app_at by auto. cbn [obind]. apply IH. intros; apply Hx; right; auto.
  Qed.
  Lemma update_entries_ok rows R ri kr b (x : nat -> T) B : rd rows ri = Ok b -> (forall row e, In row B -> In e (snd row) -> rd (M_Projector.vals R) (M_Projector.ncols R * kr + fst e) = Ok (x (fst e))) ->
    forall pre c post, length pre = b + c ->
    foldM (update_entry sub mul rows R ri kr) (combine (seq c (length B)) B) (pre ++ repeat zero (length B) ++ post) = Ok (pre ++ map (fun row => gentry x (snd row)) B ++ post).
  Proof.
    intros Hb. induction B as [|(p, es) B IH]; intros Hx pre c post Hp; cbn [length seq combine foldM repeat app map snd]; auto.
    rewrite (update_entry_ok rows R ri kr b c p es x Hb); auto; [|intros e He; apply (Hx (p, es)); [left; auto|exact He]]. cbn [obind].
    specialize (IH (fun row e H => Hx row e (or_intror H)) (pre ++ [gentry x es]) (S c) post). rewrite app_length in IH. cbn [length] in IH. rewrite <- !app_assoc in IH. cbn [app] in IH. rewrite IH by lia. reflexivity.
  Qed.

  (** [vx p]: elements of the kernel; [vB p]: rows of B1 *)
  Lemma update_rows_ok B1 R1 (vB : vertex -> list (nat * list (nat * T))) (vR : vertex -> kernel T) (vx : vertex * nat -> nat -> T) ps : forall done lens rest,
    (forall p, In p ps -> rd B1 (v_offset (fst p)) = Ok (vB (fst p)) /\ rd R1 (v_offset (fst p)) = Ok (vR (fst p)) /\ length (vB (fst p)) = v_total (fst p) /\
      forall row e, In row (vB (fst p)) -> In e (snd row) -> rd (M_Projector.vals (vR (fst p))) (M_Projector.ncols (vR (fst p)) * snd p + fst e) = Ok (vx p (fst e))) ->
    exists ri,
    foldM (fun st p => update_row sub mul (psums 0 (map (@length T) done ++ map (fun p => v_total (fst p)) ps ++ lens)) B1 R1 (fst p) st (snd p)) ps
      (concat done ++ repeat zero (list_sum (map (fun p => v_total (fst p)) ps)) ++ rest, length done) =
    Ok (concat (done ++ map (fun p => map (fun row => gentry (vx p) (snd row)) (vB (fst p))) ps) ++ rest, ri).
  Proof.
    induction ps as [|(v, k) ps IH]; intros done lens rest H; cbn [map app foldM list_sum fold_right repeat fst snd].
    - exists (length done). now rewrite app_nil_r.
    - destruct (H (v, k) (or_introl eq_refl)) as (H1 & H2 & H3 & H4). cbn [fst snd] in *. unfold update_row at 1. rewrite H1. cbn [obind]. rewrite H2. cbn [obind].
      set (rows := psums 0 (map (@length T) done ++ v_total v :: map (fun p => v_total (fst p)) ps ++ lens)).
      assert (Rb : rd rows (length done) = Ok (length (concat done))).
      { unfold rows. rewrite (rd_ok _ _ 0) by (rewrite psums_length, app_length, map_length; lia). rewrite psums_nth by (rewrite app_length, map_length; lia).
        rewrite firstn_app, map_length, Nat.sub_diag, firstn_all2 by (rewrite map_length; lia). cbn [firstn]. now rewrite app_nil_r, concat_length. }
      rewrite repeat_app, <- !app_assoc.
      replace (repeat zero (v_total v)) with (repeat zero (length (vB v))) by now rewrite H3.
      rewrite (update_entries_ok rows (vR v) (length done) k (length (concat done)) (vx (v, k)) (vB v) Rb H4 (concat done) 0) by lia. cbn [obind].
      destruct (IH (done ++ [map (fun row => gentry (vx (v, k)) (snd row)) (vB v)]) lens rest) as (ri & E); [intros; apply H; right; auto|]. exists ri.
      rewrite map_app, concat_app, app_length in E. cbn [map concat length] in E. rewrite map_length, H3, app_nil_r, <- !app_assoc in E. cbn [app] in E. rewrite <- E. reflexivity.
  Qed.

End Update.

Section Messages.
  Context {T : Type}.
  (** *** Send *)
  Lemma send_block_ok vals ci size N k (xs pre post : list T) : k < N -> vals = pre ++ xs ++ post -> ci = length pre -> size = length xs -> forall F,
    send_block vals ci size (map F (seq 0 N)) k = Ok (map (fun j => if j =? k then F j ++ xs else F j) (seq 0 N)).
  Proof.
    intros Hk Ev Ec Es. unfold send_block. subst size. subst vals ci.
    induction xs as [|x xs IH] in pre |- *; intros F; cbn [length seq foldM].
    - f_equal. apply map_ext. intros j. destruct (j =? k); auto. now rewrite app_nil_r.
    - rewrite Nat.add_0_r. cbn [app]. rewrite rd_app_at by auto. cbn [obind]. rewrite rd_map_seq by auto. cbn [obind]. rewrite wr_map_seq by auto. cbn [obind].
      specialize (IH (pre ++ [x]) (fun j => if j =? k then F k ++ [x] else F j)). rewrite app_length in IH. cbn [length] in IH. rewrite <- app_assoc in IH. cbn [app] in IH.
      rewrite <- seq_shift, foldM_map. erewrite L_TotalFeti.foldM_ext_in; [rewrite IH|].
      + f_equal. apply map_ext. intros j. destruct (Nat.eqb_spec j k) as [->|]; auto. rewrite <- app_assoc. reflexivity.
      + intros s a _. cbn beta. replace (length pre + S a) with (length pre + 1 + a) by lia. reflexivity.
  Qed.
  Definition has (k : nat) (l : list nat) : bool := existsb (Nat.eqb k) l.
  Lemma send_neighs_ok vals ci size N (xs pre post : list T) : vals = pre ++ xs ++ post -> ci = length pre -> size = length xs -> forall lw F,
    (0 < size -> NoDup lw /\ forall k, In k lw -> k < N) ->
    foldM (send_block vals ci size) lw (map F (seq 0 N)) = Ok (map (fun j => if has j lw then F j ++ xs else F j) (seq 0 N)).
  Proof.
    intros Ev Ec Es lw F H. destruct size as [|size].
    - destruct xs; [|discriminate]. assert (G : forall sb, foldM (send_block vals ci 0) lw sb = Ok sb) by (clear; induction lw; intros sb; cbn; auto). rewrite G. f_equal. apply map_ext. intros j. rewrite app_nil_r. destruct (has j lw); auto.
    - destruct (H ltac:(lia)) as (ND & HK). clear H. revert F. induction ND as [|k lw Hk ND IH]; intros F; cbn [foldM]; auto.
      rewrite (send_block_ok vals ci (S size) N k xs pre post (HK k (or_introl eq_refl)) Ev Ec Es). cbn [obind]. rewrite IH by (intros; apply HK; right; auto). f_equal. apply map_ext. intros j. cbn [has existsb].
      fold (has j lw). destruct (Nat.eqb_spec j k) as [->|]; cbn [orb]; auto. assert (X : has k lw = false).
      { destruct (has k lw) eqn:E; auto. apply existsb_exists in E. destruct E as (y & Hy & E). apply Nat.eqb_eq in E. subst. tauto. }
      now rewrite X.
  Qed.
  (** values with the neighbours that get them *)
  Definition to_neighbour (k : nat) (xs : list T) (lws : list (list nat)) : list T := map fst (filter (fun y => has k (snd y)) (combine xs lws)).
  Definition lows (idx : list (nat * nat * list nat)) : list (list nat) := flat_map (fun i => repeat (snd i) (snd (fst i))) idx.
  Lemma to_neighbour_app k a b la lb : length a = length la -> to_neighbour k (a ++ b) (la ++ lb) = to_neighbour k a la ++ to_neighbour k b lb.
  Proof.
    revert la; induction a as [|x a IH]; intros [|l la] H; try discriminate; auto. unfold to_neighbour in *. cbn [app combine filter snd]. specialize (IH la ltac:(cbn in H; lia)).
    destruct (has k l); cbn [map fst app]; rewrite IH; auto.
  Qed.
  Lemma to_neighbour_repeat k xs lw : to_neighbour k xs (repeat lw (length xs)) = if has k lw then xs else [].
  Proof.
    unfold to_neighbour. induction xs as [|x xs IH]; cbn [length repeat combine filter snd]; [destruct (has k lw); auto|]. destruct (has k lw); cbn [map fst]; rewrite IH; auto.
  Qed.
  Lemma send_indices_ok vals N idx : (forall i, In i idx -> 0 < snd (fst i) -> NoDup (snd i) /\ forall k, In k (snd i) -> k < N) -> forall (xs pre post : list T) F, vals = pre ++ xs ++ post -> length xs = length (lows idx) ->
    exists ci, foldM (send_index vals) idx (map F (seq 0 N), length pre) = Ok (map (fun j => F j ++ to_neighbour j xs (lows idx)) (seq 0 N), ci).
  Proof.
    induction idx as [|((o, size), lw) idx IH]; intros H xs pre post F Ev Lx; cbn [foldM].
    - exists (length pre). f_equal. f_equal. apply map_ext. intros j. unfold to_neighbour, lows. cbn [flat_map]. rewrite combine_nil. cbn. now rewrite app_nil_r.
    - unfold lows in Lx. cbn [flat_map fst snd] in Lx. rewrite app_length, repeat_length in Lx. fold (lows idx) in Lx. unfold send_index at 1. cbn [fst snd].
      assert (L1 : length (firstn size xs) = size) by (rewrite firstn_length; lia).
      rewrite (send_neighs_ok vals (length pre) size N (firstn size xs) pre (skipn size xs ++ post)); auto.
      + cbn [obind]. destruct (IH ltac:(intros; apply H; auto; right; auto) (skipn size xs) (pre ++ firstn size xs) post (fun j => if has j lw then F j ++ firstn size xs else F j)) as (ci & E).
        * rewrite Ev, <- app_assoc. rewrite (app_assoc (firstn size xs)), firstn_skipn. reflexivity.
        * rewrite skipn_length. lia.
        * exists ci. rewrite app_length, L1 in E. rewrite E. f_equal. f_equal. apply map_ext. intros j. unfold lows. cbn [flat_map fst snd]. fold (lows idx).
          rewrite <- (firstn_skipn size xs) at 3. rewrite to_neighbour_app by (rewrite L1, repeat_length; auto). rewrite <- L1 at 4. rewrite to_neighbour_repeat. destruct (has j lw); auto. now rewrite <- app_assoc.
      + rewrite Ev. rewrite (app_assoc (firstn size xs)), firstn_skipn. reflexivity.
      + apply (H (o, size, lw)). left; auto.
  Qed.
  Lemma send_rows_ok vals rows roffset N (xs : vertex * nat -> list T) ps : forall done rest F,
    vals = concat done ++ concat (map xs ps) ++ rest ->
    (forall i p, nth_error ps i = Some p -> v_goffset (fst p) + snd p = roffset + (length done + i) /\ rd rows (length done + i) = Ok (length (concat done) + length (concat (map xs (firstn i ps)))) /\
       length (xs p) = length (lows (v_indices (fst p))) /\ forall j, In j (v_indices (fst p)) -> 0 < snd (fst j) -> NoDup (snd j) /\ forall k, In k (snd j) -> k < N) ->
    foldM (fun sb p => send_row roffset rows vals (fst p) sb (snd p)) ps (map F (seq 0 N)) =
    Ok (map (fun j => F j ++ flat_map (fun p => to_neighbour j (xs p) (lows (v_indices (fst p)))) ps) (seq 0 N)).
  Proof.
    induction ps as [|p ps IH]; intros done rest F Ev H; cbn [foldM flat_map].
    - f_equal. apply map_ext. intros j. now rewrite app_nil_r.
    - destruct (H 0 p eq_refl) as (H1 & H2 & H3 & H4). rewrite !Nat.add_0_r in H1, H2. cbn [firstn map concat length] in H2. rewrite Nat.add_0_r in H2. unfold send_row at 1. rewrite H1. cbn [map concat] in Ev.
      destruct (Nat.ltb_spec (roffset + length done) roffset); [lia|]. replace (roffset + length done - roffset) with (length done) by lia. rewrite H2. cbn [obind].
      destruct (send_indices_ok vals N (v_indices (fst p)) H4 (xs p) (concat done) (concat (map xs ps) ++ rest) F) as (ci & E); auto. { rewrite Ev, <- !app_assoc. reflexivity. }
      rewrite E. cbn [obind]. rewrite (IH (done ++ [xs p]) rest).
      + f_equal. apply map_ext. intros j. now rewrite <- app_assoc.
      + rewrite concat_app, Ev, <- !app_assoc. cbn [concat]. now rewrite app_nil_r.
      + intros i q Hq. destruct (H (S i) q Hq) as (G1 & G2 & G3 & G4). rewrite app_length, concat_app, app_length. cbn [length concat] in *. rewrite app_nil_r. replace (length done + 1 + i) with (length done + S i) by lia. repeat split; auto.
        * rewrite G2. cbn [firstn map concat]. rewrite app_length. f_equal. lia.
        * apply (G4 j); auto.
        * apply (G4 j); auto.
  Qed.

  (** *** Receive *)
  Lemma copy_to_ok b : forall (pre junk post : list T), length junk = length b -> copy_to (pre ++ junk ++ post) (length pre) b = Ok (pre ++ b ++ post).
  Proof.
    unfold copy_to. intros pre junk post H. assert (G : forall s done, length done = s -> foldM (fun vals ix => wr vals (length pre + fst ix) (snd ix)) (combine (seq s (length b)) b) (pre ++ done ++ junk ++ post) = Ok (pre ++ done ++ b ++ post)).
    { revert junk H. induction b as [|x b IH]; intros junk H s done Hs; cbn [length seq combine foldM].
      - destruct junk; [|discriminate]. reflexivity.
      - destruct junk as [|y junk]; [discriminate|]. cbn [fst snd app]. rewrite app_assoc, wr_app_at by (rewrite app_length; lia). cbn [obind].
        specialize (IH junk ltac:(cbn in H; lia) (S s) (done ++ [x]) ltac:(rewrite app_length; cbn; lia)). rewrite <- !app_assoc in *. cbn [app] in IH. exact IH. }
    apply (G 0 []). reflexivity.
  Qed.
  Lemma receive_all (rb : list (list T)) : forall pre junk, length junk = length (concat rb) -> exists o,
    foldM (fun st b => let '(vals, offset) := st in vals <- copy_to vals offset b ;; Ok (vals, offset + length b)) rb (pre ++ junk, length pre) = Ok (pre ++ concat rb, o).
  Proof.
    induction rb as [|b rb IH]; intros pre junk H; cbn [foldM concat] in *.
    - destruct junk; [|discriminate]. eexists. reflexivity.
    - rewrite app_length in H. rewrite <- (firstn_skipn (length b) junk). rewrite copy_to_ok by (rewrite firstn_length; lia). cbn [obind].
      destruct (IH (pre ++ b) (skipn (length b) junk)) as (o & E); [rewrite skipn_length; lia|]. exists o. rewrite app_length, <- !app_assoc in E. exact E.
  Qed.
End Messages.
