(** * Lemmas: loops over the entries of a sparse matrix that write a dense matrix *)
From Coq Require Import List Bool Arith Lia.
From Verif Require Import Base M_Csx M_CsxMap M_Dnx S_Csx S_Dnx L_Utils L_Csx L_Csx2 L_Dnx.
Import ListNotations.
Local Open Scope out_scope.

(** a loop over all stored positions is a loop over the entries *)
Lemma entries_loop {T S} (m : csx T) (f : nat -> S -> nat -> outcome S) (g : S -> entry T -> outcome S) s : valid m ->
  (forall p s i x, p < size_primary m -> nth_error (idxs m) i = Some (fst x) -> nth_error (vals m) i = Some (snd x) -> f p s i = g s (coords (ord m) p x)) ->
  foldM (fun s r => b <- rd (ptrs m) r ;; e <- rd (ptrs m) (r + 1) ;; foldM (f r) (seq b (e - b)) s) (seq 0 (size_primary m)) s =
  foldM g (entries m) s.
Proof.
  intros V Hf. pose proof (valid_rep m V) as H. set (rs := map (line m) (seq 0 (size_primary m))) in *.
  rewrite (rep_entries m rs H), <- foldM_flat_map, (r_len _ _ H). apply foldM_ext_in. intros s0 p Hp. apply in_seq in Hp.
  rewrite (row_loop' m rs p (nth p rs []) (f p) (fun s x => g s (coords (ord m) p x))); auto.
  - now rewrite foldM_map.
  - apply (rep_nth m); auto. lia.
  - intros. apply Hf; auto. lia.
Qed.

Lemma entry_range {T} (m : csx T) e : valid m -> In e (entries m) -> e_row e < nrows m /\ e_col e < ncols m.
Proof.
  intros V He. pose proof (valid_rep m V) as H. set (rs := map (line m) (seq 0 (size_primary m))) in *.
  rewrite (rep_entries m rs H) in He. apply in_flat_map in He. destruct He as (p & Hp & He). apply in_seq in Hp.
  apply in_map_iff in He. destruct He as (x & <- & Hx).
  assert (Hs : fst x < size_secdary m).
  { apply (r_range _ _ H (nth p rs [])); auto. apply nth_In. lia. }
  rewrite (r_len _ _ H) in Hp. unfold coords, size_primary, size_secdary, e_row, e_col in *. destruct (ord m); cbn [fst snd]; lia.
Qed.

(** values stored at a position by a list of entries *)
Definition here {T} (i j : nat) (e : entry T) : bool := (e_row e =? i) && (e_col e =? j).
Definition vals_in {T} (E : list (entry T)) (i j : nat) : list T := map e_val (filter (here i j) E).

Lemma vals_in_at {T} (m : csx T) i j : vals_in (entries m) i j = values_at m i j.
Proof. reflexivity. Qed.

Lemma here_spec {T} i j (e : entry T) : here i j e = true <-> e_row e = i /\ e_col e = j.
Proof. unfold here. now rewrite andb_true_iff, !Nat.eqb_eq. Qed.

Lemma fold_hits_here {T} (dst : dnx T) (op : T -> T -> T) (E : list (entry T)) i j a : fits dst ->
  i < d_rows dst -> j < d_cols dst -> (forall e, In e E -> e_row e < d_rows dst /\ e_col e < d_cols dst) ->
  fold_left (hits op (fun e => pos dst (e_row e) (e_col e)) (fun e => Some (e_val e)) (pos dst i j)) E a =
  option_map (fold_left op (vals_in E i j)) a.
Proof.
  intros F Hi Hj. revert a. induction E as [|e E IH]; intros a R; [destruct a; reflexivity|].
  cbn [fold_left]. rewrite IH by (intros; apply R; right; auto). unfold vals_in. cbn [filter].
  destruct (R e (or_introl eq_refl)) as [R1 R2]. unfold hits. destruct (here i j e) eqn:Hh.
  - apply here_spec in Hh. destruct Hh as [-> ->]. rewrite Nat.eqb_refl. cbn [map fold_left].
    destruct a; cbn [lift2 option_map]; auto.
  - destruct (Nat.eqb_spec (pos dst (e_row e) (e_col e)) (pos dst i j)) as [P|P]; auto.
    exfalso. apply pos_inj in P; auto. destruct P as [P1 P2]. enough (here i j e = true) by congruence. now apply here_spec.
Qed.

Lemma scatter_entries {T} (dst : dnx T) (E : list (entry T)) (op : T -> T -> T) (f : list T -> entry T -> outcome (list T)) :
  fits dst -> (forall e, In e E -> e_row e < d_rows dst /\ e_col e < d_cols dst) ->
  (forall w e, In e E -> length w = length (d_vals dst) ->
     f w e = (a <- rd w (pos dst (e_row e) (e_col e)) ;; wr w (pos dst (e_row e) (e_col e)) (op a (e_val e)))) ->
  exists v', foldM f E (d_vals dst) = Ok v' /\
    updates dst (with_vals dst v') (fun i j => existsb (here i j) E) (fun i j => option_map (fold_left op (vals_in E i j)) (at_ dst i j)).
Proof.
  intros F R Hf.
  destruct (scatter_ok op (fun e => pos dst (e_row e) (e_col e)) (fun e : entry T => Some (e_val e)) f E (d_vals dst)) as (v' & Ev & Lv & N).
  - intros; eauto.
  - intros e He. destruct (R e He). apply F; auto.
  - intros w e b He Hw Eb. inversion Eb; subst b. apply Hf; auto.
  - exists v'. split; auto. unfold updates. cbn [d_rows d_cols d_ld d_ord d_upl d_sym d_vals with_vals].
    split; [reflexivity|]. split; [reflexivity|]. split; [reflexivity|]. split; [reflexivity|]. split; [reflexivity|]. split; [reflexivity|].
    split; [exact Lv|]. split.
    + intros i j Hi Hj _. unfold at_ at 1. change (pos (with_vals dst v') i j) with (pos dst i j). cbn [d_vals with_vals].
      rewrite N. apply fold_hits_here; auto.
    + intros k Hk. rewrite N. apply fold_hits_none. intros e He Pe. destruct (R e He) as [R1 R2]. symmetry in Pe. revert Pe. apply Hk; auto.
      apply existsb_exists. exists e. split; auto. now apply here_spec.
Qed.

(** one update after another one *)
Lemma updates_trans {T} (a b c : dnx T) in1 in2 g1 g2 : fits a -> updates a b in1 g1 -> updates b c in2 g2 ->
  updates a c (fun i j => in1 i j || in2 i j) (fun i j => if in2 i j then g2 i j else g1 i j).
Proof.
  intros F (A1 & A2 & A3 & A4 & A5 & A6 & A7 & A8 & A9) (B1 & B2 & B3 & B4 & B5 & B6 & B7 & B8 & B9).
  assert (PP : forall i j, pos b i j = pos a i j) by (intros; unfold pos; rewrite A3, A4; reflexivity).
  assert (PC : forall i j, pos c i j = pos a i j) by (intros; unfold pos; rewrite B3, B4, A3, A4; reflexivity).
  unfold updates. split; [congruence|]. split; [congruence|]. split; [congruence|]. split; [congruence|]. split; [congruence|]. split; [congruence|].
  split; [congruence|]. rewrite A1, A2 in *. split.
  - intros i j Hi Hj P. destruct (in2 i j) eqn:E2. { apply B8; auto. }
    rewrite orb_false_r in P. rewrite <- A8 by auto. unfold at_. rewrite PC, PP.
    apply B9. intros i' j' Hi' Hj' P' Ep. rewrite PP in Ep. apply pos_inj in Ep; auto. destruct Ep; subst. congruence.
  - intros k Hk. rewrite B9. { apply A9. intros. apply Hk; auto. rewrite H1. reflexivity. }
    intros i j Hi Hj P. rewrite PP. apply Hk; auto. rewrite P. apply orb_true_r.
Qed.

(** a place in the dense array, computed from primary and secondary index of the sparse matrix *)
Lemma dense_pos_ok {T U} (m : csx U) (dst : dnx T) p (x : nat * U) :
  dense_pos (order_eqb (ord m) (d_ord dst)) (d_ld dst) p (fst x) = pos dst (e_row (coords (ord m) p x)) (e_col (coords (ord m) p x)).
Proof.
  unfold dense_pos, pos, coords, e_row, e_col. destruct (ord m), (d_ord dst); cbn [order_eqb fst snd]; lia.
Qed.

Lemma last_assign {T} (l : list T) a z : fold_left (fun _ x => x) l a = last (a :: l) z.
Proof. revert a. induction l as [|x l IH]; intros a; [reflexivity|]. cbn [fold_left]. rewrite IH. destruct l; reflexivity. Qed.

Lemma last_cons_eq {T} (l : list T) z : last (z :: l) z = last l z.
Proof. destruct l; reflexivity. Qed.

Lemma vals_in_nil {T} (E : list (entry T)) i j : existsb (here i j) E = false -> vals_in E i j = [].
Proof.
  unfold vals_in. induction E as [|e E IH]; auto. cbn [existsb filter]. intros H. apply orb_false_iff in H. destruct H as [-> H]. auto.
Qed.

(** fill with zeros (all of [in1]) and then assign entries *)
Lemma zero_then_assign {T} (dst d1 : dnx T) (zero : T) in1 (E : list (entry T)) (f : list T -> entry T -> outcome (list T)) :
  fits dst -> updates dst d1 in1 (fun _ _ => Some zero) ->
  (forall e, In e E -> e_row e < d_rows dst /\ e_col e < d_cols dst) ->
  (forall w e, In e E -> length w = length (d_vals dst) -> f w e = wr w (pos dst (e_row e) (e_col e)) (e_val e)) ->
  exists v', foldM f E (d_vals d1) = Ok v' /\
    updates dst (with_vals d1 v') (fun i j => in1 i j || existsb (here i j) E) (fun i j => Some (last (vals_in E i j) zero)).
Proof.
  intros F U R Hf. assert (F1 := updates_fits _ _ _ _ U F).
  pose proof U as (A1 & A2 & A3 & A4 & A5 & A6 & A7 & A8 & A9).
  assert (PP : forall i j, pos d1 i j = pos dst i j) by (intros; unfold pos; rewrite A3, A4; reflexivity).
  destruct (scatter_entries d1 E (fun _ x => x) f F1) as (v' & Ev & Uv).
  - intros e He. rewrite A1, A2. auto.
  - intros w e He Hw. rewrite (Hf w e He) by congruence. rewrite PP. apply assign_step. rewrite Hw, A7. destruct (R e He). apply F; auto.
  - exists v'. split; auto. pose proof (updates_trans _ _ _ _ _ _ _ F U Uv) as W.
    destruct W as (C1 & C2 & C3 & C4 & C5 & C6 & C7 & C8 & C9). unfold updates.
    split; [auto|]. split; [auto|]. split; [auto|]. split; [auto|]. split; [auto|]. split; [auto|]. split; [auto|]. split; [|auto].
    intros i j Hi Hj P. rewrite C8 by auto. destruct (existsb (here i j) E) eqn:X.
    + destruct (fits_at d1 i j F1) as [a Ea]; try congruence. rewrite Ea. cbn [option_map]. f_equal. rewrite (last_assign _ _ zero).
      assert (NE : vals_in E i j <> []).
      { apply existsb_exists in X. destruct X as (e & He & Hh). unfold vals_in. intros N. assert (In e (filter (here i j) E)) by (apply filter_In; auto).
        destruct (filter (here i j) E); [contradiction|discriminate]. }
      destruct (vals_in E i j); [congruence|reflexivity].
    + rewrite vals_in_nil; auto.
Qed.
