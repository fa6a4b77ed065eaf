(** * The sequential direct solver gets the upper triangle of the matrix (C140) *)
From Coq Require Import List Bool Arith ZArith Lia.
From Verif Require Import Base M_UpperCopy S_UpperCopy S_SetDirichlet.
Import ListNotations.
Local Open Scope out_scope.

Section UpperCopy.
Context {T : Type}.
Variable base : nat.
Local Notation entry := (nat * T)%type.
Local Notation matrix := (list (list (nat * T))).

(** a loop over positions of an array is a loop over its values *)
Local Lemma fold_range {St E} (f : St -> nat -> outcome St) (g : St -> E -> outcome St) d r : forall s st,
  (forall st j, j < length r -> f st (s + j) = g st (nth j r d)) -> foldM f (seq s (length r)) st = foldM g r st.
Proof.
  induction r as [|e r IH]; intros s st H; simpl; auto.
  pose proof (H st 0 ltac:(simpl; lia)) as H0. rewrite Nat.add_0_r in H0. rewrite H0. simpl. destruct (g st e); simpl; auto.
  apply IH. intros st' j L. specialize (H st' (S j) ltac:(simpl; lia)). rewrite <- Nat.add_succ_comm in H. exact H.
Qed.

Local Lemma offsets_nth P : forall (R : matrix) s d, nth (length P) (offsets s (P ++ R)) d = s + length (concat P).
Proof.
  induction P as [|p P IH]; intros R s d; simpl; [destruct R; simpl; lia|]. rewrite IH, app_length. lia.
Qed.
Local Lemma offsets_length : forall (R : matrix) s, length (offsets s R) = S (length R).
Proof. induction R; intros s; simpl; auto. Qed.

Local Lemma row_range_eq (P R : matrix) r : row_range base (csr_rows base (P ++ r :: R)) (length P) = Ok (seq (length (concat P)) (length r)).
Proof.
  unfold row_range, csr_rows. rewrite (rd_ok _ (length P) 0) by (rewrite offsets_length, app_length; simpl; lia).
  rewrite (rd_ok _ (S (length P)) 0) by (rewrite offsets_length, app_length; simpl; lia). simpl. rewrite offsets_nth.
  replace (P ++ r :: R) with ((P ++ [r]) ++ R) by (now rewrite <- app_assoc).
  replace (S (length P)) with (length (P ++ [r])) by (rewrite app_length; simpl; lia). rewrite offsets_nth, concat_app, app_length. simpl.
  rewrite app_nil_r. do 2 f_equal; lia.
Qed.

Local Lemma data_nth {D} (h : entry -> D) (P R : matrix) r j d : j < length r ->
  rd (map h (concat (P ++ r :: R))) (length (concat P) + j) = Ok (h (nth j r d)).
Proof.
  intros L. rewrite concat_app. simpl. rewrite (rd_ok _ _ (h d)) by (rewrite map_length, !app_length; lia).
  rewrite map_nth, app_nth2 by lia. rewrite app_nth1 by lia. do 3 f_equal. lia.
Qed.

Definition push {D} (h : entry -> D) (i : nat) (s : list D * nat) (e : entry) : outcome (list D * nat) :=
  if i <=? fst e then buf <- wr (fst s) (snd s) (h e) ;; Ok (buf, S (snd s)) else Ok s.

Local Lemma copy_row {D} (h : entry -> D) (P R : matrix) r i s :
  foldM (copy_entry base (csr_cols base (P ++ r :: R)) (map h (concat (P ++ r :: R))) i) (seq (length (concat P)) (length r)) s = foldM (push h i) r s.
Proof.
  destruct r as [|e0 r0]; [reflexivity|]. apply (fold_range _ _ e0). intros st j L. unfold copy_entry, push, csr_cols.
  rewrite (data_nth (fun e => fst e + base) P R (e0 :: r0) j e0 L). cbn [obind]. rewrite Nat.add_sub.
  destruct (i <=? fst (nth j (e0 :: r0) e0)); auto. now rewrite (data_nth h P R (e0 :: r0) j e0 L).
Qed.

Local Lemma count_row (P R : matrix) r i nnz :
  foldM (count_entry base (csr_cols base (P ++ r :: R)) i) (seq (length (concat P)) (length r)) nnz = Ok (nnz + length (filter (fun e => i <=? fst e) r)).
Proof.
  transitivity (foldM (fun n (e : entry) => Ok (if i <=? fst e then S n else n)) r nnz).
  - destruct r as [|e0 r0]; [reflexivity|]. apply (fold_range _ _ e0). intros st j L. unfold count_entry, csr_cols.
    rewrite (data_nth (fun e => fst e + base) P R (e0 :: r0) j e0 L). cbn [obind]. rewrite Nat.add_sub.
    now destruct (i <=? fst (nth j (e0 :: r0) e0)).
  - clear P R. revert nnz. induction r as [|e r IH]; intros nnz; simpl; [f_equal; lia|]. rewrite IH. destruct (i <=? fst e); simpl; f_equal; lia.
Qed.

Local Lemma row_range_of (A P R : matrix) r : A = P ++ r :: R -> row_range base (csr_rows base A) (length P) = Ok (seq (length (concat P)) (length r)).
Proof. intros ->. apply row_range_eq. Qed.
Local Lemma copy_row_of {D} (h : entry -> D) (A P R : matrix) r i s : A = P ++ r :: R ->
  foldM (copy_entry base (csr_cols base A) (map h (concat A)) i) (seq (length (concat P)) (length r)) s = foldM (push h i) r s.
Proof. intros ->. apply copy_row. Qed.
Local Lemma count_row_of (A P R : matrix) r i nnz : A = P ++ r :: R ->
  foldM (count_entry base (csr_cols base A) i) (seq (length (concat P)) (length r)) nnz = Ok (nnz + length (filter (fun e => i <=? fst e) r)).
Proof. intros ->. apply count_row. Qed.

Local Lemma push_row {D} (h : entry -> D) i r : forall (done rest : list D), length (filter (fun e => i <=? fst e) r) <= length rest ->
  foldM (push h i) r (done ++ rest, length done) =
    Ok (done ++ map h (filter (fun e => i <=? fst e) r) ++ skipn (length (filter (fun e => i <=? fst e) r)) rest,
        length (done ++ map h (filter (fun e => i <=? fst e) r))).
Proof.
  induction r as [|e r IH]; intros done rest L; simpl; [now rewrite app_nil_r|]. unfold push at 1. simpl in L. destruct (i <=? fst e); simpl in L |- *; [|auto].
  destruct rest as [|x rest]; simpl in L; [lia|]. rewrite wr_ok by (rewrite app_length; simpl; lia). simpl.
  replace (upd (done ++ x :: rest) (length done) (h e)) with ((done ++ [h e]) ++ rest).
  2:{ clear. induction done; simpl; f_equal; auto. }
  replace (S (length done)) with (length (done ++ [h e])) by (rewrite app_length; simpl; lia). rewrite IH by lia. now rewrite <- !app_assoc.
Qed.

Local Lemma upd_end {D} (a : list D) x b v : upd (a ++ x :: b) (length a) v = (a ++ [v]) ++ b.
Proof. induction a; simpl; f_equal; auto. Qed.

Local Lemma next (P R : matrix) r : P ++ r :: R = (P ++ [r]) ++ R.
Proof. now rewrite <- app_assoc. Qed.
Local Lemma next_length (P : matrix) (r : list entry) : S (length P) = length (P ++ [r]).
Proof. rewrite app_length; simpl; lia. Qed.

Local Lemma count_all (A R : matrix) : forall P nnz, A = P ++ R ->
  foldM (fun nnz i => range <- row_range base (csr_rows base A) i ;; foldM (count_entry base (csr_cols base A) i) range nnz) (seq (length P) (length R)) nnz =
    Ok (nnz + length (concat (upper_from (length P) R))).
Proof.
  induction R as [|r R IH]; intros P nnz E; simpl; [f_equal; lia|]. rewrite (row_range_of A P R r E). cbn [obind]. rewrite (count_row_of A P R r _ _ E). cbn [obind].
  rewrite (next_length P r). rewrite (IH (P ++ [r])) by (now rewrite E, next). rewrite <- (next_length P r), app_length. f_equal. lia.
Qed.

Local Lemma pattern_all (A R : matrix) : forall P (dr rr dc rc : list nat), A = P ++ R -> length dr = S (length P) -> length rr = length R ->
  length rc = length (concat (upper_from (length P) R)) ->
  foldM (pattern_row base (csr_rows base A) (csr_cols base A)) (seq (length P) (length R)) (dr ++ rr, (dc ++ rc, length dc)) =
    Ok (dr ++ tl (offsets (length dc + base) (upper_from (length P) R)),
        (dc ++ csr_cols base (upper_from (length P) R), length (dc ++ csr_cols base (upper_from (length P) R)))).
Proof.
  induction R as [|r R IH]; intros P dr rr dc rc E Ldr Lrr Lrc.
  - destruct rr; [|discriminate]. destruct rc; [|discriminate]. simpl. unfold csr_cols. simpl. now rewrite !app_nil_r.
  - simpl in Lrc. rewrite app_length in Lrc. simpl. unfold pattern_row at 1. rewrite (row_range_of A P R r E). cbn [obind fst snd].
    pose proof (copy_row_of (fun e => fst e + base) A P R r (length P) (dc ++ rc, length dc) E) as C. unfold csr_cols in C |- *. rewrite C. clear C.
    rewrite push_row by lia. cbn [obind fst snd].
    set (F := filter (fun e : entry => length P <=? fst e) r) in *.
    destruct rr as [|x rr]; [discriminate|]. rewrite wr_ok by (rewrite app_length; simpl; lia). cbn [obind]. rewrite <- Ldr, upd_end.
    rewrite Ldr. rewrite (next_length P r) at 1.
    rewrite app_assoc. unfold csr_cols in IH.
    rewrite (IH (P ++ [r]) (dr ++ [length (dc ++ map (fun e : entry => fst e + base) F) + base]) rr (dc ++ map (fun e : entry => fst e + base) F) (skipn (length F) rc)).
    + rewrite <- (next_length P r). simpl. fold F. rewrite map_app, !app_assoc. f_equal. f_equal.
      rewrite <- app_assoc. f_equal. rewrite app_length, map_length.
      replace (length dc + base + length F) with (length dc + length F + base) by lia. destruct (upper_from (S (length P)) R); reflexivity.
    + now rewrite E, next.
    + rewrite !app_length; simpl; lia.
    + simpl in Lrr. lia.
    + rewrite <- (next_length P r), skipn_length. fold F in Lrc. lia.
Qed.

Local Lemma values_all (A R : matrix) : forall P (dc rc : list T), A = P ++ R -> length rc = length (concat (upper_from (length P) R)) ->
  foldM (fun s i => range <- row_range base (csr_rows base A) i ;; foldM (copy_entry base (csr_cols base A) (csr_vals A) i) range s)
    (seq (length P) (length R)) (dc ++ rc, length dc) =
    Ok (dc ++ csr_vals (upper_from (length P) R), length (dc ++ csr_vals (upper_from (length P) R))).
Proof.
  induction R as [|r R IH]; intros P dc rc E Lrc.
  - destruct rc; [|discriminate]. unfold csr_vals. simpl. now rewrite !app_nil_r.
  - simpl in Lrc. rewrite app_length in Lrc. simpl. rewrite (row_range_of A P R r E). cbn [obind].
    pose proof (copy_row_of snd A P R r (length P) (dc ++ rc, length dc) E) as C. unfold csr_vals at 1. rewrite C. clear C.
    rewrite push_row by lia. cbn [obind]. set (F := filter (fun e : entry => length P <=? fst e) r) in *.
    rewrite app_assoc. rewrite (next_length P r) at 1.
    rewrite (IH (P ++ [r]) (dc ++ map snd F) (skipn (length F) rc)).
    + rewrite <- (next_length P r). unfold csr_vals. simpl. fold F. now rewrite map_app, !app_assoc.
    + now rewrite E, next.
    + rewrite <- (next_length P r), skipn_length. fold F in Lrc. lia.
Qed.

(** C140: the arrays of the new matrix are those of the upper triangle *)
Theorem upper_copied : forall (R : matrix) fill newvals, length newvals = length (csr_cols base (upper R)) ->
  copy_pattern base fill (length R) (csr_rows base R) (csr_cols base R) = Ok (csr_rows base (upper R), csr_cols base (upper R)) /\
  copy_values base (length R) (csr_rows base R) (csr_cols base R) (csr_vals R) newvals = Ok (csr_vals (upper R)).
Proof.
  intros R fill newvals L. split.
  - unfold copy_pattern, count_upper. pose proof (count_all R R [] 0 eq_refl) as C. simpl length in C. rewrite C. clear C. cbn [obind].
    rewrite wr_ok by (rewrite repeat_length; lia). cbn [obind].
    pose proof (pattern_all R R [] [base] (repeat fill (length R)) [] (repeat fill (length (concat (upper_from 0 R)))) eq_refl eq_refl) as C.
    simpl in C |- *. rewrite !repeat_length in C. rewrite C by reflexivity. cbn [obind fst snd]. unfold upper, csr_rows. do 2 f_equal.
    destruct (upper_from 0 R); reflexivity.
  - unfold copy_values. pose proof (values_all R R [] [] newvals eq_refl) as C. simpl in C. rewrite C; [reflexivity|].
    rewrite L. unfold csr_cols, upper. now rewrite map_length.
Qed.

Local Lemma upper_nth R : forall (i r : nat), nth r (upper_from i R) [] = filter (fun e : entry => i + r <=? fst e) (nth r R []).
Proof.
  induction R as [|r0 R IH]; intros i [|r]; simpl; auto.
  - now rewrite Nat.add_0_r.
  - rewrite IH. now rewrite Nat.add_succ_r.
Qed.

(** C140: the upper triangle together with its reflection is the whole symmetric matrix, and nothing is below the diagonal *)
Theorem upper_represents : forall (R : matrix), symmetric R ->
  (forall r c a, In (c, a) (nth r (upper R) []) -> r <= c) /\
  (forall r c a, In (c, a) (nth r R []) <-> In (c, a) (nth r (upper R) []) \/ In (r, a) (nth c (upper R) [])).
Proof.
  intros R Sym. unfold upper. split.
  - intros r c a. rewrite upper_nth. intros I. apply filter_In in I. destruct I as [_ I]. apply Nat.leb_le in I. exact I.
  - intros r c a. rewrite !upper_nth, !filter_In. simpl. rewrite !Nat.leb_le. split.
    + intros I. destruct (le_lt_dec r c); [left|right]; split; auto; lia.
    + intros [[I _]|[I _]]; auto.
Qed.
End UpperCopy.

(** the hypotheses are met: three DOFs, indices from one *)
Definition three : list (list (nat * Z)) := [[(0%nat, 4); (1%nat, 1)]; [(0%nat, 1); (1%nat, 5); (2%nat, 2)]; [(1%nat, 2); (2%nat, 6)]]%Z.
Example three_met :
  symmetric three /\ csr_rows 1 three = [1; 3; 6; 8] /\ csr_cols 1 three = [1; 2; 1; 2; 3; 2; 3] /\
  copy_pattern 1 77 3 [1; 3; 6; 8] [1; 2; 1; 2; 3; 2; 3] = Ok ([1; 3; 5; 6], [1; 2; 2; 3; 3]) /\
  copy_values 1 3 [1; 3; 6; 8] [1; 2; 1; 2; 3; 2; 3] [4; 1; 1; 5; 2; 2; 6]%Z [0; 0; 0; 0; 0]%Z = Ok [4; 1; 5; 2; 6]%Z.
Proof.
  split; [|repeat split].
  intros r c a I. destruct r as [|[|[|]]]; simpl in I; repeat (destruct I as [I|I]; [injection I as <- <-; simpl; auto|]); try tauto.
  destruct n; destruct I.
Qed.

Print Assumptions upper_copied.
Print Assumptions upper_represents.
