(** * Lemmas on the exchange of couplings *)
From Coq Require Import List Arith Bool Lia Sorted.
From Verif Require Import Base M_Assembly M_Distributed S_Distributed M_DistMatrix S_DistMatrix S_Order L_Equality L_TotalFeti L_ProjectorGGt L_Pattern L_Pattern2 L_Pattern4 L_Fill2 L_Distributed L_DistMatrix L_DistMatrix2.
Import ListNotations.
Local Open Scope out_scope.

(** a part of the pushes *)
Lemma push_list cnt P : (forall i, length (at_pos i P) <= nth i cnt 0) -> (forall x, In x P -> fst x < length cnt) -> forall P2 P1 P3 indices fin, P = P1 ++ P2 ++ P3 -> buckets cnt P1 indices fin ->
  exists indices' fin', foldM (fun st x => push_index (fst x) (snd x) st) P2 (indices, fin) = Ok (indices', fin') /\ buckets cnt (P1 ++ P2) indices' fin'.
Proof.
  intros F R. induction P2 as [|[i j] P2 IH]; intros P1 P3 ix fn E I. { rewrite app_nil_r. exists ix, fn; auto. }
  cbn [foldM fst snd]. destruct (push_ok cnt P F R P1 i j (P2 ++ P3) ix fn E I) as (ix' & fn' & E' & I'). rewrite E'; cbn [obind].
  destruct (IH (P1 ++ [(i, j)]) P3 ix' fn') as (ix2 & fn2 & E2 & I2); auto. { rewrite E, <- app_assoc; auto. } exists ix2, fn2. split; auto. rewrite <- app_assoc in I2; auto.
Qed.

Section Mesh.
  Context (nb : list (list nat)) (ms : list mesh_part) (DM : distributed_mesh nb ms).
  Local Notation P := (length ms).
  Local Notation part := (part ms).
  Local Notation nbr := (nbr nb).
  Local Notation nn := (nn ms).
  Local Notation SH := (SH ms).
  Local Notation npos := (npos ms).
  Local Notation PD := (PD ms).
  Local Notation PE := (PE ms).
  Local Notation G := (G ms).
  Local Notation PR := (PR ms).
  Local Notation pushes := (pushes ms).
  Local Notation counts := (counts ms).

  Lemma shared_loop {St} r (body : nat -> nat -> St -> outcome St) st : r < P ->
    over_shared r (nbr r) (mp_ranks (part r)) body st = foldM (fun st x => body (fst x) (find_rank (snd x) (nbr r)) st) (SH r) st.
  Proof.
    intros H. apply over_shared_ok; [apply (nbr_sorted nb ms DM); auto| |].
    - intros n Hn. apply (dm_sorted _ _ DM); auto. apply part_in; auto.
    - intros n s Hn Hs Ne. apply (dm_neighbours _ _ DM r n s); auto.
  Qed.
  Lemma SH_node r n s : r < P -> In (n, s) (SH r) -> n < nn r /\ In s (nbr r).
  Proof. intros H Hx. split; [apply (in_SH nb ms DM r n s H) in Hx; tauto|]. apply (SH_nb nb ms DM r (n, s) H Hx). Qed.

  Lemma exchange_ok {A} (F : nat -> nat -> list A) :
    exchange (map nbr (seq 0 P)) (map (fun r => map (F r) (nbr r)) (seq 0 P)) = Ok (map (fun r => map (fun j => F j r) (nbr r)) (seq 0 P)).
  Proof.
    unfold exchange. rewrite map_length, seq_length. rewrite combine_self. apply mapM_map. intros r Hr. apply in_seq in Hr. cbn [fst snd]. apply mapM_ok. intros j Hj.
    destruct (nbr_sym nb ms DM r j ltac:(lia) Hj) as (Lj & _ & Hs). unfold sent. rewrite (rd_ok _ _ []) by (rewrite map_length, seq_length; auto). cbn [obind].
    rewrite (rd_ok _ _ []) by (rewrite map_length, seq_length; auto). cbn [obind]. rewrite !nth_map_seq by auto. apply (rd_map_rank (F j)); auto.
  Qed.

  (** ** sizes *)
  Lemma pack_sizes_ok r b : r < P -> length b = nn r + 1 -> (forall n, n < nn r -> nth n b 0 = 1 + length (at_pos n (PE r))) ->
    pack_sizes r (nbr r) (part r) b = Ok (map (fun j => map (fun n => length (at_pos n (PE r))) (pick j (SH r))) (nbr r)).
  Proof.
    intros H L V. unfold pack_sizes. rewrite shared_loop by auto. rewrite (pack_ok (nbr r) (fun n k s => b <- rd b n ;; push_to s k (b - 1)) (fun n => [length (at_pos n (PE r))])).
    - reflexivity.
    - intros x Hx. apply (SH_nb nb ms DM); auto.
    - intros n s F Hx. destruct (SH_node r n s H Hx) as [Hn Hs]. rewrite (rd_ok _ _ 0) by lia. cbn [obind]. unfold push_to. rewrite (rd_map_rank F) by auto. cbn [obind].
      rewrite wr_map_rank by (auto; apply (nbr_nodup nb ms DM); auto). rewrite V by auto. replace (1 + length (at_pos n (PE r)) - 1) with (length (at_pos n (PE r))) by lia. reflexivity.
  Qed.
  Lemma message_sizes r j : r < P -> In j (nbr r) -> map (fun n => length (at_pos n (PE j))) (pick r (SH j)) = map (fun n => length (G r j n)) (pick j (SH r)).
  Proof. intros H Hj. destruct (nbr_sym nb ms DM r j H Hj) as (Lj & Ne & _). rewrite (pick_same nb ms DM r j) by auto. rewrite map_map. reflexivity. Qed.
  Lemma message_indices r j : r < P -> In j (nbr r) -> flat_map (fun n => at_pos n (PE j)) (pick r (SH j)) = flat_map (G r j) (pick j (SH r)).
  Proof.
    intros H Hj. destruct (nbr_sym nb ms DM r j H Hj) as (Lj & Ne & _). rewrite (pick_same nb ms DM r j) by auto. unfold L_DistMatrix2.G.
    generalize (pick j (SH r)). induction l as [|a l IH]; cbn [map flat_map]; congruence.
  Qed.
  Lemma at_pos_PD r n : n < nn r -> at_pos n (PD r) = [npos r n].
  Proof. intros H. unfold L_DistMatrix2.PD. rewrite at_pos_own by apply seq_NoDup. replace (memb n _) with true; auto. symmetry. apply existsb_exists. exists n. rewrite in_seq, Nat.eqb_refl. split; auto; lia. Qed.
  Lemma at_pos_PR r n : length (at_pos n (PR r)) = list_sum (at_pos n (map (fun x => (fst x, length (G r (snd x) (fst x)))) (SH r))).
  Proof.
    unfold L_DistMatrix2.PR. rewrite at_pos_flat. generalize (SH r). induction l as [|[a s] l IH]; auto. cbn [flat_map map fst snd]. rewrite app_length, IH, at_pos_pair. unfold at_pos at 2; cbn [filter fst].
    destruct (a =? n); cbn [map snd length list_sum fold_right]; auto.
  Qed.
  Lemma counts_length r : length (counts r) = nn r.
  Proof. unfold L_DistMatrix2.counts. rewrite map_length, seq_length. auto. Qed.
  Lemma unpack_counts r b : r < P -> length b = nn r + 1 -> (forall n, n < nn r -> nth n b 0 = 1 + length (at_pos n (PE r))) ->
    exists b', unpack_sizes r (nbr r) (part r) (map (fun j => map (fun n => length (at_pos n (PE j))) (pick r (SH j))) (nbr r)) b = Ok b' /\ exists x, b' = counts r ++ [x].
  Proof.
    intros H L V. unfold unpack_sizes. rewrite shared_loop by auto.
    rewrite (map_ext_in _ (fun j => map (fun n => length (G r j n)) (pick j (SH r)))) by (intros j Hj; apply message_sizes; auto).
    destruct (unpack_sizes_ok (nbr r) (nbr_nodup nb ms DM r H) (fun j n => length (G r j n)) (SH r) b) as (b' & ri & E & L' & V').
    { intros [n s] Hx. destruct (SH_node r n s H Hx). cbn [fst snd]. split; auto; lia. }
    rewrite E. cbn [obind]. exists b'; split; auto. exists (nth (nn r) b' 0). apply (nth_ext _ _ 0 0). { rewrite app_length, counts_length; simpl; lia. }
    intros n Hn. rewrite L', L in Hn. destruct (Nat.eq_dec n (nn r)) as [->|Q]. { rewrite app_nth2, counts_length, Nat.sub_diag by (rewrite counts_length; lia). auto. }
    rewrite app_nth1 by (rewrite counts_length; lia). unfold L_DistMatrix2.counts. rewrite nth_map_seq by lia. rewrite V', V by lia. unfold L_DistMatrix2.pushes. rewrite !at_pos_app, !app_length, at_pos_PD by lia.
    rewrite at_pos_PR. simpl. lia.
  Qed.

  (** ** indices *)
  Lemma PE_node r x : r < P -> In x (PE r) -> fst x < nn r.
  Proof.
    intros H Hx. apply in_flat_map in Hx. destruct Hx as (e & He & Hx). apply in_flat_map in Hx. destruct Hx as (f & Hf & Hx). apply in_map_iff in Hx. destruct Hx as (t & <- & Ht). cbn [fst].
    apply (element_ok nb ms DM r e H He); auto.
  Qed.
  Lemma pushes_node r x : r < P -> In x (pushes r) -> fst x < length (counts r).
  Proof.
    intros H Hx. rewrite counts_length. apply in_app_or in Hx. destruct Hx as [Hx|Hx]; [|apply in_app_or in Hx; destruct Hx as [Hx|Hx]].
    - apply in_map_iff in Hx. destruct Hx as (n & <- & Hn). apply in_seq in Hn. simpl; lia.
    - apply PE_node; auto.
    - apply in_flat_map in Hx. destruct Hx as ([n s] & Hs & Hx). apply in_map_iff in Hx. destruct Hx as (q & <- & _). cbn [fst]. apply (SH_node r n s); auto.
  Qed.
  Lemma pushes_fit r i : r < P -> length (at_pos i (pushes r)) <= nth i (counts r) 0.
  Proof.
    intros H. destruct (Nat.lt_ge_cases i (nn r)) as [L|L]; [unfold L_DistMatrix2.counts; rewrite nth_map_seq by auto; lia|].
    destruct (at_pos i (pushes r)) as [|x l] eqn:E; [simpl; lia|]. assert (In x (at_pos i (pushes r))) as Hx by (rewrite E; left; auto). apply at_pos_in in Hx. pose proof (pushes_node r _ H Hx) as Q. rewrite counts_length in Q. simpl in Q; lia.
  Qed.
  Lemma push_couplings_ok r alloc : r < P -> length alloc = list_sum (counts r) ->
    exists ix fn, push_couplings (part r) (alloc, begins (counts r)) = Ok (ix, fn) /\ buckets (counts r) (PD r ++ PE r) ix fn.
  Proof.
    intros H L. pose proof (fun i => pushes_fit r i H) as F. pose proof (fun x => pushes_node r x H) as R.
    pose proof (buckets_start (counts r) alloc) as B0. rewrite firstn_all in B0. specialize (B0 L).
    destruct (push_list (counts r) (pushes r) F R (PD r) [] (PE r ++ PR r) _ _ eq_refl B0) as (ix & fn & E & B).
    destruct (push_list (counts r) (pushes r) F R (PE r) (PD r) (PR r) ix fn eq_refl B) as (ix' & fn' & E' & B').
    exists ix', fn'. split; auto. unfold push_couplings. pose proof (ups_length nb ms DM r H) as LU. unfold ups in LU.
    rewrite (foldM_ext_in _ (fun st n => push_index (fst (n, npos r n)) (snd (n, npos r n)) st)).
    2:{ intros s n Hn. apply in_seq in Hn. rewrite (rd_ok _ _ 0) by (rewrite LU; unfold L_DistMatrix2.nn; lia). reflexivity. }
    rewrite (foldM_map' (fun st x => push_index (fst x) (snd x) st) (fun n => (n, npos r n))). fold (nn r). fold (PD r). unfold begins. cbn [app] in E. rewrite E. cbn [obind]. rewrite <- E'. unfold L_DistMatrix2.PE. rewrite foldM_flat.
    apply foldM_ext_in. intros st e He. unfold PE1. rewrite foldM_flat. apply foldM_ext_in. intros st1 from Hf. rewrite <- foldM_map'. rewrite <- foldM_filter. apply foldM_ext_in. intros st2 to Ht. cbn [fst snd].
    destruct (from =? to); cbn [negb]; auto. rewrite (rd_ok _ _ 0) by (rewrite LU; apply (element_ok nb ms DM r e H He); auto). reflexivity.
  Qed.
  Lemma push_buffer {A} (nbs : list nat) s (l : list A) (get : nat -> outcome A) : NoDup nbs -> In s nbs -> forall a F, (forall i, i < length l -> exists x, get (a + i) = Ok x /\ nth_error l i = Some x) ->
    foldM (fun buf i => x <- get i ;; push_to buf (find_rank s nbs) x) (seq a (length l)) (map F nbs) = Ok (map (fun j => if j =? s then F s ++ l else F j) nbs).
  Proof.
    intros N Hs. induction l as [|x l IH]; intros a F Hg; cbn [length seq foldM].
    - f_equal. apply map_ext. intros j. destruct (Nat.eqb_spec j s) as [->|]; auto. rewrite app_nil_r; auto.
    - destruct (Hg 0 ltac:(simpl; lia)) as (y & E & Q). rewrite Nat.add_0_r in E. simpl in Q; inversion Q; subst y. rewrite E. cbn [obind]. unfold push_to at 1. rewrite (rd_map_rank F) by auto. cbn [obind].
      rewrite (wr_map_rank F) by auto. cbn [obind]. rewrite IH. { f_equal. apply map_ext. intros j. rewrite Nat.eqb_refl. destruct (j =? s); auto. rewrite <- app_assoc; auto. }
      intros i Hi. destruct (Hg (S i) ltac:(simpl; lia)) as (z & Ez & Qz). exists z. split; auto. rewrite <- Ez. f_equal; lia.
  Qed.
  Lemma pack_indices_ok r ix fn : r < P -> buckets (counts r) (PD r ++ PE r) ix fn ->
    pack_indices r (nbr r) (part r) (begins (counts r)) (ix, fn) = Ok (map (fun j => flat_map (fun n => at_pos n (PE r)) (pick j (SH r))) (nbr r)).
  Proof.
    intros H B. unfold pack_indices. rewrite shared_loop by auto. apply (pack_ok (nbr r) (fun n k s => b <- rd (begins (counts r)) n ;; e <- rd fn n ;;
      foldM (fun s i => x <- rd ix i ;; push_to s k x) (seq (b + 1) (e - (b + 1))) s)). { intros x Hx. apply (SH_nb nb ms DM); auto. }
    intros n s F Hx. destruct (SH_node r n s H Hx) as [Hn Hs]. destruct B as [B1 B2 B3 B4]. pose proof (counts_length r) as LC. rewrite (rd_ok _ _ 0) by (rewrite begins_length; lia). cbn [obind]. rewrite (rd_ok _ _ 0) by lia. cbn [obind].
    specialize (B3 n ltac:(lia)). specialize (B4 n ltac:(lia)). rewrite at_pos_app, at_pos_PD in * by auto. cbn [app length] in B3. rewrite begins_nth by lia. set (b := list_sum (firstn n (counts r))) in *.
    assert (LE : nth n fn 0 <= length ix). { rewrite B1. rewrite B3. pose proof (sum_firstn_S (counts r) n ltac:(lia)) as Q1. pose proof (sum_firstn_mono (counts r) (S n) (length (counts r)) ltac:(lia)) as Q2.
      pose proof (pushes_fit r n H) as Q3. unfold L_DistMatrix2.pushes in Q3. rewrite !at_pos_app, !app_length, at_pos_PD in Q3 by auto. simpl in Q3. fold b in Q1. lia. }
    replace (nth n fn 0 - (b + 1)) with (length (at_pos n (PE r))) by lia. apply (push_buffer (nbr r) s (at_pos n (PE r)) (rd ix)); auto; [apply (nbr_nodup nb ms DM); auto|].
    intros i Hi. exists (nth (b + 1 + i) ix 0). split; [apply rd_ok; lia|]. rewrite (nth_error_nth' _ 0) by auto. f_equal.
    pose proof (f_equal (fun l => nth (S i) l 0) B4) as Q. cbn [nth app] in Q. rewrite nth_slice in Q by lia. rewrite <- Q. f_equal; lia.
  Qed.
  Lemma unpack_all r ix fn : r < P -> buckets (counts r) (PD r ++ PE r) ix fn ->
    exists ix' fn', unpack_indices r (nbr r) (part r) (map (fun j => map (fun n => length (at_pos n (PE j))) (pick r (SH j))) (nbr r)) (map (fun j => flat_map (fun n => at_pos n (PE j)) (pick r (SH j))) (nbr r)) (ix, fn)
      = Ok (ix', fn') /\ buckets (counts r) (pushes r) ix' fn'.
  Proof.
    intros H B. destruct (push_list (counts r) (pushes r) (fun i => pushes_fit r i H) (fun x => pushes_node r x H) (PR r) (PD r ++ PE r) [] ix fn) as (ix' & fn' & E & B'); auto.
    { unfold L_DistMatrix2.pushes. rewrite app_nil_r, app_assoc. auto. }
    exists ix', fn'. rewrite <- app_assoc in B'. split; auto. unfold unpack_indices. rewrite shared_loop by auto.
    rewrite (map_ext_in _ (fun j => map (fun n => length (G r j n)) (pick j (SH r)))) by (intros j Hj; apply message_sizes; auto).
    rewrite (map_ext_in (fun j => flat_map (fun n => at_pos n (PE j)) (pick r (SH j))) (fun j => flat_map (G r j) (pick j (SH r)))) by (intros j Hj; apply message_indices; auto).
    destruct (unpack_indices_ok (nbr r) (nbr_nodup nb ms DM r H) (G r) (SH r) (ix, fn)) as (a & b & E'). { intros x Hx. apply (SH_nb nb ms DM); auto. }
    rewrite E'. fold (PR r). rewrite E. reflexivity.
  Qed.
End Mesh.
