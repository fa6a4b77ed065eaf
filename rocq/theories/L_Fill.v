(** * Lemmas on the insertion of the matrices of the elements *)
From Coq Require Import List Arith Bool Lia Sorted Permutation.
From Verif Require Import Base S_Order S_Assembly M_Assembly M_Utils L_Utils L_Dual2 L_TotalFeti L_Numbering L_Pattern L_Pattern2 L_Pattern3 L_Pattern4 L_Pattern5.
Import ListNotations.
Local Open Scope out_scope.

(** the cells of the matrix of an element in the order of the loops *)
Definition cells_of (full : bool) (m : nat) : list (nat * nat) := flat_map (fun r => map (pair r) (columns_of full m r)) (seq 0 m).
Lemma cells_of_in full m r c : In (r, c) (cells_of full m) <-> r < m /\ c < m /\ (full = true \/ r <= c).
Proof.
  unfold cells_of. rewrite in_flat_map. split.
  - intros (r' & Hr & H). apply in_map_iff in H. destruct H as (c' & E & H). inversion E; subst. apply in_seq in Hr. unfold columns_of in H. destruct full; apply in_seq in H; repeat split; auto; lia.
  - intros (Hr & Hc & Q). exists r; split; [apply in_seq; lia|]. apply in_map_iff. exists c; split; auto. unfold columns_of. destruct full; apply in_seq; [lia|]. destruct Q; [discriminate | lia].
Qed.
Lemma cells_of_nodup full m : NoDup (cells_of full m).
Proof.
  unfold cells_of. generalize (seq_NoDup m 0). induction (seq 0 m) as [|r l IH]; intros N; [constructor|]. cbn [flat_map]. inversion N; subst. apply L_Equality7.NoDup_app_intro; auto.
  - apply FinFun.Injective_map_NoDup; [intros x y E; congruence|]. unfold columns_of; destruct full; apply seq_NoDup.
  - intros [r' c'] H H'. apply in_map_iff in H. destruct H as (c & E & _). inversion E; subst. apply in_flat_map in H'. destruct H' as (r & Hr & H'). apply in_map_iff in H'. destruct H' as (c & E' & _). inversion E'; subst. auto.
Qed.
Lemma flat_map_length {A B} (f : A -> list B) l : length (flat_map f l) = list_sum (map (fun a => length (f a)) l).
Proof. induction l; cbn [flat_map map]; [auto|]. rewrite app_length, IHl; auto. Qed.
Lemma cells_of_length full m : length (cells_of full m) = if full then m * m else m * (m - 1) / 2 + m.
Proof.
  unfold cells_of. rewrite flat_map_length.
  transitivity (list_sum (map (fun r => if full then m else m - r) (seq 0 m))).
  { f_equal. apply map_ext. intros r. rewrite map_length. unfold columns_of. destruct full; apply seq_length. }
  destruct full. { rewrite list_sum_const, seq_length; auto. }
  assert (G : forall n, n <= m -> 2 * list_sum (map (fun r => m - r) (seq 0 n)) + n * (n - 1) = 2 * (n * m)).
  { induction n; intros H; [auto|]. rewrite seq_S, map_app, list_sum_app. cbn [Nat.add map list_sum fold_right]. specialize (IHn ltac:(lia)). destruct n as [|n]; [cbn; lia|]. replace (S n - 1) with n in * by lia. replace (S (S n) - 1) with (S n) by lia. nia. }
  specialize (G m (Nat.le_refl _)).
  assert (E : list_sum (map (fun r => m - r) (seq 0 m)) * 2 = m * (m - 1) + m * 2). { destruct m as [|n]; [auto|]. replace (S n - 1) with n in * by lia. nia. }
  rewrite <- (Nat.div_add (m * (m - 1)) m 2) by lia. rewrite <- E. rewrite Nat.div_mul by lia. auto.
Qed.
Lemma positions_cells dofs full loc pos e : positions dofs full loc pos e =
  map (fun rc => ppos full loc pos (nth (fst rc) (element_dofs dofs e) 0) (nth (snd rc) (element_dofs dofs e) 0)) (cells_of full (length (element_dofs dofs e))).
Proof. unfold positions, cells_of. rewrite !flat_map_concat_map, concat_map, map_map. f_equal. apply map_ext. intros r. rewrite map_map. auto. Qed.

Lemma filter_unique {A} (p : A -> bool) x l : NoDup l -> In x l -> (forall y, In y l -> p y = true <-> y = x) -> filter p l = [x].
Proof.
  induction l as [|y l IH]; intros N H Q; [destruct H|]. inversion N; subst. cbn [filter]. destruct H as [->|H].
  - rewrite (proj2 (Q x (or_introl eq_refl))) by auto. f_equal. assert (E : forall z, In z l -> p z = false). { intros z Hz. destruct (p z) eqn:W; auto. apply Q in W; [subst; contradiction | simpl; auto]. }
    clear - E. induction l as [|z l IH]; [auto|]. cbn [filter]. rewrite (E z) by (simpl; auto). apply IH. intros; apply E; simpl; auto.
  - destruct (p y) eqn:W. { apply Q in W; [subst; contradiction | simpl; auto]. } apply IH; auto. intros; apply Q; simpl; auto.
Qed.
Lemma filter_none {A} (p : A -> bool) l : (forall y, In y l -> p y = false) -> filter p l = [].
Proof. induction l as [|z l IH]; intros E; [auto|]. cbn [filter]. rewrite (E z) by (simpl; auto). apply IH. intros; apply E; simpl; auto. Qed.

Section Fill.
  Context {T : Type}.
  Variables (zero : T) (add : T -> T -> T) (full : bool).
  Definition acc (out : list T) (x : nat * T) : outcome (list T) := o <- rd out (fst x) ;; wr out (fst x) (add o (snd x)).
  Definition values (m : nat) (matrix : list T) : list T := map (fun rc => nth (fst rc * m + snd rc) matrix zero) (cells_of full m).
  Lemma obind_ok {A} (x : outcome A) : obind x Ok = x.
  Proof. destruct x; auto. Qed.

  Lemma lane_ok m perm position matrix : m * m <= length matrix -> forall cs out i, (forall rc, In rc cs -> In rc (cells_of full m)) -> position + i + length cs <= length perm ->
    foldM (fun st (rc : nat * nat) => let '(out, i) := st in p <- rd perm (position + i) ;; o <- rd out p ;; x <- rd matrix (fst rc * m + snd rc) ;; out <- wr out p (add o x) ;; Ok (out, i + 1)) cs (out, i) =
    (out <- foldM acc (combine (slice (position + i) (position + i + length cs) perm) (map (fun rc => nth (fst rc * m + snd rc) matrix zero) cs)) out ;; Ok (out, i + length cs)).
  Proof.
    intros HM. induction cs as [|[r c] cs IH]; intros out i Hin Hl; cbn [foldM length map]. { rewrite Nat.add_0_r, slice_nil. cbn [combine foldM obind]. rewrite Nat.add_0_r; auto. }
    cbn [length] in Hl. rewrite (rd_ok perm _ 0) by lia; cbn [obind fst snd].
    rewrite (slice_app _ (S (position + i))) by lia. rewrite (slice_one 0) by lia. cbn [app combine foldM]. unfold acc at 1; cbn [fst snd].
    destruct (rd out (nth (position + i) perm 0)) as [o| |]; cbn [obind]; auto. pose proof (proj1 (cells_of_in full m r c) (Hin _ (or_introl eq_refl))) as (Hr & Hc & _).
    rewrite (rd_ok matrix _ zero) by nia; cbn [obind]. destruct (wr out _ _) as [out'| |]; cbn [obind]; auto.
    rewrite IH by (try lia; intros; apply Hin; simpl; auto). replace (position + (i + 1)) with (S (position + i)) by lia. replace (S (position + i) + length cs) with (position + i + S (length cs)) by lia. replace (i + 1 + length cs) with (i + S (length cs)) by lia. auto.
  Qed.
  Lemma fill_lane_ok m perm position matrix out i ps : m * m <= length matrix -> position + i + length (cells_of full m) <= length perm -> slice (position + i) (position + i + length (cells_of full m)) perm = ps ->
    fill_lane add full m perm position matrix (out, i) = (out <- foldM acc (combine ps (values m matrix)) out ;; Ok (out, i + length (cells_of full m))).
  Proof.
    intros HM HL HS. subst ps. unfold values. rewrite <- (lane_ok m perm position matrix HM (cells_of full m) out i) by auto.
    unfold fill_lane, cells_of. rewrite foldM_flat. apply foldM_ext_in. intros s r Hr. rewrite foldM_pairs. unfold columns_of. destruct full; apply foldM_ext_in; intros [o i'] c Hc; cbn [fst snd]; auto.
  Qed.

  Variable epos : list nat -> list nat.
  Definition insertions (m : nat) (em : list nat * list T) : list (nat * T) := combine (epos (fst em)) (values m (snd em)).
  Variables (m : nat) (perm : list nat) (es : list (list nat)) (ms : list (list T)) (start : nat).
  Hypothesis same : length es = length ms.
  Hypothesis epos_len : forall e, In e es -> length (epos e) = length (cells_of full m).
  Hypothesis ms_len : forall x, In x ms -> m * m <= length x.
  Local Notation len := (length (cells_of full m)).
  Hypothesis at_start : slice start (start + length es * len) perm = flat_map epos es.
  Hypothesis in_perm : start + length es * len <= length perm.

  Lemma perm_at e : e < length es -> slice (start + e * len) (start + e * len + len) perm = epos (nth e es []).
  Proof.
    intros H.
    assert (G : forall l s, (forall e, In e l -> length (epos e) = len) -> s + length l * len <= length perm -> slice s (s + length l * len) perm = flat_map epos l -> forall e, e < length l -> slice (s + e * len) (s + e * len + len) perm = epos (nth e l [])).
    { clear. induction l as [|x l IH]; intros s EL HP E e He; [simpl in He; lia|]. cbn [length flat_map] in *. rewrite (slice_app s (s + len)) in E by nia.
      assert (L : length (slice s (s + len) perm) = length (epos x)). { rewrite slice_length by nia. rewrite EL by (simpl; auto). lia. }
      destruct (app_inv_len _ _ _ _ L E) as [E1 E2]. destruct e; [rewrite Nat.add_0_r; auto|]. cbn [nth]. specialize (IH (s + len)). replace (s + S e * len) with (s + len + e * len) by lia. apply IH; auto; try lia.
      - intros; apply EL; simpl; auto.
      - replace (s + len + length l * len) with (s + S (length l) * len) by lia. auto. }
    apply G; auto.
  Qed.
  Lemma lanes_ok b : forall n i out, b + n <= length es -> 
    foldM (fun st s => fill_lane add full m perm (start + b * len) (nth (b + s) ms []) st) (seq i (n - i)) (out, i * len) =
    (out <- foldM acc (flat_map (insertions m) (combine (slice (b + i) (b + n) es) (slice (b + i) (b + n) ms))) out ;; Ok (out, i * len + (n - i) * len)).
  Proof.
    intros n i. remember (n - i) as q eqn:Q. revert i Q. induction q; intros i Q out H.
    - cbn [seq foldM]. assert (Z : forall {A} (l : list A), slice (b + i) (b + n) l = []) by (intros; unfold slice; replace (b + n - (b + i)) with 0 by lia; auto). rewrite !Z. cbn [combine flat_map foldM obind]. rewrite Nat.add_0_r; auto.
    - cbn [seq foldM]. rewrite (fill_lane_ok _ _ _ _ _ _ (epos (nth (b + i) es []))).
      + rewrite (slice_app (b + i) (S (b + i)) _ es), (slice_app (b + i) (S (b + i)) _ ms) by lia. rewrite (slice_one []), (slice_one [] _ ms) by lia. cbn [app combine flat_map]. rewrite foldM_app. unfold insertions at 1; cbn [fst snd].
        destruct (foldM acc (combine (epos (nth (b + i) es [])) (values m (nth (b + i) ms []))) out) as [o| |]; cbn [obind]; auto. replace (i * len + len) with (S i * len) by lia. rewrite IHq by lia. replace (b + S i) with (S (b + i)) by lia. destruct (foldM acc _ o); cbn [obind]; auto. do 2 f_equal. lia.
      + apply ms_len, nth_In. lia.
      + nia.
      + replace (start + b * len + i * len) with (start + (b + i) * len) by lia. apply perm_at. lia.
  Qed.
  Variable width : nat.
  Hypothesis width_pos : 0 < width.
  Lemma fill_chunk_ok c out done : done = Nat.min (c * width) (length es) -> (done < length es -> done = c * width) ->
    fill_chunk add full m width perm (fun s => nth (c * width + s) ms []) (out, start + done * len, length es - done) =
    (let done' := Nat.min (S c * width) (length es) in
     out <- foldM acc (flat_map (insertions m) (combine (slice done done' es) (slice done done' ms))) out ;; Ok (out, start + done' * len, length es - done')).
  Proof.
    intros Hd Hd'. unfold fill_chunk. cbv zeta. set (count := Nat.min width (length es - done)). assert (Hc : Nat.min (S c * width) (length es) = done + count) by (unfold count; lia). rewrite Hc. rewrite <- (cells_of_length full m).
    destruct (Nat.eq_dec count 0) as [Z|Z].
    - rewrite Z. cbn [seq foldM obind]. rewrite !Nat.add_0_r, !slice_nil. cbn [combine flat_map foldM obind]. rewrite ?Nat.sub_0_r; cbn [Nat.mul]; rewrite ?Nat.add_0_r; auto.
    - assert (done = c * width) by (apply Hd'; unfold count in Z; lia). pose proof (lanes_ok done count 0 out ltac:(unfold count; lia)) as L. rewrite Nat.sub_0_r, !Nat.add_0_r in L. cbn [Nat.mul] in L. rewrite <- H. cbn beta. rewrite L.
      destruct (foldM acc _ out); cbn [obind]; auto. replace (start + done * len + count * len) with (start + (done + count) * len) by lia. rewrite Nat.sub_add_distr. auto.
  Qed.
  Lemma chunks_cover n : n <= (n / width + (if n mod width =? 0 then 0 else 1)) * width.
  Proof. pose proof (Nat.div_mod n width ltac:(lia)). pose proof (Nat.mod_upper_bound n width ltac:(lia)). destruct (Nat.eqb_spec (n mod width) 0); nia. Qed.
  Lemma chunks_tight n c : c < n / width + (if n mod width =? 0 then 0 else 1) -> c * width < n.
  Proof. pose proof (Nat.div_mod n width ltac:(lia)). pose proof (Nat.mod_upper_bound n width ltac:(lia)). destruct (Nat.eqb_spec (n mod width) 0); nia. Qed.
  Lemma fill_interval_ok P i out : p_permutation P = perm -> i < length (p_offset P) -> nth i (p_offset P) 0 = start ->
    fill_interval add full m width P out i ms = foldM acc (flat_map (insertions m) (combine es ms)) out.
  Proof.
    intros HP Hi Hs. unfold fill_interval. rewrite (rd_ok _ _ 0) by auto; cbn [obind]. rewrite Hs, HP, <- same. set (chunks := length es / width + _).
    assert (G : forall c, c <= chunks -> foldM (fun st c => fill_chunk add full m width perm (fun s => nth (c * width + s) ms []) st) (seq 0 c) (out, start, length es) =
       (let done := Nat.min (c * width) (length es) in out <- foldM acc (flat_map (insertions m) (combine (slice 0 done es) (slice 0 done ms))) out ;; Ok (out, start + done * len, length es - done))).
    { induction c; intros H. { cbn [seq foldM]. cbn [Nat.mul Nat.min]. cbv zeta. rewrite !slice_nil. cbn [combine flat_map foldM obind Nat.mul]. rewrite Nat.sub_0_r, Nat.add_0_r; auto. }
      rewrite seq_S, foldM_app, IHc by lia. cbv zeta. cbn [Nat.add]. set (done := Nat.min (c * width) (length es)).
      rewrite (slice_app 0 done (Nat.min (S c * width) (length es)) es), (slice_app 0 done (Nat.min (S c * width) (length es)) ms) by (unfold done; lia).
      assert (CA : forall {A B} (a a' : list A) (b b' : list B), length a = length b -> combine (a ++ a') (b ++ b') = combine a b ++ combine a' b').
      { induction a as [|x a IHa]; intros a' [|y b] b' E; simpl in *; try discriminate; auto. f_equal; auto. }
      rewrite CA, flat_map_app, foldM_app by (rewrite !slice_length; unfold done; lia).
      destruct (foldM acc (flat_map (insertions m) (combine (slice 0 done es) (slice 0 done ms))) out) as [o| |]; cbn [obind]; auto. cbn [foldM]. rewrite (fill_chunk_ok c o done) by (unfold done; lia). cbv zeta. rewrite obind_ok. auto. }
    rewrite G by lia. cbv zeta. replace (Nat.min (chunks * width) (length es)) with (length es) by (pose proof (chunks_cover (length es)); unfold chunks; lia).
    rewrite slice_whole. rewrite same at 1. rewrite slice_whole. destruct (foldM acc _ out); auto.
  Qed.
End Fill.
