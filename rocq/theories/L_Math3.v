(** * Pivoting on a flat row-major array: one step described element by element *)
From Coq Require Import List Bool Arith Permutation Sorted Lia.
From Verif Require Import Base S_Order M_Math L_Utils L_Csx L_Math.
Import ListNotations.
Local Open Scope out_scope.

Section Step.
Context {T : Type}.
Variable zero : T.
Variable abs_le : T -> T -> bool.
Variables sub mul div : T -> T -> T.
Variables n m : nat.

Definition get (N : list T) (r c : nat) : T := nth (r * m + c) N zero.

Lemma pos_lt r c : r < n -> c < m -> r * m + c < n * m.
Proof. intros H1 H2. assert (S r * m <= n * m) by (apply Nat.mul_le_mono_r; lia). cbn [Nat.mul] in *. lia. Qed.

Lemma pos_inj r c r' c' : c < m -> c' < m -> r * m + c = r' * m + c' -> r = r' /\ c = c'.
Proof. intros H1 H2 E. apply (Nat.div_mod_unique m); auto. lia. Qed.

Lemma swap_list {A} (l : list A) i j d : i < length l -> j < length l ->
  exists l', swap l i j = Ok l' /\ length l' = length l /\
    forall k, nth k l' d = if k =? j then nth i l d else if k =? i then nth j l d else nth k l d.
Proof.
  intros Hi Hj. unfold swap. rewrite (rd_ok l i d), (rd_ok l j d) by auto. cbn [obind]. rewrite wr_ok by auto. cbn [obind].
  rewrite wr_ok by (rewrite upd_length; auto). eexists. split; [reflexivity|]. split; [now rewrite !upd_length|].
  intros k. rewrite nth_upd by (rewrite upd_length; auto). rewrite Nat.eqb_sym. destruct (Nat.eqb_spec k j); auto.
  rewrite nth_upd by auto. rewrite Nat.eqb_sym. reflexivity.
Qed.

Lemma swap_perm {A} (l : list A) i j l' : swap l i j = Ok l' -> Permutation l l'.
Proof.
  unfold swap. destruct (Nat.lt_ge_cases i (length l)) as [Hi|Hi]; destruct (Nat.lt_ge_cases j (length l)) as [Hj|Hj].
  - destruct l as [|d l0] eqn:EL; [cbn in Hi; lia|]. rewrite <- EL in *. clear EL.
    intros E. destruct (swap_list l i j d Hi Hj) as (l2 & E2 & L2 & N2). unfold swap in E2. rewrite E in E2. inversion E2; subst l2. clear E E2.
    apply (Permutation_nth l l' d). split; [auto|].
    exists (fun k => if k =? j then i else if k =? i then j else k). split; [|split].
    + intros k Hk. destruct (Nat.eqb_spec k j), (Nat.eqb_spec k i); lia.
    + intros a b _ _. destruct (Nat.eqb_spec a j), (Nat.eqb_spec a i), (Nat.eqb_spec b j), (Nat.eqb_spec b i); lia.
    + intros k Hk. rewrite N2. destruct (Nat.eqb_spec k j), (Nat.eqb_spec k i); auto.
  - unfold rd. rewrite (proj2 (nth_error_None l j)) by auto. destruct (nth_error l i); discriminate.
  - unfold rd. rewrite (proj2 (nth_error_None l i)) by auto. discriminate.
  - unfold rd. rewrite (proj2 (nth_error_None l i)) by auto. discriminate.
Qed.

Definition is_at (r c r' c' : nat) : bool := (r =? r') && (c =? c').
Lemma is_at_spec r c r' c' : reflect (r = r' /\ c = c') (is_at r c r' c').
Proof. unfold is_at. destruct (Nat.eqb_spec r r'), (Nat.eqb_spec c c'); constructor; lia. Qed.

Lemma pos_eqb r c r' c' : c < m -> c' < m -> (r * m + c =? r' * m + c') = is_at r c r' c'.
Proof.
  intros H1 H2. destruct (Nat.eqb_spec (r * m + c) (r' * m + c')) as [E|E]; destruct (is_at_spec r c r' c') as [F|F]; auto.
  - destruct (pos_inj _ _ _ _ H1 H2 E). tauto.
  - destruct F as [-> ->]. tauto.
Qed.

Lemma swap_get (N : list T) r1 c1 r2 c2 : length N = n * m -> r1 < n -> r2 < n -> c1 < m -> c2 < m ->
  exists N', swap N (r1 * m + c1) (r2 * m + c2) = Ok N' /\ length N' = n * m /\
    forall r c, c < m -> get N' r c = if is_at r c r2 c2 then get N r1 c1 else if is_at r c r1 c1 then get N r2 c2 else get N r c.
Proof.
  intros L R1 R2 C1 C2. destruct (swap_list N (r1 * m + c1) (r2 * m + c2) zero) as (N' & E & L' & G); try (rewrite L; apply pos_lt; auto).
  exists N'. split; auto. split; [congruence|]. intros r c Hc. unfold get. rewrite G, !pos_eqb by auto. reflexivity.
Qed.

Lemma set_get (N : list T) r1 c1 v : length N = n * m -> r1 < n -> c1 < m ->
  exists N', wr N (r1 * m + c1) v = Ok N' /\ length N' = n * m /\
    forall r c, c < m -> get N' r c = if is_at r c r1 c1 then v else get N r c.
Proof.
  intros L R1 C1. rewrite wr_ok by (rewrite L; apply pos_lt; auto). eexists. split; [reflexivity|]. split; [now rewrite upd_length|].
  intros r c Hc. unfold get. rewrite nth_upd by (rewrite L; apply pos_lt; auto). rewrite Nat.eqb_sym, pos_eqb by auto. reflexivity.
Qed.

(** exchange of two rows *)
Definition tr (a b k : nat) : nat := if k =? b then a else if k =? a then b else k.

Lemma swap_rows (N : list T) a b : length N = n * m -> a < n -> b < n ->
  exists N', foldM (fun N k => swap N (a * m + k) (b * m + k)) (seq 0 m) N = Ok N' /\ length N' = n * m /\
    forall r c, c < m -> get N' r c = get N (tr a b r) c.
Proof.
  intros L A B.
  destruct (foldM_seq_inv (fun N k => swap N (a * m + k) (b * m + k)) (fun k N' => length N' = n * m /\
    forall r c, c < m -> get N' r c = if c <? k then get N (tr a b r) c else get N r c) 0 m N) as (N' & E & L' & G).
  - split; auto.
  - intros k N1 Hk (L1 & G1). destruct (swap_get N1 a k b k L1 A B ltac:(lia) ltac:(lia)) as (N2 & E2 & L2 & G2).
    exists N2. split; auto. split; auto. intros r c Hc. rewrite G2, !G1 by (auto; lia). unfold tr, is_at.
    rewrite Nat.ltb_irrefl. destruct (Nat.eqb_spec c k) as [->|NE].
    + destruct (Nat.ltb_spec k (S k)); [|lia]. rewrite Nat.ltb_irrefl, !andb_true_r.
      destruct (Nat.eqb_spec r b), (Nat.eqb_spec r a); subst; auto.
    + rewrite !andb_false_r. destruct (Nat.ltb_spec c (S k)), (Nat.ltb_spec c k); try lia; auto.
  - exists N'. split; auto. split; auto. intros r c Hc. rewrite G by auto. destruct (Nat.ltb_spec c (0 + m)); [auto|lia].
Qed.

Lemma swap_cols (N : list T) q a b : length N = n * m -> q <= n -> a < m -> b < m ->
  exists N', foldM (fun N k => swap N (k * m + a) (k * m + b)) (seq 0 q) N = Ok N' /\ length N' = n * m /\
    forall r c, c < m -> get N' r c = if r <? q then get N r (tr a b c) else get N r c.
Proof.
  intros L Q A B.
  destruct (foldM_seq_inv (fun N k => swap N (k * m + a) (k * m + b)) (fun k N' => length N' = n * m /\
    forall r c, c < m -> get N' r c = if r <? k then get N r (tr a b c) else get N r c) 0 q N) as (N' & E & L' & G).
  - split; auto.
  - intros k N1 Hk (L1 & G1). destruct (swap_get N1 k a k b L1 ltac:(lia) ltac:(lia) A B) as (N2 & E2 & L2 & G2).
    exists N2. split; auto. split; auto. intros r c Hc. rewrite G2, !G1 by (auto; lia). unfold tr, is_at.
    rewrite Nat.ltb_irrefl. destruct (Nat.eqb_spec r k) as [->|NE].
    + destruct (Nat.ltb_spec k (S k)); [|lia]. rewrite Nat.ltb_irrefl. cbn [andb].
      destruct (Nat.eqb_spec c b), (Nat.eqb_spec c a); subst; auto.
    + cbn [andb]. destruct (Nat.ltb_spec r (S k)), (Nat.ltb_spec r k); try lia; auto.
  - exists N'. split; auto.
Qed.

(** one elimination: row [r] minus a multiple of row [n-p-1] *)
Definition elim_val (N : list T) p pivot r c := sub (get N r c) (div (mul (get N r (m - p - 1)) (get N (n - p - 1) c)) pivot).

Lemma last_pos r p : p < m -> r * m + m - p - 1 = r * m + (m - p - 1).
Proof. lia. Qed.

Lemma eliminate_row (N : list T) p pivot r : length N = n * m -> p < m -> p < n -> r < n - p - 1 ->
  exists N', foldM (eliminate sub mul div n m p pivot r) (seq 0 (m - p)) N = Ok N' /\ length N' = n * m /\
    forall r' c, c < m -> get N' r' c = if (r' =? r) && (c <? m - p) then elim_val N p pivot r c else get N r' c.
Proof.
  intros L Pm Pn Hr.
  destruct (foldM_seq_inv (eliminate sub mul div n m p pivot r) (fun k N' => length N' = n * m /\
    forall r' c, c < m -> get N' r' c = if (r' =? r) && (c <? k) then elim_val N p pivot r c else get N r' c) 0 (m - p) N) as (N' & E & L' & G).
  - split; auto. intros r' c _. now rewrite andb_false_r.
  - intros k N1 Hk (L1 & G1). unfold eliminate. rewrite !last_pos by auto.
    rewrite (rd_ok N1 (r * m + k) zero), (rd_ok N1 (r * m + (m - p - 1)) zero), (rd_ok N1 ((n - p - 1) * m + k) zero) by (rewrite L1; apply pos_lt; lia).
    cbn [obind]. fold (get N1 r k). fold (get N1 r (m - p - 1)). fold (get N1 (n - p - 1) k).
    rewrite !G1 by lia. rewrite Nat.ltb_irrefl. destruct (Nat.eqb_spec (n - p - 1) r); [lia|]. cbn [andb].
    destruct (Nat.ltb_spec (m - p - 1) k); [lia|]. rewrite !andb_false_r.
    fold (elim_val N p pivot r k). destruct (set_get N1 r k (elim_val N p pivot r k) L1 ltac:(lia) ltac:(lia)) as (N2 & E2 & L2 & G2).
    exists N2. split; auto. split; auto. intros r' c Hc. rewrite G2, G1 by auto. unfold is_at.
    destruct (Nat.eqb_spec r' r) as [->|]; cbn [andb]; auto. destruct (Nat.eqb_spec c k) as [->|].
    + destruct (Nat.ltb_spec k (S k)); [auto|lia].
    + destruct (Nat.ltb_spec c (S k)), (Nat.ltb_spec c k); try lia; auto.
  - exists N'. split; auto.
Qed.

Lemma eliminate_rows (N : list T) p pivot : length N = n * m -> p < m -> p < n ->
  exists N', foldM (fun N r => foldM (eliminate sub mul div n m p pivot r) (seq 0 (m - p)) N) (seq 0 (n - p - 1)) N = Ok N' /\ length N' = n * m /\
    forall r c, c < m -> get N' r c = if (r <? n - p - 1) && (c <? m - p) then elim_val N p pivot r c else get N r c.
Proof.
  intros L Pm Pn.
  destruct (foldM_seq_inv (fun N r => foldM (eliminate sub mul div n m p pivot r) (seq 0 (m - p)) N) (fun k N' => length N' = n * m /\
    forall r c, c < m -> get N' r c = if (r <? k) && (c <? m - p) then elim_val N p pivot r c else get N r c) 0 (n - p - 1) N) as (N' & E & L' & G).
  - split; auto.
  - intros k N1 Hk (L1 & G1). destruct (eliminate_row N1 p pivot k L1 Pm Pn ltac:(lia)) as (N2 & E2 & L2 & G2).
    exists N2. split; auto. split; auto. intros r c Hc. rewrite G2, G1 by auto. unfold elim_val. rewrite !G1 by lia.
    rewrite Nat.ltb_irrefl. cbn [andb]. destruct (Nat.ltb_spec (n - p - 1) k); [lia|]. cbn [andb].
    destruct (Nat.eqb_spec r k) as [->|NE].
    + rewrite Nat.ltb_irrefl. cbn [andb]. destruct (Nat.ltb_spec k (S k)); [|lia]. cbn [andb]. reflexivity.
    + cbn [andb]. destruct (Nat.ltb_spec r (S k)), (Nat.ltb_spec r k); try lia; auto.
  - exists N'. split; auto.
Qed.

(** the position found by [max_element]: inside, and not zero unless everything is zero *)
Lemma max_in (l : list T) : forall i best b, best < i -> max_element abs_le l i best b < i + length l.
Proof.
  induction l as [|x l IH]; intros i best b H; cbn [max_element length]; [lia|].
  destruct (abs_le b x); [specialize (IH (i + 1) i x ltac:(lia))|specialize (IH (i + 1) best b ltac:(lia))]; lia.
Qed.

Lemma max_zero (P : T -> Prop) : (forall a b, P b -> abs_le a b = true -> P a) -> (forall a b, P a -> abs_le a b = true) ->
  forall (l pre : list T) best, best < length pre ->
  P (nth (max_element abs_le l (length pre) best (nth best pre zero)) (pre ++ l) zero) ->
  (P (nth best pre zero) -> forall x, In x pre -> P x) ->
  forall x, In x (pre ++ l) -> P x.
Proof.
  intros H1 H2. induction l as [|y l IH]; intros pre best Hb Q K x Hx.
  - cbn [max_element] in Q. rewrite app_nil_r in *. auto.
  - cbn [max_element] in Q. replace (length pre + 1) with (length (pre ++ [y])) in Q by (rewrite app_length; reflexivity).
    replace (pre ++ y :: l) with ((pre ++ [y]) ++ l) in * by (rewrite <- app_assoc; reflexivity).
    assert (NB : nth best (pre ++ [y]) zero = nth best pre zero) by (apply app_nth1; auto).
    assert (NY : nth (length pre) (pre ++ [y]) zero = y) by (rewrite app_nth2, Nat.sub_diag; auto).
    destruct (abs_le (nth best pre zero) y) eqn:E.
    + apply (IH (pre ++ [y]) (length pre)); auto.
      * rewrite app_length; cbn; lia.
      * rewrite NY. exact Q.
      * rewrite NY. intros Py z Hz. apply in_app_or in Hz. destruct Hz as [Hz|[<-|[]]]; auto. apply K; auto. eapply H1; eauto.
    + apply (IH (pre ++ [y]) best); auto.
      * rewrite app_length; cbn; lia.
      * rewrite NB. exact Q.
      * rewrite NB. intros Pb. rewrite (H2 _ y Pb) in E. discriminate.
Qed.

Definition active (N : list T) (p : nat) := firstn (length N - p * m) N.

Lemma active_length N p : length N = n * m -> length (active N p) = (n - p) * m.
Proof. intros L. unfold active. rewrite firstn_length, L, Nat.mul_sub_distr_r. lia. Qed.

Lemma active_nth N p r c : length N = n * m -> r < n - p -> c < m -> nth (r * m + c) (active N p) zero = get N r c.
Proof.
  intros L Hr Hc. unfold get. assert (B : r * m + c < length (active N p)).
  { rewrite (active_length N p L). assert (S r * m <= (n - p) * m) by (apply Nat.mul_le_mono_r; lia). cbn [Nat.mul] in *. lia. }
  rewrite <- (firstn_skipn (length N - p * m) N) at 2. rewrite app_nth1; auto.
Qed.

(** the matrix after the exchanges, before the elimination *)
Definition exchanged (N : list T) p row col (r c : nat) : T :=
  if r <? n - p then get N (tr row (n - p - 1) r) (tr col (m - p - 1) c) else get N (tr row (n - p - 1) r) c.

Lemma pivot_step_ok (N : list T) (piv : list nat) p : length N = n * m -> Permutation (seq 0 m) piv -> p < n -> p < m ->
  exists row col N' piv', row < n - p /\ col < m /\
    pivot_step abs_le sub mul div n m (N, piv) p = Ok (N', piv') /\ length N' = n * m /\ Permutation (seq 0 m) piv' /\
    (forall c, c < m -> nth c piv' 0 = nth (tr col (m - p - 1) c) piv 0) /\
    (forall P : T -> Prop, (forall a b, P b -> abs_le a b = true -> P a) -> (forall a b, P a -> abs_le a b = true) ->
       P (get N row col) -> forall r c, r < n - p -> c < m -> P (get N r c)) /\
    (forall r c, c < m -> get N' r c =
       if (r <? n - p - 1) && (c <? m - p)
       then sub (exchanged N p row col r c)
              (div (mul (exchanged N p row col r (m - p - 1)) (exchanged N p row col (n - p - 1) c)) (exchanged N p row col (n - p - 1) (m - p - 1)))
       else exchanged N p row col r c).
Proof.
  intros L P Pn Pm. assert (LP : length piv = m) by (rewrite <- (Permutation_length P), seq_length; auto).
  unfold pivot_step. fold (active N p). pose proof (active_length N p L) as LA.
  destruct (active N p) as [|x l] eqn:EA.
  { exfalso. cbn [length] in LA. assert (n - p = 0 \/ m = 0) by (apply Nat.eq_mul_0; auto). lia. }
  set (index := max_element abs_le l 1 0 x).
  assert (HI : index < (n - p) * m). { unfold index. pose proof (max_in l 1 0 x ltac:(lia)). cbn [length] in LA. lia. }
  cbv zeta. set (col := index mod m). set (row := index / m).
  assert (Hcol : col < m) by (apply Nat.mod_upper_bound; lia).
  assert (Hrow : row < n - p) by (apply Nat.div_lt_upper_bound; lia).
  assert (EI : row * m + col = index). { unfold row, col. rewrite Nat.mul_comm. symmetry. apply Nat.div_mod. lia. }
  exists row, col.
  destruct (swap_list piv col (m - p - 1) 0) as (piv' & E1 & L1 & G1); try lia.
  replace (m - p - 1) with (m - p - 1) in E1 by auto. rewrite E1. cbn [obind].
  destruct (swap_rows N row (n - p - 1) L ltac:(lia) ltac:(lia)) as (N1 & E2 & L2 & G2). rewrite E2. cbn [obind].
  destruct (swap_cols N1 (n - p) col (m - p - 1) L2 ltac:(lia) Hcol ltac:(lia)) as (N2 & E3 & L3 & G3).
  rewrite foldM_ext_in with (g := fun N k => swap N (k * m + col) (k * m + (m - p - 1))) by (intros; f_equal; lia).
  rewrite E3. cbn [obind]. rewrite last_pos by auto. rewrite (rd_ok N2 _ zero) by (rewrite L3; apply pos_lt; lia). cbn [obind].
  fold (get N2 (n - p - 1) (m - p - 1)).
  destruct (eliminate_rows N2 p (get N2 (n - p - 1) (m - p - 1)) L3 Pm Pn) as (N3 & E4 & L4 & G4). rewrite E4. cbn [obind].
  exists N3, piv'. split; auto. split; auto. split; [reflexivity|]. split; auto. split; [|split; [|split]].
  - transitivity piv; auto. eapply swap_perm; eauto.
  - intros c Hc. rewrite G1. unfold tr. destruct (c =? m - p - 1); auto. destruct (c =? col); auto.
  - intros Q Q1 Q2 Q3 r c Hr Hc. pose proof (max_zero Q Q1 Q2 l [x] 0 ltac:(cbn; lia)) as MZ. change ([x] ++ l) with (x :: l) in MZ. change (length [x]) with 1 in MZ. change (nth 0 [x] zero) with x in MZ. fold index in MZ.
    rewrite <- EA in MZ. rewrite <- EI in MZ. rewrite active_nth in MZ by auto.
    rewrite <- (active_nth N p r c L Hr Hc). apply MZ; auto.
    + intros Qx y [<-|[]]. auto.
    + apply nth_In. rewrite (active_length N p L). assert (S r * m <= (n - p) * m) by (apply Nat.mul_le_mono_r; lia). cbn [Nat.mul] in *. lia.
  - assert (EX : forall r c, c < m -> get N2 r c = exchanged N p row col r c).
    { intros r c Hc. rewrite G3 by auto. unfold exchanged. assert (tr col (m - p - 1) c < m) by (unfold tr; destruct (c =? m - p - 1), (c =? col); lia).
      destruct (r <? n - p); rewrite G2 by auto; reflexivity. }
    intros r c Hc. rewrite G4 by auto. unfold elim_val. rewrite !EX by lia. reflexivity.
Qed.
End Step.
