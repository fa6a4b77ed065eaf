(** * Lemmas: the map of shared multipliers and the loops over it *)
From Coq Require Import List Arith Lia Bool Permutation.
From Verif Require Import Base M_Nb M_Exchange M_Dual.
Import ListNotations.
Local Open Scope out_scope.

(** ** Reading a range of an array in a loop *)
Lemma rd_app_at {A} (pre : list A) x post i : i = length pre -> rd (pre ++ x :: post) i = Ok x.
Proof. intros ->. unfold rd. rewrite nth_error_app2, Nat.sub_diag by lia. reflexivity. Qed.

Lemma foldM_ext_in {St A} (f g : St -> A -> outcome St) l st : (forall st a, In a l -> f st a = g st a) -> foldM f l st = foldM g l st.
Proof.
  revert st; induction l as [|a l IH]; intros st H; cbn [foldM]; auto. rewrite (H st a) by (left; auto). destruct (g st a); cbn [obind]; auto.
  apply IH. intros; apply H; right; auto.
Qed.

Lemma foldM_rd {St A} (f : St -> A -> outcome St) (l : list A) pos (pre ds post : list A) st : l = pre ++ ds ++ post -> pos = length pre ->
  foldM (fun st d => x <- rd l (pos + d) ;; f st x) (seq 0 (length ds)) st = foldM f ds st.
Proof.
  intros El Ep. subst l.
  assert (G : forall todo did st, ds = did ++ todo ->
    foldM (fun st d => x <- rd (pre ++ ds ++ post) (pos + d) ;; f st x) (seq (length did) (length todo)) st = foldM f todo st).
  { induction todo as [|x todo IH]; intros did st0 E; cbn [length seq foldM]; auto.
    rewrite E at 1. rewrite <- !app_assoc. cbn [app]. rewrite app_assoc, (rd_app_at (pre ++ did)) by (rewrite app_length; lia). cbn [obind].
    destruct (f st0 x) as [s| |]; cbn [obind]; auto. specialize (IH (did ++ [x]) s). rewrite app_length in IH. cbn [length] in IH.
    replace (length did + 1) with (S (length did)) in IH by lia. apply IH. rewrite <- app_assoc. exact E. }
  apply (G ds [] st). reflexivity.
Qed.

Lemma upd_app_at {A} (pre : list A) x post i y : i = length pre -> upd (pre ++ x :: post) i y = pre ++ y :: post.
Proof. intros ->. induction pre; cbn; congruence. Qed.
Lemma wr_app_at {A} (pre : list A) x post i y : i = length pre -> wr (pre ++ x :: post) i y = Ok (pre ++ y :: post).
Proof. intros E. rewrite wr_ok by (rewrite app_length; cbn; lia). now rewrite upd_app_at. Qed.

Lemma upd_map_seq {A} (F : nat -> A) N k v : upd (map F (seq 0 N)) k v = map (fun j => if j =? k then v else F j) (seq 0 N).
Proof.
  assert (G : forall b k, upd (map F (seq b N)) k v = map (fun j => if j =? b + k then v else F j) (seq b N)).
  { induction N as [|N IH]; intros b k0; cbn [seq map]; [destruct k0; reflexivity|]. destruct k0 as [|k0]; cbn [upd].
    - rewrite Nat.add_0_r, Nat.eqb_refl. f_equal. apply map_ext_in. intros j Hj. apply in_seq in Hj. destruct (Nat.eqb_spec j b); auto; lia.
    - destruct (Nat.eqb_spec b (b + S k0)) as [E|_]; [lia|]. f_equal. rewrite IH. apply map_ext. intros j. now replace (S b + k0) with (b + S k0) by lia. }
  apply (G 0).
Qed.
Lemma rd_map_seq {A} (F : nat -> A) N k : k < N -> rd (map F (seq 0 N)) k = Ok (F k).
Proof.
  intros H. unfold rd. rewrite nth_error_map, nth_error_nth' with (d := 0) by (rewrite seq_length; auto). rewrite seq_nth by auto. reflexivity.
Qed.
Lemma wr_map_seq {A} (F : nat -> A) N k v : k < N -> wr (map F (seq 0 N)) k v = Ok (map (fun j => if j =? k then v else F j) (seq 0 N)).
Proof. intros H. rewrite wr_ok by (rewrite map_length, seq_length; auto). now rewrite upd_map_seq. Qed.

(** ** Strictly increasing lists *)
Fixpoint incr (l : list nat) : Prop := match l with [] => True | x :: l => (forall y, In y l -> x < y) /\ incr l end.
Lemma incr_unique l : forall l', incr l -> incr l' -> (forall x, In x l <-> In x l') -> l = l'.
Proof.
  induction l as [|x l IH]; intros [|y l'] H H' E; auto.
  - destruct (proj2 (E y)). left; auto.
  - destruct (proj1 (E x)). left; auto.
  - cbn in H, H'. destruct H as (H1 & H2), H' as (H3 & H4).
    assert (x = y) as ->.
    { destruct (proj1 (E x) (or_introl eq_refl)) as [|Hx]; auto. destruct (proj2 (E y) (or_introl eq_refl)) as [|Hy]; auto.
      specialize (H1 _ Hy). specialize (H3 _ Hx). lia. }
    f_equal. apply IH; auto. intros z. split; intros Hz.
    + destruct (proj1 (E z) (or_intror Hz)) as [<-|]; auto. specialize (H1 _ Hz). lia.
    + destruct (proj2 (E z) (or_intror Hz)) as [<-|]; auto. specialize (H3 _ Hz). lia.
Qed.
Lemma incr_filter p l : incr l -> incr (filter p l).
Proof.
  induction l as [|x l IH]; cbn; auto. intros (H1 & H2). destruct (p x); cbn; auto. split; auto. intros y Hy. apply filter_In in Hy. apply H1, Hy.
Qed.
Lemma incr_seq b k : incr (seq b k).
Proof. revert b; induction k as [|k IH]; intros b; cbn; auto. split; auto. intros y Hy. apply in_seq in Hy. lia. Qed.
Lemma incr_nodup l : incr l -> NoDup l.
Proof. induction l as [|x l IH]; cbn; intros H; constructor; [|apply IH, H]. intros Hx. apply (proj1 H) in Hx. lia. Qed.

(** the neighbours pushed by the inner loop of Dual_Map::set *)
Fixpoint dedup (last : option nat) (l : list nat) : list nat :=
  match l with
  | [] => []
  | k :: l => if is_next last k then k :: dedup (Some k) l else dedup last l
  end.
Fixpoint nondec (l : list nat) : Prop := match l with [] => True | x :: l => (forall y, In y l -> x <= y) /\ nondec l end.
Lemma dedup_in last l x : nondec l -> (In x (dedup last l) <-> In x l /\ is_next last x = true).
Proof.
  revert last; induction l as [|k l IH]; intros last; cbn [dedup nondec In]; [tauto|]. intros (H1 & H2). destruct (is_next last k) eqn:E; cbn [In]; rewrite IH by auto.
  - split.
    + intros [<-|(H & N)]; auto. split; auto. cbn in N. apply Nat.ltb_lt in N. destruct last as [z|]; auto. cbn in *. apply Nat.ltb_lt in E. apply Nat.ltb_lt. lia.
    + intros ([<-|H] & N); auto. destruct (Nat.eq_dec k x) as [->|D]; auto. right. split; auto. cbn. apply Nat.ltb_lt. specialize (H1 _ H). lia.
  - split; [tauto|]. intros ([<-|H] & N); [congruence|auto].
Qed.
Lemma dedup_incr last l : nondec l -> incr (dedup last l).
Proof.
  revert last; induction l as [|k l IH]; intros last; cbn [dedup nondec incr]; auto. intros (H1 & H2). destruct (is_next last k); cbn [incr]; auto.
  split; auto. intros y Hy. apply dedup_in in Hy; auto. apply Nat.ltb_lt, Hy.
Qed.

Section Rank.
  Variables (first : nat -> nat) (D : decomposition).
  Local Notation nbl := (neighbors D).
  Local Notation N := (length (neighbors D)).

  Definition on (q d : nat) : bool := (first q <=? d) && (d <? first (q + 1)).
  Definition touch (k : nat) (ds : list nat) : bool := existsb (on (nth k nbl 0)) ds.

  (** the domains [ds] are in order and each of them is either own or of a neighbour *)
  Hypothesis HND : exists x, neighDomain D = map first nbl ++ [x].
  Hypothesis Hsep : forall i j, i < j < N -> first (nth i nbl 0) <= first (nth i nbl 0 + 1) <= first (nth j nbl 0).
  Hypothesis Hmine : forall k d, k < N -> on (nth k nbl 0) d = true -> ismy D d = false.

  Lemma noffset_ok d k : k < N -> on (nth k nbl 0) d = true -> noffset D d = Ok k.
  Proof.
    intros Hk Ho. unfold on in Ho. apply andb_prop in Ho. destruct Ho as (H1 & H2). apply Nat.leb_le in H1. apply Nat.ltb_lt in H2.
    destruct HND as (x & ED). unfold noffset.
    assert (RD : forall j, j < N -> rd (neighDomain D) j = Ok (first (nth j nbl 0))).
    { intros j Hj. rewrite ED. rewrite (rd_ok _ _ 0) by (rewrite app_length, map_length; cbn; lia). rewrite app_nth1 by (rewrite map_length; auto).
      f_equal. rewrite (nth_indep _ 0 (first 0)) by (rewrite map_length; auto). apply map_nth. }
    assert (G : forall fuel j, j <= k -> N <= fuel + j -> noffset_loop fuel D d j = Ok k).
    { induction fuel as [|fuel IH]; intros j Hj Hf; [lia|]. cbn [noffset_loop].
      destruct (Nat.ltb_spec (j + 1) N) as [Lj|Lj].
      - rewrite RD by auto. cbn [obind]. destruct (Nat.eq_dec j k) as [->|Nk].
        + destruct (Nat.leb_spec (first (nth (k + 1) nbl 0)) d) as [C|C]; auto. pose proof (Hsep k (k + 1) ltac:(lia)). lia.
        + destruct (Nat.leb_spec (first (nth (j + 1) nbl 0)) d) as [C|C]; [apply IH; lia|].
          destruct (Nat.eq_dec (j + 1) k) as [E|E]; [rewrite E in C; lia|]. pose proof (Hsep (j + 1) k ltac:(lia)). lia.
      - f_equal. lia. }
    apply G; lia.
  Qed.

  (** position of the rank of a domain *)
  Definition pos (d : nat) : nat := match find (fun k => on (nth k nbl 0) d) (seq 0 N) with Some k => k | None => 0 end.
  Definition known (d : nat) : Prop := ismy D d = true \/ exists k, k < N /\ on (nth k nbl 0) d = true.

  Lemma on_unique d k k' : k < N -> k' < N -> on (nth k nbl 0) d = true -> on (nth k' nbl 0) d = true -> k = k'.
  Proof. intros H H' O O'. pose proof (noffset_ok d k H O) as E. rewrite (noffset_ok d k' H' O') in E. congruence. Qed.
  Lemma pos_ok d : ismy D d = false -> known d -> pos d < N /\ on (nth (pos d) nbl 0) d = true /\ noffset D d = Ok (pos d).
  Proof.
    intros M [H|(k & Hk & Ho)]; [congruence|]. unfold pos. destruct (find _ _) as [k'|] eqn:F.
    - apply find_some in F. destruct F as (F1 & F2). apply in_seq in F1. repeat split; auto; [lia|]. apply noffset_ok; auto; lia.
    - exfalso. pose proof (find_none _ _ F k) as G. cbn beta in G. rewrite Ho in G. discriminate G. apply in_seq. lia.
  Qed.

  Definition targets (ds : list nat) : list nat := filter (fun k => touch k ds) (seq 0 N).
  Definition ordered (ds : list nat) : Prop := nondec ds /\ forall d, In d ds -> known d.

  Lemma pos_mono d d' : ismy D d = false -> ismy D d' = false -> known d -> known d' -> d <= d' -> pos d <= pos d'.
  Proof.
    intros M M' K K' H. destruct (pos_ok d M K) as (P1 & P2 & _), (pos_ok d' M' K') as (P1' & P2' & _).
    destruct (Nat.le_gt_cases (pos d) (pos d')) as [|G]; auto. exfalso. pose proof (Hsep (pos d') (pos d) ltac:(lia)) as S.
    unfold on in P2, P2'. apply andb_prop in P2, P2'. destruct P2 as (A & B), P2' as (A' & B'). apply Nat.leb_le in A, A'. apply Nat.ltb_lt in B, B'. lia.
  Qed.

  Definition foreign (ds : list nat) : list nat := map pos (filter (fun d => negb (ismy D d)) ds).
  Lemma foreign_nondec ds : ordered ds -> nondec (foreign ds).
  Proof.
    unfold foreign. induction ds as [|d ds IH]; intros (H1 & H2); cbn [filter map]; [exact I|]. cbn in H1. destruct H1 as (H0 & H1).
    assert (O : ordered ds). { split; auto. intros; apply H2; right; auto. }
    destruct (ismy D d) eqn:M; cbn [negb map nondec]; auto. split; auto. intros y Hy. apply in_map_iff in Hy. destruct Hy as (e & <- & He).
    apply filter_In in He. destruct He as (He & Me). apply negb_true_iff in Me. apply pos_mono; auto; apply H2; [left|right]; auto.
  Qed.
  Lemma foreign_targets ds : ordered ds -> dedup None (foreign ds) = targets ds.
  Proof.
    intros O. apply incr_unique.
    - apply dedup_incr, foreign_nondec, O.
    - apply incr_filter, incr_seq.
    - intros k. rewrite dedup_in by (apply foreign_nondec, O). unfold targets, foreign. rewrite filter_In, in_seq, in_map_iff. unfold touch. rewrite existsb_exists.
      split.
      + intros ((d & <- & Hd) & _). apply filter_In in Hd. destruct Hd as (Hd & M). apply negb_true_iff in M.
        destruct (pos_ok d M (proj2 O d Hd)) as (P1 & P2 & _). split; [lia|]. exists d. auto.
      + intros (Hk & d & Hd & Ho). split; auto. exists d. assert (M : ismy D d = false) by (apply (Hmine k); auto; lia).
        destruct (pos_ok d M (proj2 O d Hd)) as (P1 & P2 & _). split; [apply (on_unique d); auto; lia|]. apply filter_In. split; auto. now rewrite M.
  Qed.

  (** *** The inner loop *)
  Definition bump (lam : nat) (dd ns : list nat) : list nat := fold_left (fun ns k => upd ns k (nth k ns 0 + lam)) dd ns.
  Lemma set_domains_ok lam nm0 o o' ds : (forall d, In d ds -> known d) -> forall acc ns last, length ns = N ->
    exists last', foldM (set_domain D lam (length nm0 + 2)) ds (nm0 ++ [o; o'; length acc] ++ acc, ns, last) =
      Ok (nm0 ++ [o; o'; length (acc ++ dedup last (foreign ds))] ++ acc ++ dedup last (foreign ds), bump lam (dedup last (foreign ds)) ns, last').
  Proof.
    unfold foreign. induction ds as [|d ds IH]; intros K acc ns last Ln; cbn [foldM filter map dedup].
    - exists last. now rewrite app_nil_r.
    - assert (K' : forall d, In d ds -> known d) by (intros; apply K; right; auto). unfold set_domain at 1.
      destruct (ismy D d) eqn:M; cbn [negb obind map dedup]; [apply IH; auto|].
      destruct (pos_ok d M (K d (or_introl eq_refl))) as (P1 & P2 & P3). rewrite P3. cbn [obind].
      destruct (is_next last (pos d)) eqn:E; cbn [obind]; [|apply IH; auto].
      assert (E1 : forall c l, nm0 ++ [o; o'; c] ++ l = (nm0 ++ [o; o']) ++ c :: l) by (intros; rewrite <- app_assoc; reflexivity).
      rewrite E1. rewrite rd_app_at by (rewrite app_length; reflexivity). cbn [obind].
      rewrite <- (app_assoc _ _ [pos d]). cbn [app]. rewrite wr_app_at by (rewrite app_length; reflexivity). cbn [obind].
      rewrite (rd_ok ns (pos d) 0) by lia. cbn [obind]. rewrite wr_ok by lia. cbn [obind].
      destruct (IH K' (acc ++ [pos d]) (upd ns (pos d) (nth (pos d) ns 0 + lam)) (Some (pos d))) as (last' & F); [rewrite upd_length; auto|].
      exists last'. rewrite <- E1. replace (length acc + 1) with (length (acc ++ [pos d])) by (rewrite app_length; reflexivity).
      replace (pos d :: dedup (Some (pos d)) (map pos (filter (fun d => negb (ismy D d)) ds))) with
              ([pos d] ++ dedup (Some (pos d)) (map pos (filter (fun d => negb (ismy D d)) ds))) by reflexivity.
      rewrite (app_assoc acc). exact F.
  Qed.
  Lemma bump_length lam dd ns : length (bump lam dd ns) = length ns.
  Proof. unfold bump. revert ns; induction dd as [|k dd IH]; intros ns; cbn; auto. rewrite IH. apply upd_length. Qed.
  Lemma bump_nth lam dd ns k : NoDup dd -> (forall j, In j dd -> j < length ns) -> nth k (bump lam dd ns) 0 = nth k ns 0 + (if existsb (Nat.eqb k) dd then lam else 0).
  Proof.
    unfold bump. revert ns; induction dd as [|j dd IH]; intros ns ND H; cbn [fold_left existsb]; [lia|]. inversion ND as [|? ? ND1 ND2]; subst.
    rewrite IH; auto; [|intros; rewrite upd_length; apply H; right; auto]. rewrite nth_upd by (apply H; left; auto). rewrite (Nat.eqb_sym j k).
    destruct (Nat.eqb_spec k j) as [->|Hj]; cbn [orb]; [|reflexivity].
    destruct (existsb (Nat.eqb j) dd) eqn:E; [|lia]. exfalso. apply existsb_exists in E. destruct E as (z & Hz & Ez). apply Nat.eqb_eq in Ez. subst z. auto.
  Qed.

  (** *** All blocks *)
  Definition block_nm (o : nat) (b : nat * list nat) : list nat :=
    match targets (snd b) with [] => [] | t => o :: o + fst b :: length t :: t end.
  Fixpoint nm_of (o : nat) (bs : list (nat * list nat)) : list nat :=
    match bs with [] => [] | b :: bs => block_nm o b ++ nm_of (o + fst b) bs end.
  Definition count (k : nat) (bs : list (nat * list nat)) : nat := list_sum (map fst (filter (fun b => touch k (snd b)) bs)).
  Definition enc (bs : list (nat * list nat)) : list nat := flat_map (fun b => fst b :: length (snd b) :: snd b) bs.

  Lemma set_blocks_ok cmap bs : (forall b, In b bs -> ordered (snd b)) -> forall fuel pre o nm ns,
    cmap = pre ++ enc bs -> length bs <= fuel -> length ns = N ->
    set_blocks fuel D cmap (length pre) o nm ns = Ok (nm ++ nm_of o bs, map (fun k => nth k ns 0 + count k bs) (seq 0 N)).
  Proof.
    assert (Id : forall ns, length ns = N -> ns = map (fun k => nth k ns 0 + count k []) (seq 0 N)).
    { intros ns Ln. unfold count. cbn [filter map list_sum fold_right]. rewrite <- Ln. clear. induction ns as [|x ns IH]; cbn [length seq map nth]; auto.
      f_equal; [lia|]. rewrite IH at 1. rewrite <- seq_shift, map_map. reflexivity. }
    induction bs as [|(lam, ds) bs IH]; intros O fuel pre o nm ns E Hf Ln.
    - cbn [enc flat_map] in E. rewrite app_nil_r in E. cbn [nm_of]. rewrite app_nil_r. rewrite <- Id by auto.
      destruct fuel; cbn [set_blocks]; auto. rewrite E, Nat.ltb_irrefl. reflexivity.
    - destruct fuel as [|fuel]; [cbn in Hf; lia|]. cbn [enc flat_map fst snd app] in E. fold (enc bs) in E.
      assert (Ods : ordered ds) by (apply (O (lam, ds)); left; auto).
      cbn [set_blocks]. destruct (Nat.ltb_spec (length pre) (length cmap)) as [_|G]; [|rewrite E, app_length in G; cbn in G; lia].
      rewrite E at 1. rewrite rd_app_at by reflexivity. cbn [obind].
      rewrite E at 1. rewrite (app_assoc pre [lam] (length ds :: ds ++ enc bs) : pre ++ lam :: length ds :: ds ++ enc bs = (pre ++ [lam]) ++ length ds :: ds ++ enc bs).
      rewrite rd_app_at by (rewrite app_length; reflexivity). cbn [obind].
      rewrite (foldM_rd _ cmap (2 + length pre) (pre ++ [lam; length ds]) ds (enc bs)); [|rewrite E, <- app_assoc; reflexivity|rewrite app_length; cbn; lia].
      destruct (set_domains_ok lam nm o (o + lam) ds (proj2 Ods) [] ns None Ln) as (last' & F). cbn [length app] in F. rewrite F. cbn [obind]. clear F.
      rewrite foreign_targets by auto.
      rewrite (app_assoc nm [o; o + lam] (length (targets ds) :: targets ds) : nm ++ o :: o + lam :: length (targets ds) :: targets ds = (nm ++ [o; o + lam]) ++ length (targets ds) :: targets ds).
      rewrite rd_app_at by (rewrite app_length; reflexivity). cbn [obind].
      rewrite <- app_assoc. cbn [app].
      replace (length pre + (length ds + 2)) with (length (pre ++ lam :: length ds :: ds)) by (rewrite app_length; cbn [length]; lia).
      rewrite IH; [|intros; apply O; right; auto|rewrite E, <- app_assoc; reflexivity|cbn in Hf; lia|rewrite bump_length; auto].
      cbn [nm_of fst]. unfold block_nm at 1. cbn [fst snd]. f_equal. f_equal.
      + rewrite app_assoc. f_equal. destruct (targets ds) as [|t ts] eqn:Et; cbn [length Nat.eqb].
        * rewrite app_length. cbn [length]. replace (length nm + 3 - 3) with (length nm) by lia. rewrite firstn_app, firstn_all, Nat.sub_diag. reflexivity.
        * reflexivity.
      + apply map_ext_in. intros k Hk. apply in_seq in Hk.
        assert (Tn : incr (targets ds)) by apply incr_filter, incr_seq.
        rewrite bump_nth; [|apply incr_nodup, Tn|intros j Hj; apply filter_In in Hj; destruct Hj as (Hj & _); apply in_seq in Hj; lia].
        unfold count. cbn [filter snd]. destruct (touch k ds) eqn:Tk.
        * replace (existsb (Nat.eqb k) (targets ds)) with true; [unfold list_sum; cbn [map fst fold_right]; lia|]. symmetry. apply existsb_exists. exists k.
          rewrite Nat.eqb_refl. split; auto. apply filter_In. split; auto. apply in_seq. lia.
        * replace (existsb (Nat.eqb k) (targets ds)) with false; [lia|]. symmetry. apply not_true_is_false. intros X. apply existsb_exists in X.
          destruct X as (z & Hz & Ez). apply Nat.eqb_eq in Ez. subst z. apply filter_In in Hz. cbn beta in Hz. destruct Hz. congruence.
  Qed.

  (** ** The loops over the map *)
  Fixpoint run_blocks {St} (f : nat -> nat -> St -> nat -> outcome St) (o : nat) (bs : list (nat * list nat)) (st : St) : outcome St :=
    match bs with
    | [] => Ok st
    | b :: bs => st <- foldM (f o (o + fst b)) (targets (snd b)) st ;; run_blocks f (o + fst b) bs st
    end.
  Lemma nmap_loop_ok {St} (f : nat -> nat -> St -> nat -> outcome St) nm bs : forall fuel pre o st, nm = pre ++ nm_of o bs -> length (nm_of o bs) <= fuel ->
    nmap_loop fuel f nm (length pre) st = run_blocks f o bs st.
  Proof.
    induction bs as [|(c, ds) bs IH]; intros fuel pre o st E Hf.
    - cbn [nm_of] in E. rewrite app_nil_r in E. destruct fuel; cbn [nmap_loop run_blocks]; auto. rewrite E, Nat.ltb_irrefl. reflexivity.
    - cbn [nm_of run_blocks fst snd] in *. unfold block_nm in E, Hf. cbn [fst snd] in E, Hf. destruct (targets ds) as [|t ts] eqn:Et.
      + cbn [app foldM obind] in *. apply IH; auto.
      + destruct fuel as [|fuel]; [cbn in Hf; lia|]. remember (t :: ts) as tt eqn:Ett. cbn [app] in E. cbn [nmap_loop].
        destruct (Nat.ltb_spec (length pre) (length nm)) as [_|G]; [|rewrite E, app_length in G; cbn in G; lia].
        rewrite E at 1. rewrite rd_app_at by reflexivity. cbn [obind].
        rewrite E at 1. replace (pre ++ o :: o + c :: length tt :: tt ++ nm_of (o + c) bs) with ((pre ++ [o]) ++ o + c :: length tt :: tt ++ nm_of (o + c) bs)
          by (rewrite <- app_assoc; reflexivity).
        rewrite rd_app_at by (rewrite app_length; reflexivity). cbn [obind].
        rewrite E at 1. replace (pre ++ o :: o + c :: length tt :: tt ++ nm_of (o + c) bs) with ((pre ++ [o; o + c]) ++ length tt :: tt ++ nm_of (o + c) bs)
          by (rewrite <- app_assoc; reflexivity).
        rewrite rd_app_at by (rewrite app_length; reflexivity). cbn [obind].
        rewrite (foldM_rd _ nm (length pre + 3) (pre ++ [o; o + c; length tt]) tt (nm_of (o + c) bs)); [|rewrite E, <- app_assoc; reflexivity|rewrite app_length; reflexivity].
        destruct (foldM (f o (o + c)) tt st) as [st'| |]; cbn [obind]; auto.
        replace (length pre + (length tt + 3)) with (length (pre ++ o :: o + c :: length tt :: tt)) by (rewrite app_length; cbn [length]; lia).
        apply IH; [rewrite E, <- app_assoc; reflexivity|]. rewrite app_length in Hf. cbn [length] in Hf. lia.
  Qed.
  Lemma nmap_loop_all {St} (f : nat -> nat -> St -> nat -> outcome St) bs st :
    nmap_loop (length (nm_of 0 bs)) f (nm_of 0 bs) 0 st = run_blocks f 0 bs st.
  Proof. apply (nmap_loop_ok f (nm_of 0 bs) bs _ [] 0); auto. Qed.
End Rank.
