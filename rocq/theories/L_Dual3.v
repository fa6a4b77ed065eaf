(** * Lemmas: packing and unpacking of the shared multipliers *)
From Coq Require Import List Arith Lia Bool Permutation.
From Verif Require Import Base M_Nb M_Exchange M_Dual L_Dual2.
Import ListNotations.
Local Open Scope out_scope.

Lemma slice_mid {A} (a b c : list A) o e : o = length a -> e = length a + length b -> slice o e (a ++ b ++ c) = b.
Proof.
  intros -> ->. unfold slice. rewrite skipn_app, skipn_all, Nat.sub_diag. cbn [skipn app]. replace (length a + length b - length a) with (length b) by lia.
  rewrite firstn_app, firstn_all, Nat.sub_diag. cbn. apply app_nil_r.
Qed.
Lemma put_mid {A} (a b c b' : list A) o e : o = length a -> e = length a + length b -> put o e (a ++ b ++ c) b' = a ++ b' ++ c.
Proof.
  intros -> ->. unfold put. rewrite firstn_app, firstn_all, Nat.sub_diag. cbn [firstn]. rewrite app_nil_r. f_equal. f_equal.
  rewrite app_assoc. replace (length a + length b) with (length (a ++ b)) by apply app_length. rewrite skipn_app, skipn_all, Nat.sub_diag. reflexivity.
Qed.

Section Rank.
  Context {T : Type}.
  Variable add : T -> T -> T.
  Variables (first : nat -> nat) (D : decomposition).
  Local Notation nbl := (neighbors D).
  Local Notation N := (length (neighbors D)).
  Local Notation targets := (targets first D).
  Local Notation touch := (touch first D).
  Local Notation run_blocks := (run_blocks first D).
  (** groups of multipliers with the same domains *)
  Local Notation grp := (list nat * list nat)%type.
  Definition block_of (g : grp) : nat * list nat := (length (fst g), snd g).
  Definition ids (gs : list grp) : list nat := flat_map fst gs.
  Definition sel (k : nat) (gs : list grp) : list nat := ids (filter (fun g => touch k (snd g)) gs).

  Lemma targets_in k ds : In k (targets ds) <-> k < N /\ touch k ds = true.
  Proof. unfold L_Dual2.targets. rewrite filter_In, in_seq. intuition lia. Qed.
  Lemma targets_nodup ds : NoDup (targets ds).
  Proof. apply incr_nodup, incr_filter, incr_seq. Qed.
  Definition mem (k : nat) (t : list nat) : bool := existsb (Nat.eqb k) t.
  Lemma mem_in k t : mem k t = true <-> In k t.
  Proof.
    unfold mem. rewrite existsb_exists. split; [intros (x & H & E); apply Nat.eqb_eq in E; now subst|]. intros H. exists k. now rewrite Nat.eqb_refl.
  Qed.
  Lemma mem_targets k ds : k < N -> mem k (targets ds) = touch k ds.
  Proof.
    intros Hk. destruct (touch k ds) eqn:E; [apply mem_in, targets_in; auto|]. apply not_true_is_false. intros H. apply mem_in, targets_in in H. destruct H; congruence.
  Qed.

  (** ** Pack *)
  Lemma pack_targets (A x B : list T) t : forall (P Q : nat -> list T), NoDup t -> (forall k, In k t -> k < N /\ length x <= length (Q k)) ->
    foldM (pack_block (A ++ x ++ B) (length A) (length A + length x)) t (map (fun k => P k ++ Q k) (seq 0 N), map (fun k => length (P k)) (seq 0 N)) =
    Ok (map (fun k => (if mem k t then P k ++ x else P k) ++ (if mem k t then skipn (length x) (Q k) else Q k)) (seq 0 N),
        map (fun k => length (if mem k t then P k ++ x else P k)) (seq 0 N)).
  Proof.
    induction t as [|k t IH]; intros P Q ND H; cbn [foldM]; [reflexivity|]. inversion ND as [|? ? ND1 ND2]; subst.
    destruct (H k (or_introl eq_refl)) as (Hk & Hq). unfold pack_block at 1. rewrite rd_map_seq by auto. cbn [obind]. rewrite rd_map_seq by auto. cbn [obind].
    replace (length A + length x - length A) with (length x) by lia.
    destruct (Nat.leb_spec (length A) (length A + length x)) as [_|C]; [|lia].
    destruct (Nat.leb_spec (length A + length x) (length (A ++ x ++ B))) as [_|C]; [|rewrite !app_length in C; lia].
    destruct (Nat.leb_spec (length (P k) + length x) (length (P k ++ Q k))) as [_|C]; [|rewrite app_length in C; lia]. cbn [andb].
    rewrite slice_mid by auto. rewrite wr_map_seq by auto. cbn [obind]. rewrite wr_map_seq by auto. cbn [obind].
    assert (EP : put (length (P k)) (length (P k) + length x) (P k ++ Q k) x = P k ++ x ++ skipn (length x) (Q k)).
    { rewrite <- (firstn_skipn (length x) (Q k)) at 1. apply put_mid; rewrite ?firstn_length; lia. }
    rewrite EP. clear EP. rewrite (map_ext (fun j => if j =? k then P k ++ _ else _) (fun j => (if j =? k then P k ++ x else P j) ++ (if j =? k then skipn (length x) (Q k) else Q j)))
      by (intros j; destruct (Nat.eqb_spec j k); [rewrite <- app_assoc|]; auto).
    rewrite (map_ext (fun j => if j =? k then _ else _) (fun j => length (if j =? k then P k ++ x else P j)))
      by (intros j; destruct (Nat.eqb_spec j k); [rewrite app_length|]; auto).
    rewrite (IH (fun j => if j =? k then P k ++ x else P j) (fun j => if j =? k then skipn (length x) (Q k) else Q j)); auto.
    - assert (E : forall j, (if mem j t then (if j =? k then P k ++ x else P j) ++ x else if j =? k then P k ++ x else P j) = (if mem j (k :: t) then P j ++ x else P j)).
      { intros j. unfold mem. cbn [existsb]. fold (mem j t). destruct (Nat.eqb_spec j k) as [->|]; auto. cbn [orb]. destruct (mem k t) eqn:M; auto. apply mem_in in M. tauto. }
      f_equal. f_equal; apply map_ext; intros j; rewrite E; auto. f_equal. unfold mem. cbn [existsb]. fold (mem j t). destruct (Nat.eqb_spec j k) as [->|]; auto. cbn [orb].
      destruct (mem k t) eqn:M; auto. apply mem_in in M. tauto.
    - intros j Hj. destruct (H j (or_intror Hj)) as (Hj1 & Hj2). destruct (Nat.eqb_spec j k) as [->|]; auto. tauto.
  Qed.

  Lemma sel_cons k g gs : sel k (g :: gs) = (if touch k (snd g) then fst g else []) ++ sel k gs.
  Proof. unfold sel, ids. cbn [filter]. destruct (touch k (snd g)); reflexivity. Qed.

  Lemma pack_run (v : nat -> T) gs : forall (pre : list nat) (P Q : nat -> list T), (forall k, k < N -> length (Q k) = length (sel k gs)) ->
    exists offs, run_blocks (pack_block (map v (pre ++ ids gs))) (length pre) (map block_of gs) (map (fun k => P k ++ Q k) (seq 0 N), map (fun k => length (P k)) (seq 0 N)) =
      Ok (map (fun k => P k ++ map v (sel k gs)) (seq 0 N), offs).
  Proof.
    induction gs as [|(i, ds) gs IH]; intros pre P Q HQ; cbn [map L_Dual2.run_blocks].
    - eexists. f_equal. f_equal. apply map_ext_in. intros k Hk. apply in_seq in Hk. specialize (HQ k ltac:(lia)). cbn in HQ. destruct (Q k); [reflexivity|discriminate].
    - unfold block_of at 1 2 3. cbn [fst snd]. cbn [ids flat_map fst]. fold (ids gs). rewrite !map_app.
      pose proof (pack_targets (map v pre) (map v i) (map v (ids gs)) (targets ds) P Q (targets_nodup ds)) as PT. rewrite !map_length in PT. rewrite PT.
      2: { intros k Hk. apply targets_in in Hk. destruct Hk as (Hk & Tk). split; auto. rewrite HQ by auto. rewrite sel_cons. cbn [snd fst]. rewrite Tk, app_length. lia. }
      cbn [obind].
      destruct (IH (pre ++ i) (fun k => if mem k (targets ds) then P k ++ map v i else P k) (fun k => if mem k (targets ds) then skipn (length i) (Q k) else Q k)) as (offs & F).
      { intros k Hk. specialize (HQ k Hk). rewrite sel_cons in HQ. cbn [fst snd] in HQ. rewrite mem_targets by auto. destruct (touch k ds); [|exact HQ].
        rewrite skipn_length, HQ, app_length. lia. }
      exists offs. rewrite app_length, <- app_assoc, !map_app in F. rewrite F. f_equal. f_equal. apply map_ext_in. intros k Hk. apply in_seq in Hk.
      rewrite sel_cons. cbn [fst snd]. rewrite mem_targets by lia. destruct (touch k ds); [rewrite map_app, app_assoc|]; auto.
  Qed.

  (** ** Unpack *)
  Lemma zip_map (u w : nat -> T) i : map (fun x => add (fst x) (snd x)) (combine (map u i) (map w i)) = map (fun m => add (u m) (w m)) i.
  Proof. induction i as [|x i IH]; cbn; congruence. Qed.

  Lemma unpack_targets (A C : list T) (i : list nat) (w : nat -> nat -> T) (X Y : nat -> list T) t : forall (u : nat -> T) (off : nat -> nat), NoDup t ->
    (forall k, In k t -> k < N /\ off k = length (X k)) ->
    foldM (unpack_block add (map (fun k => X k ++ (if mem k t then map (w k) i else []) ++ Y k) (seq 0 N)) (length A) (length A + length i)) t (A ++ map u i ++ C, map off (seq 0 N)) =
    Ok (A ++ map (fun m => fold_left add (map (fun k => w k m) t) (u m)) i ++ C, map (fun k => if mem k t then off k + length i else off k) (seq 0 N)).
  Proof.
    intros u off ND H.
    assert (G : forall t0 (u : nat -> T) (off : nat -> nat), NoDup t0 -> (forall k, In k t0 -> In k t /\ off k = length (X k)) ->
      foldM (unpack_block add (map (fun k => X k ++ (if mem k t then map (w k) i else []) ++ Y k) (seq 0 N)) (length A) (length A + length i)) t0 (A ++ map u i ++ C, map off (seq 0 N)) =
      Ok (A ++ map (fun m => fold_left add (map (fun k => w k m) t0) (u m)) i ++ C, map (fun k => if mem k t0 then off k + length i else off k) (seq 0 N))).
    { assert (HL : forall k, In k t -> k < N) by (intros k Hk; apply H; auto). clear u off H ND. induction t0 as [|k t0 IH]; intros u off ND0 H0; cbn [foldM]; [reflexivity|]. inversion ND0 as [|? ? ND1 ND2]; subst.
      destruct (H0 k (or_introl eq_refl)) as (Hk & Ho). pose proof (HL k Hk) as Lk. unfold unpack_block at 1.
      rewrite rd_map_seq by auto. cbn [obind]. rewrite rd_map_seq by auto. cbn [obind].
      replace (length A + length i - length A) with (length i) by lia. rewrite (proj2 (mem_in k t) Hk).
      destruct (Nat.leb_spec (length A) (length A + length i)) as [_|Z]; [|lia].
      destruct (Nat.leb_spec (length A + length i) (length (A ++ map u i ++ C))) as [_|Z]; [|rewrite !app_length, map_length in Z; lia].
      destruct (Nat.leb_spec (off k + length i) (length (X k ++ map (w k) i ++ Y k))) as [_|Z]; [|rewrite !app_length, map_length, Ho in Z; lia]. cbn [andb].
      rewrite wr_map_seq by auto. cbn [obind]. rewrite (slice_mid (X k)) by (rewrite ?map_length; lia). rewrite (slice_mid A) by (rewrite ?map_length; lia).
      rewrite zip_map. rewrite (put_mid A) by (rewrite ?map_length; lia).
      rewrite (IH (fun m => add (u m) (w k m)) (fun j => if j =? k then off k + length i else off j)); auto.
      - f_equal. f_equal. apply map_ext. intros j. unfold mem. cbn [existsb]. fold (mem j t0). destruct (Nat.eqb_spec j k) as [->|]; auto. cbn [orb].
        destruct (mem k t0) eqn:M; auto. apply mem_in in M. tauto.
      - intros j Hj. destruct (H0 j (or_intror Hj)) as (Hj1 & Hj2). split; auto. destruct (Nat.eqb_spec j k) as [->|]; auto. tauto. }
    apply G; auto. intros k Hk. split; auto. apply H; auto.
  Qed.

  (** what a multiplier with the domains [ds] gets *)
  Definition collected (w : nat -> nat -> T) (ds : list nat) (v : nat -> T) (m : nat) : T := fold_left add (map (fun k => w k m) (targets ds)) (v m).

  Lemma unpack_run (v : nat -> T) (w : nat -> nat -> T) gs : forall (A : list T) (did : nat -> list T),
    exists offs, run_blocks (unpack_block add (map (fun k => did k ++ map (w k) (sel k gs)) (seq 0 N))) (length A) (map block_of gs)
                            (A ++ map v (ids gs), map (fun k => length (did k)) (seq 0 N)) =
      Ok (A ++ flat_map (fun g => map (collected w (snd g) v) (fst g)) gs, offs).
  Proof.
    induction gs as [|(i, ds) gs IH]; intros A did; cbn [map L_Dual2.run_blocks flat_map ids].
    - eexists. reflexivity.
    - unfold block_of at 1 2 3. cbn [fst snd]. fold (ids gs). rewrite map_app.
      pose proof (unpack_targets A (map v (ids gs)) i w did (fun k => map (w k) (sel k gs)) (targets ds) v (fun k => length (did k)) (targets_nodup ds)) as UT.
      assert (E : map (fun k => did k ++ map (w k) (sel k ((i, ds) :: gs))) (seq 0 N) =
                  map (fun k => did k ++ (if mem k (targets ds) then map (w k) i else []) ++ map (w k) (sel k gs)) (seq 0 N)).
      { apply map_ext_in. intros k Hk. apply in_seq in Hk. rewrite sel_cons. cbn [fst snd]. rewrite mem_targets by lia. rewrite map_app. destruct (touch k ds); auto. }
      rewrite E, UT; [|intros k Hk; apply targets_in in Hk; split; [apply Hk|reflexivity]]. cbn [obind].
      destruct (IH (A ++ map (collected w ds v) i) (fun k => did k ++ (if mem k (targets ds) then map (w k) i else []))) as (offs & F).
      exists offs. rewrite app_length, map_length in F. rewrite <- !app_assoc in F.
      rewrite (map_ext (fun k => (did k ++ _) ++ _) (fun k => did k ++ (if mem k (targets ds) then map (w k) i else []) ++ map (w k) (sel k gs))) in F by (intros; now rewrite app_assoc).
      rewrite (map_ext (fun k => length (did k ++ _)) (fun k => if mem k (targets ds) then length (did k) + length i else length (did k))) in F
        by (intros k; rewrite app_length; destruct (mem k (targets ds)); rewrite ?map_length; cbn; lia).
      exact F.
  Qed.
End Rank.
