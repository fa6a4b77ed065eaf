(** * Lemmas: matrices of dual vectors *)
From Coq Require Import List Arith Lia Bool.
From Verif Require Import Base M_Nb S_Nb S_Comm M_Exchange P_Exchange M_Dual S_Dual L_Dual L_Dual2 L_Dual3 L_Dual4 M_TotalFeti M_DualMatrix S_DualMatrix.
Import ListNotations.
Local Open Scope out_scope.

(** ** Loops over blocks *)
Section Blocks.
  Context {T : Type}.
  Variable add : T -> T -> T.
  Variables (first : nat -> nat) (D : decomposition).
  Local Notation N := (length (neighbors D)).
  Local Notation targets := (targets first D).
  Local Notation touch := (touch first D).
  Local Notation run_blocks := (run_blocks first D).
  Local Notation sel := (sel first D).

  Lemma run_shift {St} (f : nat -> nat -> St -> nat -> outcome St) s bs : forall o st, run_blocks (fun b e => f (s + b) (s + e)) o bs st = run_blocks f (s + o) bs st.
  Proof.
    induction bs as [|b bs IH]; intros o st; cbn [L_Dual2.run_blocks]; [reflexivity|]. rewrite <- Nat.add_assoc. destruct (foldM (f (s + o) (s + (o + fst b))) (targets (snd b)) st); cbn [obind]; auto.
  Qed.
  Lemma run_app {St} (f : nat -> nat -> St -> nat -> outcome St) bs bs' : forall o st, run_blocks f o (bs ++ bs') st = (st <- run_blocks f o bs st ;; run_blocks f (o + list_sum (map fst bs)) bs' st).
  Proof.
    induction bs as [|b bs IH]; intros o st; cbn [app L_Dual2.run_blocks map]; [cbn [obind list_sum fold_right]; now rewrite Nat.add_0_r|].
    destruct (foldM (f o (o + fst b)) (targets (snd b)) st) as [s| |]; cbn [obind]; auto. rewrite IH. change (list_sum (fst b :: map fst bs)) with (fst b + list_sum (map fst bs)). now rewrite Nat.add_assoc.
  Qed.
  Lemma run_rows {St} (f : nat -> nat -> St -> nat -> outcome St) bs c k : list_sum (map fst bs) = c ->
    forall a st, foldM (fun st r => run_blocks (fun b e => f (r * c + b) (r * c + e)) 0 bs st) (seq a k) st = run_blocks f (a * c) (concat (repeat bs k)) st.
  Proof.
    intros Hc. induction k as [|k IH]; intros a st; cbn [seq foldM repeat concat]; [reflexivity|]. rewrite run_app, run_shift, Nat.add_0_r. destruct (run_blocks f (a * c) bs st) as [s| |]; cbn [obind]; auto. rewrite IH, Hc. f_equal. lia.
  Qed.

  Lemma pack_run_tail (v : nat -> T) gs : forall (pre : list nat) (P Q : nat -> list T), (forall k, k < N -> length (sel k gs) <= length (Q k)) ->
    exists offs, run_blocks (pack_block (map v (pre ++ ids gs))) (length pre) (map block_of gs) (map (fun k => P k ++ Q k) (seq 0 N), map (fun k => length (P k)) (seq 0 N)) =
      Ok (map (fun k => P k ++ map v (sel k gs) ++ skipn (length (sel k gs)) (Q k)) (seq 0 N), offs).
  Proof.
    induction gs as [|(i, ds) gs IH]; intros pre P Q HQ; cbn [map L_Dual2.run_blocks].
    - eexists. reflexivity.
    - unfold block_of at 1 2 3. cbn [fst snd]. cbn [ids flat_map fst]. fold (ids gs). rewrite !map_app.
      pose proof (pack_targets first D (map v pre) (map v i) (map v (ids gs)) (targets ds) P Q (targets_nodup first D ds)) as PT. rewrite !map_length in PT. rewrite PT.
      2: { intros k Hk. apply targets_in in Hk. destruct Hk as (Hk & Tk). split; auto. specialize (HQ k Hk). rewrite sel_cons in HQ. cbn [snd fst] in HQ. rewrite Tk, app_length in HQ. lia. }
      cbn [obind].
      destruct (IH (pre ++ i) (fun k => if mem k (targets ds) then P k ++ map v i else P k) (fun k => if mem k (targets ds) then skipn (length i) (Q k) else Q k)) as (offs & F).
      { intros k Hk. specialize (HQ k Hk). rewrite sel_cons in HQ. cbn [fst snd] in HQ. rewrite mem_targets by auto. destruct (touch k ds); [|exact HQ].
        rewrite app_length in HQ. rewrite skipn_length. lia. }
      exists offs. rewrite app_length, <- app_assoc, !map_app in F. rewrite F. f_equal. f_equal. apply map_ext_in. intros k Hk. apply in_seq in Hk.
      rewrite sel_cons. cbn [fst snd]. rewrite mem_targets by lia. destruct (touch k ds); [|reflexivity]. rewrite map_app, app_length, <- !app_assoc. f_equal. f_equal. f_equal. rewrite (Nat.add_comm (length i)). now rewrite <- skipn_skipn.
  Qed.
  Lemma unpack_run_tail (v : nat -> T) (w : nat -> nat -> T) gs (Y : nat -> list T) : forall (A : list T) (did : nat -> list T),
    exists offs, run_blocks (unpack_block add (map (fun k => did k ++ map (w k) (sel k gs) ++ Y k) (seq 0 N))) (length A) (map block_of gs)
                            (A ++ map v (ids gs), map (fun k => length (did k)) (seq 0 N)) =
      Ok (A ++ flat_map (fun g => map (collected add first D w (snd g) v) (fst g)) gs, offs).
  Proof.
    induction gs as [|(i, ds) gs IH]; intros A did; cbn [map L_Dual2.run_blocks flat_map ids].
    - eexists. reflexivity.
    - unfold block_of at 1 2 3. cbn [fst snd]. fold (ids gs). rewrite map_app.
      pose proof (unpack_targets add first D A (map v (ids gs)) i w did (fun k => map (w k) (sel k gs) ++ Y k) (targets ds) v (fun k => length (did k)) (targets_nodup first D ds)) as UT.
      assert (E : map (fun k => did k ++ map (w k) (sel k ((i, ds) :: gs)) ++ Y k) (seq 0 N) =
                  map (fun k => did k ++ (if mem k (targets ds) then map (w k) i else []) ++ map (w k) (sel k gs) ++ Y k) (seq 0 N)).
      { apply map_ext_in. intros k Hk. apply in_seq in Hk. rewrite sel_cons. cbn [fst snd]. rewrite mem_targets by lia. rewrite map_app, <- app_assoc. destruct (touch k ds); auto. }
      rewrite E, UT; [|intros k Hk; apply targets_in in Hk; split; [apply Hk|reflexivity]]. cbn [obind].
      destruct (IH (A ++ map (collected add first D w ds v) i) (fun k => did k ++ (if mem k (targets ds) then map (w k) i else []))) as (offs & F).
      exists offs. rewrite app_length, map_length in F. rewrite <- !app_assoc in F.
      rewrite (map_ext (fun k => (did k ++ (if mem k (targets ds) then map (w k) i else [])) ++ map (w k) (sel k gs) ++ Y k) (fun k => did k ++ (if mem k (targets ds) then map (w k) i else []) ++ map (w k) (sel k gs) ++ Y k)) in F by (intros k; now rewrite <- app_assoc).
      rewrite (map_ext (fun k => length (did k ++ (if mem k (targets ds) then map (w k) i else []))) (fun k => if mem k (targets ds) then length (did k) + length i else length (did k))) in F
        by (intros k; rewrite app_length; destruct (mem k (targets ds)); rewrite ?map_length; cbn; lia).
      exact F.
  Qed.

  (** the multipliers of all rows: [m] of row [j] is [j * S + m] *)
  Definition ext (S a k : nat) (l : list nat) : list nat := flat_map (fun j => map (fun m => j * S + m) l) (seq a k).
  Definition ext_groups (S a k : nat) (gs : list (list nat * list nat)) : list (list nat * list nat) := flat_map (fun j => map (fun g => (map (fun m => j * S + m) (fst g), snd g)) gs) (seq a k).
  Lemma ext_ids S gs k : forall a, ids (ext_groups S a k gs) = ext S a k (ids gs).
  Proof.
    induction k as [|k IH]; intros a; cbn [ext_groups ext seq flat_map]; [reflexivity|]. fold (ext_groups S (Datatypes.S a) k gs) (ext S (Datatypes.S a) k (ids gs)). unfold ids at 1. rewrite flat_map_app. fold (ids (ext_groups S (Datatypes.S a) k gs)). rewrite IH. f_equal.
    unfold ids. rewrite !flat_map_concat_map, concat_map, !map_map. reflexivity.
  Qed.
  Lemma ext_sel S gs q k : forall a, sel q (ext_groups S a k gs) = ext S a k (sel q gs).
  Proof.
    induction k as [|k IH]; intros a; cbn [ext_groups ext seq flat_map]; [reflexivity|]. fold (ext_groups S (Datatypes.S a) k gs) (ext S (Datatypes.S a) k (sel q gs)). unfold L_Dual3.sel at 1, ids. rewrite filter_app, flat_map_app. change (flat_map fst (filter (fun g => touch q (snd g)) (ext_groups S (Datatypes.S a) k gs))) with (sel q (ext_groups S (Datatypes.S a) k gs)). rewrite IH. f_equal.
    clear IH. unfold L_Dual3.sel, ids. induction gs as [|g gs IHg]; [reflexivity|]. cbn [map filter snd]. destruct (touch q (snd g)); [|exact IHg]. cbn [flat_map fst]. now rewrite IHg, map_app.
  Qed.
  Lemma ext_blocks S gs k : forall a, map block_of (ext_groups S a k gs) = concat (repeat (map block_of gs) k).
  Proof.
    induction k as [|k IH]; intros a; cbn [ext_groups seq flat_map repeat concat]; [reflexivity|]. rewrite map_app. fold (ext_groups S (Datatypes.S a) k gs). rewrite IH. f_equal. rewrite map_map. apply map_ext. intros g. unfold block_of. cbn [fst snd]. now rewrite map_length.
  Qed.
  Lemma ext_length S l k : forall a, length (ext S a k l) = length l * k.
  Proof. induction k as [|k IH]; intros a; cbn [ext seq flat_map]; [cbn; lia|]. fold (ext S (Datatypes.S a) k l). rewrite app_length, map_length, IH. lia. Qed.
  Lemma ext_map {B} (v : nat -> nat -> B) S l k : (forall m, In m l -> m < S) -> forall a, map (fun j => v (j / S) (j mod S)) (ext S a k l) = concat (map (fun j => map (v j) l) (seq a k)).
  Proof.
    intros H. induction k as [|k IH]; intros a; cbn [ext seq flat_map map concat]; [reflexivity|]. fold (ext S (Datatypes.S a) k l). rewrite map_app, IH. f_equal. rewrite map_map. apply map_ext_in. intros m Hm. specialize (H m Hm).
    rewrite Nat.div_add_l by lia. rewrite Nat.div_small by auto. rewrite Nat.add_0_r, (Nat.add_comm (a * S)), Nat.mod_add by lia. now rewrite Nat.mod_small.
  Qed.
End Blocks.

(** ** Positions *)
Fixpoint pos (q : nat) (l : list nat) : nat := match l with [] => 0 | x :: l => if x =? q then 0 else S (pos q l) end.
Lemma by_pos {A} (d : A) l : NoDup l -> forall b : list A, length b = length l -> map (fun q => nth (pos q l) b d) l = b.
Proof.
  induction 1 as [|x l NI ND IH]; intros [|y b] E; try discriminate; [reflexivity|]. cbn [map pos]. rewrite Nat.eqb_refl. cbn [nth]. f_equal. cbn [length] in E. transitivity (map (fun q => nth (pos q l) b d) l); [|apply IH; lia]. apply map_ext_in. intros q Hq. destruct (Nat.eqb_spec x q) as [->|]; [easy|]. reflexivity.
Qed.

Section Group.
  Variables (n : nat) (first : nat -> nat) (L : list (list nat)) (nb : nat -> list nat) (cmap : nat -> list nat).
  Hypothesis HC : consistent n first L nb cmap.
  Local Notation held := (held first L).
  Local Notation common := (common first L).
  Local Notation D := (decomposed first nb).
  Context {T : Type}.
  Variables (add : T -> T -> T) (v : nat -> nat -> nat -> T) (rows : nat).
  Local Notation matrix := (matrix first L rows).
  Definition packed (r q : nat) : list T := concat (map (fun k => map (v r k) (common r q)) (seq 0 rows)).

  Lemma nb_nodup r : r < n -> NoDup (nb r).
  Proof.
    intros Hr. apply (NoDup_nth (nb r) 0). intros i j Hi Hj E. pose proof (nb_sorted _ _ (c_neighbours _ _ _ _ _ HC) r) as S. destruct (Nat.lt_trichotomy i j) as [C|[C|C]]; auto; [specialize (S i j Hr)|specialize (S j i Hr)]; lia.
  Qed.

  Section Rank.
    Variable r : nat.
    Hypothesis Hr : r < n.
    Variables (M : dual_map) (sz : nat) (itv : list (nat * nat)).
    Hypothesis HM : dual_map_set (D r) sz itv (cmap r) = Ok M.
    Local Notation N := (length (nb r)).
    Local Notation S := (length L).
    Local Notation V := (fun q j => v q (j / S) (j mod S)).

    Lemma common_lt q m : In m (common r q) -> m < S.
    Proof. intros H. unfold S_Dual.common in H. apply filter_In in H as (H & _). apply (held_in first L r m) in H. apply H. Qed.
    Lemma matrix_ext : matrix v r = map (V r) (ext S 0 rows (held r)).
    Proof. rewrite (ext_map (v r) S (held r) rows); [reflexivity|]. intros m Hm. apply (held_in first L r m) in Hm. apply Hm. Qed.

    Lemma zeros_seq k : forall a, map (fun _ : nat => 0) (seq a k) = repeat 0 k.
    Proof. induction k as [|k IH]; intros a; cbn; auto. now rewrite IH. Qed.

    Lemma pack_rows_ok (B : nat -> list T) : (forall q, In q (nb r) -> length (common r q) * rows <= length (B q)) ->
      pack_rows M rows (length (held r)) (matrix v r) (map B (nb r)) = Ok (map (fun q => packed r q ++ skipn (length (common r q) * rows) (B q)) (nb r)).
    Proof.
      intros HB. destruct (groups_exist n first L nb cmap HC r Hr) as (gs & G & E & O). rewrite (set_ok n first L nb cmap HC r Hr sz itv gs G E O) in HM. injection HM as <-.
      unfold pack_rows. cbn [nmap].
      assert (LC : list_sum (map fst (map block_of gs)) = length (held r)). { destruct G as (G1 & _). rewrite <- G1. clear. unfold ids. induction gs as [|g gs IH]; [reflexivity|]. cbn [map flat_map]. change (list_sum (fst (block_of g) :: map fst (map block_of gs))) with (length (fst g) + list_sum (map fst (map block_of gs))). rewrite IH, app_length. reflexivity. }
      match goal with |- context [foldM ?f _ _] => assert (EF : forall l st, foldM f l st = foldM (fun st k => run_blocks first (D r) (fun b e => pack_block (matrix v r) (k * length (held r) + b) (k * length (held r) + e)) 0 (map block_of gs) st) l st) end.
      { induction l as [|k l IH]; intros st; cbn [foldM]; auto. rewrite nmap_loop_all. destruct (run_blocks first (D r) _ 0 (map block_of gs) st); cbn [obind]; auto. }
      rewrite EF, (run_rows first (D r) _ (map block_of gs) (length (held r)) rows LC). cbn [Nat.mul]. rewrite <- (ext_blocks S gs rows 0), matrix_ext. destruct G as (G1 & G2). rewrite <- G1, <- ext_ids.
      destruct (pack_run_tail first (D r) (V r) (ext_groups S 0 rows gs) [] (fun _ => []) (fun k => B (nth k (nb r) 0))) as (offs & F).
      { cbn [neighbors S_Dual.decomposed]. intros k Hk. rewrite ext_sel, ext_length, (sel_common first L nb r gs k (conj G1 G2)). apply HB. now apply nth_In. }
      cbn [length app] in F. cbn [neighbors S_Dual.decomposed] in F. rewrite (map_nth_seq nb r B), zeros_seq in F. rewrite map_length, F. cbn [obind]. f_equal.
      rewrite <- (map_nth_seq nb r). apply map_ext_in. intros k Hk. rewrite ext_sel, ext_length, (sel_common first L nb r gs k (conj G1 G2)). f_equal. unfold packed. apply ext_map. apply common_lt.
    Qed.

    Definition synced_rows (r k m : nat) : T := fold_left add (map (fun q => v q k m) (filter (fun q => touches first q (domains L m)) (nb r))) (v r k m).
    Lemma unpack_rows_ok (Y : nat -> list T) :
      unpack_rows add M rows (length (held r)) (map (fun q => concat (map (fun k => map (v q k) (common r q)) (seq 0 rows)) ++ Y q) (nb r)) (matrix v r) = Ok (matrix synced_rows r).
    Proof.
      destruct (groups_exist n first L nb cmap HC r Hr) as (gs & G & E & O). rewrite (set_ok n first L nb cmap HC r Hr sz itv gs G E O) in HM. injection HM as <-.
      unfold unpack_rows. cbn [nmap]. rewrite map_length.
      assert (LC : list_sum (map fst (map block_of gs)) = length (held r)). { destruct G as (G1 & _). rewrite <- G1. clear. unfold ids. induction gs as [|g gs IH]; [reflexivity|]. cbn [map flat_map]. change (list_sum (fst (block_of g) :: map fst (map block_of gs))) with (length (fst g) + list_sum (map fst (map block_of gs))). rewrite IH, app_length. reflexivity. }
      set (recv := map (fun q => concat (map (fun k => map (v q k) (common r q)) (seq 0 rows)) ++ Y q) (nb r)).
      match goal with |- context [foldM ?f _ _] => assert (EF : forall l st, foldM f l st = foldM (fun st k => run_blocks first (D r) (fun b e => unpack_block add recv (k * length (held r) + b) (k * length (held r) + e)) 0 (map block_of gs) st) l st) end.
      { induction l as [|k l IH]; intros st; cbn [foldM]; auto. rewrite nmap_loop_all. destruct (run_blocks first (D r) _ 0 (map block_of gs) st); cbn [obind]; auto. }
      rewrite EF, (run_rows first (D r) _ (map block_of gs) (length (held r)) rows LC). cbn [Nat.mul]. rewrite <- (ext_blocks S gs rows 0), matrix_ext. pose proof G as (G1 & G2). rewrite <- G1, <- ext_ids.
      destruct (unpack_run_tail add first (D r) (V r) (fun k => V (nth k (nb r) 0)) (ext_groups S 0 rows gs) (fun k => Y (nth k (nb r) 0)) [] (fun _ => [])) as (offs & F).
      cbn [length app] in F. cbn [neighbors S_Dual.decomposed] in F. rewrite zeros_seq in F.
      assert (ER : recv = map (fun k => map (V (nth k (nb r) 0)) (L_Dual3.sel first (D r) k (ext_groups S 0 rows gs)) ++ Y (nth k (nb r) 0)) (seq 0 N)).
      { unfold recv. rewrite <- (map_nth_seq nb r). apply map_ext_in. intros k Hk. rewrite ext_sel, (sel_common first L nb r gs k G). f_equal. symmetry. apply (ext_map (v (nth k (nb r) 0))). apply common_lt. }
      rewrite ER, F. cbn [obind]. f_equal.
      assert (X : flat_map (fun g => map (collected add first (D r) (fun k => V (nth k (nb r) 0)) (snd g) (V r)) (fst g)) (ext_groups S 0 rows gs) = map (fun j => synced_rows r (j / S) (j mod S)) (ids (ext_groups S 0 rows gs))).
      { unfold ids. rewrite !flat_map_concat_map, concat_map, map_map. f_equal. apply map_ext_in. intros g Hg. apply map_ext_in. intros j Hj. unfold ext_groups in Hg. apply in_flat_map in Hg as (k & _ & Hg). apply in_map_iff in Hg as (g0 & <- & Hg). cbn [fst snd] in *. apply in_map_iff in Hj as (m & <- & Hm).
        assert (HmS : m < S). { assert (I : In m (held r)) by (rewrite <- G1; unfold ids; apply in_flat_map; eauto). apply (held_in first L r m) in I. apply I. }
        rewrite Nat.div_add_l, Nat.div_small, Nat.add_0_r, (Nat.add_comm (k * S)), Nat.mod_add, Nat.mod_small by lia.
        unfold collected, synced_rows. rewrite (Nat.add_comm m), Nat.div_add_l, Nat.div_small, Nat.add_0_r, (Nat.add_comm (k * S)), Nat.mod_add, Nat.mod_small by lia. rewrite (G2 g0 m Hg Hm). f_equal. unfold targets, touch. cbn [neighbors S_Dual.decomposed].
        apply (filter_nth (fun q => touches first q (snd g0)) (fun q => v q k m)). }
      rewrite X, ext_ids, G1. unfold S_DualMatrix.matrix. apply (ext_map (synced_rows r)). intros m Hm. apply (held_in first L r m) in Hm. apply Hm.
    Qed.
  End Rank.
End Group.
