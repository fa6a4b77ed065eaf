(** * Properties of matrices of dual vectors: C134 *)
From Coq Require Import List Arith Lia Bool Permutation Reals Lra.
From Verif Require Import Base S_Order M_Nb S_Nb S_Comm M_Exchange P_Exchange M_Dual S_Dual L_Dual L_Dual2 L_Dual3 L_Dual4 L_Dual5 P_Dual S_Equality M_Equality L_Equality4 L_Equality6 L_Equality7 P_Equality M_TotalFeti S_Feti L_TotalFeti L_TotalFeti2 P_TotalFeti M_DualMatrix S_DualMatrix L_DualMatrix.
Import ListNotations.
Local Open Scope out_scope.

Lemma flat_length {T} w (X : nat -> list T) l : (forall j, In j l -> length (X j) = w) -> length (concat (map X l)) = length l * w.
Proof. induction l as [|j l IH]; intros H; [reflexivity|]. cbn [map concat length]. rewrite app_length, IH by (intros; apply H; now right). rewrite H by (now left). lia. Qed.

Section Synchronize.
  Context {T : Type}.
  Variables (zero : T) (add : T -> T -> T) (n limit : nat) (first : nat -> nat) (L : list (list nat)) (nb cmap : nat -> list nat).
  Hypothesis HC : consistent n first L nb cmap.
  Variables (M : nat -> dual_map) (sz : nat -> nat) (itv : nat -> list (nat * nat)).
  Hypothesis HM : forall r, r < n -> dual_map_set (decomposed first nb r) (sz r) (itv r) (cmap r) = Ok (M r).
  Local Notation common := (common first L).
  Local Notation sized := (sized first L nb).
  Local Notation matrix := (matrix first L).

  (** the static buffers: none before the first call, later for [c] rows *)
  Definition kept (c : nat) (send recv : nat -> list (list T)) : Prop :=
    (c = 0 /\ forall r, r < n -> send r = [] /\ recv r = []) \/ (forall r, r < n -> sized c r (send r) /\ sized c r (recv r)).
  (** every rank shares a multiplier with its first neighbour *)
  Definition first_shares : Prop := forall r, r < n -> nb r <> [] -> common r (hd 0 (nb r)) <> [].

  Lemma nsize_of r : r < n -> nsize (M r) = map (fun q => length (common r q)) (nb r).
  Proof. intros Hr. destruct (dual_map_sizes n first L nb cmap HC r (sz r) (itv r) Hr) as (M' & E & S). rewrite HM in E by auto. now injection E as <-. Qed.
  Lemma init_sized ns (b : list (list T)) : map (@length T) (init_buffer zero ns b) = ns.
  Proof.
    unfold init_buffer. rewrite map_map. assert (E : length (resize (length ns) b []) = length ns) by (unfold resize; rewrite app_length, firstn_length, repeat_length; lia).
    revert E. generalize (resize (length ns) b []). induction ns as [|x ns IH]; intros [|y l] E; try discriminate; [reflexivity|]. cbn [combine map fst snd]. f_equal; [|apply IH; cbn in E; lia].
    unfold resize. rewrite app_length, firstn_length, repeat_length. lia.
  Qed.
  Lemma prepare_ok c rows send recv r : r < n -> kept c send recv -> rows <= c \/ (forall q, q < n -> send q = []) \/ first_shares ->
    exists s b, prepare zero (M r) rows (send r) (recv r) = Ok (s, b) /\ sized (Nat.max c rows) r s /\ sized (Nat.max c rows) r b.
  Proof.
    intros Hr HK HG. unfold prepare.
    assert (SZ : forall b, sized rows r (init_buffer zero (map (fun s => s * rows) (nsize (M r))) b)).
    { intros b. unfold S_DualMatrix.sized. rewrite init_sized, nsize_of, map_map by auto. reflexivity. }
    assert (Fresh : send r = [] -> c <= rows -> exists s b, (small <- match send r with [] => Ok true | s :: _ => n0 <- rd (nsize (M r)) 0 ;; Ok (length s <? n0 * rows) end ;;
       if small : bool then Ok (init_buffer zero (map (fun s => s * rows) (nsize (M r))) (send r), init_buffer zero (map (fun s => s * rows) (nsize (M r))) (recv r)) else Ok (send r, recv r)) = Ok (s, b) /\ sized (Nat.max c rows) r s /\ sized (Nat.max c rows) r b).
    { intros -> Hc. cbn [obind]. rewrite Nat.max_r by auto. eauto. }
    destruct HK as [(-> & HK)|HK]; [apply Fresh; [apply HK; auto|lia]|]. destruct (HK r Hr) as (S1 & S2).
    destruct (send r) as [|b0 bs] eqn:Es.
    - cbn [obind]. unfold S_DualMatrix.sized in S1. cbn [map] in S1. destruct (nb r) as [|q l] eqn:En; [|discriminate]. do 2 eexists. split; [reflexivity|]. split; unfold S_DualMatrix.sized; rewrite init_sized, nsize_of, En by auto; reflexivity.
    - pose proof S1 as S1'. unfold S_DualMatrix.sized in S1'. rewrite nsize_of by auto. destruct (nb r) as [|q l] eqn:En; [discriminate|]. cbn [map] in S1'. injection S1' as E0 _. cbn [map rd nth_error obind].
      destruct (Nat.ltb_spec (length b0) (length (common r q) * rows)) as [LT|GE].
      + assert (c < rows) by (rewrite E0 in LT; nia). rewrite Nat.max_r by lia. specialize (SZ (b0 :: bs)) as Z1. specialize (SZ (recv r)) as Z2. rewrite nsize_of, En in Z1, Z2 by auto. eauto.
      + assert (Hc : rows <= c). { destruct HG as [Hc|[Hc|Hc]]; auto; [specialize (Hc r Hr); congruence|]. specialize (Hc r Hr). rewrite En in Hc. specialize (Hc ltac:(discriminate)). cbn [hd] in Hc. rewrite E0 in GE. destruct (common r q) as [|m s]; [easy|]. cbn [length] in GE. nia. }
        rewrite Nat.max_l by auto. eauto.
  Qed.

  Variables (rows c : nat) (v : nat -> nat -> nat -> T) (send recv : nat -> list (list T)).
  Hypothesis Hkept : kept c send recv.
  Hypothesis Hgrow : rows <= c \/ (forall r, r < n -> send r = []) \/ first_shares.
  Hypothesis Hlimit : forall r q, r < n -> In q (nb r) -> length (common r q) * Nat.max c rows <= limit.
  Local Notation sync := (map (fun r => synchronize_matrix zero add limit (decomposed first nb r) (M r) rows (length (held first L r)) (matrix rows v r) (send r) (recv r)) (seq 0 n)).

  (** C134, any arithmetic: in every execution every row becomes what the synchronization of this row alone gives; the buffers have place for the
      largest number of rows so far *)
  Theorem matrix_synchronize_exact : exists send' recv', kept (Nat.max c rows) send' recv' /\
    ncompletes n sync (map (fun r => (matrix rows (fun r k m => fold_left add (map (fun q => v q k m) (filter (fun q => touches first q (domains L m)) (nb r))) (v r k m)) r, send' r, recv' r)) (seq 0 n)).
  Proof.
    set (c' := Nat.max c rows). set (prep r := match prepare zero (M r) rows (send r) (recv r) with Ok p => p | _ => ([], []) end).
    assert (HP : forall r, r < n -> prepare zero (M r) rows (send r) (recv r) = Ok (prep r) /\ sized c' r (fst (prep r)) /\ sized c' r (snd (prep r))).
    { intros r Hr. destruct (prepare_ok c rows send recv r Hr Hkept Hgrow) as (s & b & E & S1 & S2). unfold prep. rewrite E. auto. }
    set (Bf r q := nth (pos q (nb r)) (fst (prep r)) []).
    assert (HB : forall r, r < n -> fst (prep r) = map (Bf r) (nb r)).
    { intros r Hr. symmetry. apply by_pos; [now apply (nb_nodup n first L nb cmap HC)|]. destruct (HP r Hr) as (_ & S1 & _). apply (f_equal (@length nat)) in S1. now rewrite !map_length in S1. }
    assert (HBl : forall r q, r < n -> In q (nb r) -> length (Bf r q) = length (common r q) * c').
    { intros r q Hr Hq. destruct (HP r Hr) as (_ & S1 & _). rewrite (HB r Hr) in S1. unfold S_DualMatrix.sized in S1. rewrite map_map in S1. exact (ext_in_map S1 q Hq). }
    set (d r q := packed first L v rows r q ++ skipn (length (common r q) * rows) (Bf r q)).
    assert (PL : forall r q, length (packed first L v rows r q) = length (common r q) * rows).
    { intros r q. unfold packed. rewrite (flat_length (length (common r q))) by (intros; apply map_length). rewrite seq_length. lia. }
    assert (DL : forall r q, r < n -> In q (nb r) -> length (d r q) = length (common r q) * c').
    { intros r q Hr Hq. unfold d. rewrite app_length, PL, skipn_length, HBl by auto. assert (rows <= c') by (unfold c'; lia). nia. }
    assert (SY : forall r q, r < n -> In q (nb r) -> q < n /\ In r (nb q)).
    { intros r q Hr Hq. pose proof (c_neighbours _ _ _ _ _ HC) as HN. split; [exact (nb_ranks _ _ HN r q Hr Hq)|]. eapply (nb_sym _ _ HN); eauto. }
    exists (fun r => map (d r) (nb r)), (fun r => map (fun q => d q r) (nb r)). split.
    { right. intros r Hr. unfold S_DualMatrix.sized. rewrite !map_map. split; apply map_ext_in; intros q Hq; [now apply DL|]. destruct (SY r q Hr Hq). rewrite DL by auto. now rewrite common_sym. }
    rewrite (map_ext_in _ (fun r => nfin (finish_rows add (M r) rows (length (held first L r)) (matrix rows v r) (map (d r) (nb r)) (snd (prep r))) (exchange_known limit (map (d r) (nb r)) (snd (prep r)) (nb r)))).
    2: { intros r Hr. apply in_seq in Hr. unfold synchronize_matrix. destruct (HP r ltac:(lia)) as (-> & _). rewrite (surjective_pairing (prep r)) at 1. cbn [obind]. rewrite (HB r) by lia.
         rewrite (pack_rows_ok n first L nb cmap HC v rows r ltac:(lia) (M r) (sz r) (itv r)) by (try (apply HM; lia); intros q Hq; rewrite HBl by (auto; lia); assert (rows <= c') by (unfold c'; lia); nia). reflexivity. }
    apply (nfin_completes n (fun r => finish_rows add (M r) rows (length (held first L r)) (matrix rows v r) (map (d r) (nb r)) (snd (prep r)))) with
      (P := fun r => exchange_known limit (map (d r) (nb r)) (snd (prep r)) (nb r)) (R := fun r => Some (map (fun q => d q r) (nb r))).
    - apply (exchange_known_delivers n limit nb (c_neighbours _ _ _ _ _ HC) d (fun r => snd (prep r))).
      + intros r q Hr Hq. rewrite DL by auto. now apply Hlimit.
      + intros r Hr. destruct (HP r Hr) as (_ & _ & S2). rewrite S2. apply map_ext_in. intros q Hq. destruct (SY r q Hr Hq). rewrite DL by auto. now rewrite common_sym.
    - intros r Hr. unfold finish_rows.
      pose proof (unpack_rows_ok n first L nb cmap HC add v rows r Hr (M r) (sz r) (itv r) (HM r Hr) (fun q => skipn (length (common q r) * rows) (Bf q r))) as U.
      rewrite (map_ext (fun q => d q r) (fun q => concat (map (fun k => map (v q k) (common r q)) (seq 0 rows)) ++ skipn (length (common q r) * rows) (Bf q r))) by (intros q; unfold d, packed; now rewrite (common_sym first L q r)).
      rewrite U. cbn [obind]. reflexivity.
  Qed.

  (** C134, exact arithmetic: afterwards all ranks that keep a copy hold the sums of the values of all of them *)
  Theorem matrix_synchronize_sums (dflt : T) : associative add -> commutative add -> exists send' recv', kept (Nat.max c rows) send' recv' /\
    ncompletes n sync (map (fun r => (matrix rows (fun _ k m => reduce add dflt (map (fun q => v q k m) (sharing n first L m))) r, send' r, recv' r)) (seq 0 n)).
  Proof.
    intros HA HCm. destruct matrix_synchronize_exact as (s & b & K & E). exists s, b. split; [exact K|].
    rewrite (map_ext_in _ (fun r => (matrix rows (fun r k m => fold_left add (map (fun q => v q k m) (filter (fun q => touches first q (domains L m)) (nb r))) (v r k m)) r, s r, b r))); [exact E|].
    intros r Hr. apply in_seq in Hr. f_equal. f_equal. unfold S_DualMatrix.matrix. f_equal. apply map_ext. intros k. unfold vector. apply map_ext_in. intros m Hm.
    change (fold_left add (map (fun q => v q k m) (filter (fun q => touches first q (domains L m)) (nb r))) (v r k m)) with
      (reduce add dflt (map (fun q => v q k m) (r :: filter (fun q => touches first q (domains L m)) (nb r)))).
    apply reduce_perm; auto. apply Permutation_map. apply Permutation_sym, (sharing_perm n first L nb cmap HC); auto; lia.
  Qed.
End Synchronize.

(** ** Rows of the dual operator *)
Section Rows.
  Context {T : Type}.
  Variables (w rows : nat).
  Local Notation flat X := (concat (map X (seq 0 rows))).
  Lemma flat_split (X : nat -> list T) i : i < rows -> flat X = concat (map X (seq 0 i)) ++ X i ++ concat (map X (seq (S i) (rows - S i))).
  Proof. intros Hi. replace rows with (i + S (rows - S i)) at 1 by lia. rewrite seq_app, map_app, concat_app. reflexivity. Qed.
  Lemma flat_slice (X : nat -> list T) i : (forall j, j < rows -> length (X j) = w) -> i < rows -> slice (i * w) (i * w + w) (flat X) = X i.
  Proof.
    intros HX Hi. rewrite (flat_split X i Hi). assert (E : length (concat (map X (seq 0 i))) = i * w) by (rewrite (flat_length w) by (intros j Hj; apply in_seq in Hj; apply HX; lia); now rewrite seq_length).
    unfold slice. replace (i * w + w - i * w) with w by lia. rewrite <- E, skipn_app, skipn_all, Nat.sub_diag. cbn [skipn app]. rewrite firstn_app, firstn_all2 by (rewrite HX; auto). rewrite HX, Nat.sub_diag by auto. cbn [firstn]. apply app_nil_r.
  Qed.
  Lemma flat_put (X : nat -> list T) i new : (forall j, j < rows -> length (X j) = w) -> i < rows -> put (i * w) (i * w + w) (flat X) new = flat (fun j => if j =? i then new else X j).
  Proof.
    intros HX Hi. rewrite (flat_split X i Hi), (flat_split _ i Hi). assert (E : length (concat (map X (seq 0 i))) = i * w) by (rewrite (flat_length w) by (intros j Hj; apply in_seq in Hj; apply HX; lia); now rewrite seq_length).
    unfold put. rewrite firstn_app, E, Nat.sub_diag, firstn_all2 by lia. cbn [firstn]. rewrite app_nil_r, Nat.eqb_refl. f_equal; [|f_equal].
    - f_equal. apply map_ext_in. intros j Hj. apply in_seq in Hj. destruct (Nat.eqb_spec j i); [lia|reflexivity].
    - rewrite app_assoc, skipn_app, skipn_all2, app_length, E, HX, Nat.sub_diag by (auto; rewrite app_length, E, HX; auto). cbn [skipn app]. f_equal. apply map_ext_in. intros j Hj. apply in_seq in Hj. destruct (Nat.eqb_spec j i); [lia|reflexivity].
  Qed.
  Variables (apply : list T -> outcome (list T)) (filter : option (list bool)) (X g : nat -> list T).
  Hypothesis HX : forall j, j < rows -> length (X j) = w.
  Hypothesis Hg : forall j, j < rows -> apply (X j) = Ok (g j) /\ length (g j) = w.
  Hypothesis Hf : forall f, filter = Some f -> length f = rows.
  Definition selected (j : nat) : bool := match filter with Some f => nth j f false | None => true end.
  Lemma apply_rows_from k : forall a (Y : nat -> list T), a + k <= rows -> (forall j, j < rows -> length (Y j) = w) ->
    foldM (apply_row apply filter w (flat X)) (seq a k) (flat Y) = Ok (flat (fun j => if (a <=? j) && (j <? a + k) && selected j then g j else Y j)).
  Proof.
    induction k as [|k IH]; intros a Y Ha HY; cbn [seq foldM].
    - f_equal. f_equal. apply map_ext. intros j. destruct (Nat.leb_spec a j), (Nat.ltb_spec j (a + 0)); try reflexivity; lia.
    - unfold apply_row at 1. assert (ES : match filter with Some f => rd f a | None => Ok true end = Ok (selected a)).
      { unfold selected. destruct filter as [f|]; [|reflexivity]. specialize (Hf f eq_refl). unfold rd. now rewrite (nth_error_nth' f false) by lia. }
      rewrite ES. cbn [obind].
      assert (LX : forall Z : nat -> list T, (forall j, j < rows -> length (Z j) = w) -> a * w + w <= length (flat Z)).
      { intros Z HZ. rewrite (flat_length w) by (intros j Hj; apply in_seq in Hj; apply HZ; lia). rewrite seq_length. nia. }
      destruct (selected a) eqn:Sa.
      + rewrite !(proj2 (Nat.leb_le _ _)) by (apply LX; auto). cbn [andb]. rewrite flat_slice by (auto; lia). destruct (Hg a ltac:(lia)) as (-> & Lg). cbn [obind]. rewrite flat_put by (auto; lia). rewrite IH by (try lia; intros j Hj; destruct (j =? a); auto).
        f_equal. f_equal. apply map_ext. intros j. destruct (Nat.leb_spec (S a) j), (Nat.leb_spec a j), (Nat.ltb_spec j (S a + k)), (Nat.ltb_spec j (a + S k)), (Nat.eqb_spec j a); cbn [andb]; try lia; try reflexivity; subst; try rewrite Sa; try reflexivity; lia.
      + cbn [obind]. rewrite IH by (auto; lia). f_equal. f_equal. apply map_ext. intros j. destruct (Nat.leb_spec (S a) j), (Nat.leb_spec a j), (Nat.ltb_spec j (S a + k)), (Nat.ltb_spec j (a + S k)); cbn [andb]; try lia; try reflexivity. replace j with a by lia. now rewrite Sa.
  Qed.
  Lemma apply_rows_ok (Y : nat -> list T) : (forall j, j < rows -> length (Y j) = w) ->
    apply_rows apply filter rows w (flat X) (flat Y) = Ok (flat (fun j => if selected j then g j else Y j)).
  Proof.
    intros HY. unfold apply_rows. rewrite apply_rows_from by auto. f_equal. f_equal. apply map_ext_in. intros j Hj. apply in_seq in Hj. rewrite (proj2 (Nat.leb_le 0 j)), (proj2 (Nat.ltb_lt j (0 + rows))) by lia. reflexivity.
  Qed.
End Rows.

Local Open Scope R_scope.
Section DualOperator.
  Variables (n limit : nat) (first : nat -> nat) (L : list (list nat)) (nb : nat -> list nat) (cmap : nat -> list nat).
  Hypothesis HC : consistent n first L nb cmap.
  Variables (Mp : nat -> dual_map) (sz : nat -> nat) (itv : nat -> list (nat * nat)).
  Hypothesis Hmp : forall r, (r < n)%nat -> dual_map_set (decomposed first nb r) (sz r) (itv r) (cmap r) = Ok (Mp r).
  Variables (len : nat -> nat) (row : nat -> nat -> list (nat * R)).
  Hypothesis HB : entries_ok L len row.
  Variables (kplus : nat -> nat -> nat -> R) (solve : nat -> nat -> list R -> list R).
  Hypothesis HS : forall r, (r < n)%nat -> solves first len kplus r (solve r).
  Variables (rows c : nat) (send recv : nat -> list (list R)).
  Hypothesis Hkept : kept n first L nb c send recv.
  Hypothesis Hgrow : (rows <= c)%nat \/ (forall r, (r < n)%nat -> send r = []) \/ first_shares n first L nb.
  Hypothesis Hlimit : forall r q, (r < n)%nat -> In q (nb r) -> (length (common first L r q) * Nat.max c rows <= limit)%nat.

  (** C134: the implicit operator on a matrix: every row [k] with [filter] becomes F times the row of [x]; in a row without it the sums of what the
      ranks had in [y] before are computed *)
  Theorem implicit_apply_matrix_computes (filter : option (list bool)) (x : nat -> nat -> R) (old : nat -> nat -> nat -> R) :
    (forall f, filter = Some f -> length f = rows) ->
    exists y, (forall r, (r < n)%nat -> apply_rows (implicit_apply 0 1 Rplus Rmult (stored first L len row r) (solve r)) filter rows (length (held first L r))
                                          (matrix first L rows (fun _ => x) r) (matrix first L rows old r) = Ok (y r)) /\
      exists send' recv', kept n first L nb (Nat.max c rows) send' recv' /\
        ncompletes n (map (fun r => synchronize_matrix 0 Rplus limit (decomposed first nb r) (Mp r) rows (length (held first L r)) (y r) (send r) (recv r)) (seq 0 n))
          (map (fun r => (matrix first L rows (fun _ k m => if match filter with Some f => nth k f false | None => true end then F_of n first L len row kplus (x k) m
                                                              else Sum (sharing n first L m) (fun q => old q k m)) r, send' r, recv' r)) (seq 0 n)).
  Proof.
    intros Hf. set (sel k := selected filter k).
    set (V r k m := if sel k then part len row (own first r) (Kplus_of len kplus (Bt_of L row (x k))) m else old r k m).
    exists (matrix first L rows V). split.
    - intros r Hr. unfold matrix.
      rewrite (apply_rows_ok (length (held first L r)) rows (implicit_apply 0 1 Rplus Rmult (stored first L len row r) (solve r)) filter
        (fun k => vector first L (fun _ m => x k m) r) (fun k => map (part len row (own first r) (Kplus_of len kplus (Bt_of L row (x k)))) (held first L r))); auto.
      + f_equal. f_equal. apply map_ext. intros k. unfold V, sel. destruct (selected filter k); reflexivity.
      + intros j Hj. unfold vector. apply map_length.
      + intros j Hj. split; [apply (implicit_ok first L len row HB r kplus (solve r) (HS r Hr))|apply map_length].
      + intros j Hj. unfold vector. apply map_length.
    - destruct (matrix_synchronize_sums 0 Rplus n limit first L nb cmap HC Mp sz itv Hmp rows c V send recv Hkept Hgrow Hlimit 0) as (s & b & K & E); [intros a d e; lra|intros a d; lra|].
      exists s, b. split; [exact K|]. rewrite (map_ext_in _ (fun r => (matrix first L rows (fun _ k m => reduce Rplus 0 (map (fun q => V q k m) (sharing n first L m))) r, s r, b r))); [exact E|].
      intros r Hr. f_equal. f_equal. unfold matrix. f_equal. apply map_ext. intros k. unfold vector. apply map_ext_in. intros m Hm. rewrite reduce_Sum. unfold V. fold (selected filter k). fold (sel k). destruct (sel k); [|reflexivity].
      unfold F_of. symmetry. apply (parts_total n first L nb cmap HC len row HB). now apply (held_lt first L r).
  Qed.
End DualOperator.

(* ---- Finding and examples ------------------------------------------------------------ *)
Local Open Scope nat_scope.
(** C134, finding: only the buffer of the first neighbour decides.  Rank 0 shares nothing with its first neighbour: after a matrix with one row the
    buffers have place for one row; the second row of a larger matrix is written behind the buffer of rank 2 *)
Definition gr_L : list (list nat) := [[0; 2]].
Definition gr_nb (r : nat) : list nat := nth r [[1; 2]; [0]; [0]] [].
Definition gr_cmap (r : nat) : list nat := nth r [[1; 2; 0; 2]; []; [1; 2; 0; 2]] [].
Definition gr_map (r : nat) : dual_map := nth r [{| size := 1; local_intervals := []; nmap := [0; 1; 1; 1]; nsize := [0; 1] |}; {| size := 0; local_intervals := []; nmap := []; nsize := [0] |};
  {| size := 1; local_intervals := []; nmap := [0; 1; 1; 0]; nsize := [1] |}] {| size := 0; local_intervals := []; nmap := []; nsize := [] |}.
Definition gr_first (r : nat) : nat := r.
Lemma gr_consistent : consistent 3 gr_first gr_L gr_nb gr_cmap.
Proof.
  split; [split| split| | |].
  - intros r H. unfold gr_first. lia.
  - intros m i j Hm. cbn in Hm. cases_lt m Hm; cbn; intros H; cases_lt i H; cases_lt j H; cbn; lia.
  - intros m d Hm. cbn in Hm. cases_lt m Hm; cbn; unfold gr_first; lia.
  - intros m Hm. cbn in Hm. cases_lt m Hm; cbn; discriminate.
  - intros r j k Hr. cases_lt r Hr; cbn; intros H; cases_lt j H; cases_lt k H; cbn; lia.
  - intros r q Hr. cases_lt r Hr; cbn; lia.
  - intros r q Hr. cases_lt r Hr; cbn; intros H; repeat (destruct H as [<-|H]; [cbn; lia|]); destruct H.
  - intros r Hr. cases_lt r Hr; cbn; lia.
  - intros r q m Hr Hq Hm. cbn in Hm. cases_lt r Hr; cases_lt q Hq; cases_lt m Hm; cbn; intros; try discriminate; try congruence; tauto.
  - intros r Hr. cases_lt r Hr; [exists [(1, [0; 2])]|exists []|exists [(1, [0; 2])]]; (split; [reflexivity|split; [reflexivity|repeat constructor]]).
Qed.
Lemma gr_map_ok r : r < 3 -> dual_map_set (decomposed gr_first gr_nb r) (length (held gr_first gr_L r)) [] (gr_cmap r) = Ok (gr_map r).
Proof. intros H. cases_lt r H; reflexivity. Qed.
Theorem matrix_buffers_refuted (T : Type) (zero : T) (add : T -> T -> T) (v : nat -> nat -> nat -> T) limit (send recv : nat -> list (list T)) :
  kept 3 gr_first gr_L gr_nb 1 send recv ->
  synchronize_matrix zero add limit (decomposed gr_first gr_nb 0) (gr_map 0) 2 (length (held gr_first gr_L 0)) (matrix gr_first gr_L 2 v 0) (send 0) (recv 0) = NCrash.
Proof.
  intros [[X _]|K]; [discriminate|]. destruct (K 0 ltac:(lia)) as (S1 & S2). unfold sized in S1. cbn in S1. destruct (send 0) as [|[|? ?] [|[|a [|? ?]] [|? ?]]]; try discriminate. cbv. reflexivity.
Qed.
(** the buffers are reached: the first call, one row *)
Example matrix_buffers_refuted_ex : exists send recv, kept 3 gr_first gr_L gr_nb 1 send recv /\
  ncompletes 3 (map (fun r => synchronize_matrix 0 Nat.add 5 (decomposed gr_first gr_nb r) (gr_map r) 1 (length (held gr_first gr_L r)) (matrix gr_first gr_L 1 (fun r _ _ => 7 + r) r) [] []) (seq 0 3))
    (map (fun r => (nth r [[16]; []; [16]] [], send r, recv r)) (seq 0 3)).
Proof.
  destruct (matrix_synchronize_exact 0 Nat.add 3 5 gr_first gr_L gr_nb gr_cmap gr_consistent gr_map _ _ gr_map_ok 1 0 (fun r _ _ => 7 + r) (fun _ => []) (fun _ => [])) as (s & b & K & E).
  - left. auto.
  - right. left. auto.
  - intros r q Hr. cases_lt r Hr; cbn; intros Hq; repeat (destruct Hq as [<-|Hq]; [cbn; lia|]); destruct Hq.
  - exists s, b. split; [exact K|exact E].
Qed.
Example matrix_synchronize_ex : first_shares 3 ex_first ex_L ex_nbs /\ exists send recv, kept 3 ex_first ex_L ex_nbs 2 send recv /\
  ncompletes 3 (map (fun r => synchronize_matrix 0 Nat.add 6 (decomposed ex_first ex_nbs r) (ex_map r) 2 (length (held ex_first ex_L r)) (matrix ex_first ex_L 2 (fun r k m => (1 + k) * ex_val r m) r) (ex_buf r) (ex_buf r)) (seq 0 3))
    (map (fun r => (nth r [[1; 22; 33; 444; 7; 2; 44; 66; 888; 14]; [22; 33; 444; 550; 44; 66; 888; 1100]; [444; 550; 600; 888; 1100; 1200]] [], send r, recv r)) (seq 0 3)).
Proof.
  assert (F : first_shares 3 ex_first ex_L ex_nbs) by (intros r Hr; cases_lt r Hr; cbn; discriminate).
  split; [exact F|].
  destruct (matrix_synchronize_sums 0 Nat.add 3 6 ex_first ex_L ex_nbs ex_cmap ex_consistent ex_map _ _ ex_map_ok 2 1 (fun r k m => (1 + k) * ex_val r m) ex_buf ex_buf) with (dflt := 0) as (s & b & K & E).
  - right. intros r Hr. cases_lt r Hr; split; reflexivity.
  - right. right. exact F.
  - intros r q Hr. cases_lt r Hr; cbn; intros Hq; repeat (destruct Hq as [<-|Hq]; [cbn; lia|]); destruct Hq.
  - intros x y z. lia.
  - intros x y. lia.
  - exists s, b. split; [exact K|exact E].
Qed.
Example implicit_apply_matrix_ex (x : nat -> nat -> R) (old : nat -> nat -> nat -> R) :
  exists y, (forall r, r < 3 -> apply_rows (implicit_apply 0%R 1%R Rplus Rmult (stored ex_first ex_L (fun _ => 3) tf_row r) (tf_solve r)) (Some [true; false]) 2 (length (held ex_first ex_L r))
                                   (matrix ex_first ex_L 2 (fun _ => x) r) (matrix ex_first ex_L 2 old r) = Ok (y r)) /\
    exists send recv, kept 3 ex_first ex_L ex_nbs 2 send recv /\
      ncompletes 3 (map (fun r => synchronize_matrix 0%R Rplus 7 (decomposed ex_first ex_nbs r) (ex_map r) 2 (length (held ex_first ex_L r)) (y r) [] []) (seq 0 3))
        (map (fun r => (matrix ex_first ex_L 2 (fun _ k m => if nth k [true; false] false then F_of 3 ex_first ex_L (fun _ => 3) tf_row tf_kplus (x k) m else Sum (sharing 3 ex_first ex_L m) (fun q => old q k m)) r, send r, recv r)) (seq 0 3)).
Proof.
  apply (implicit_apply_matrix_computes 3 7 ex_first ex_L ex_nbs ex_cmap ex_consistent ex_map _ _ ex_map_ok (fun _ => 3) tf_row (proj1 tf_entries) tf_kplus tf_solve (fun r _ => tf_solves r) 2 0 (fun _ => []) (fun _ => [])).
  - left. auto.
  - right. left. auto.
  - intros r q Hr. cases_lt r Hr; cbn; intros Hq; repeat (destruct Hq as [<-|Hq]; [cbn; lia|]); destruct Hq.
  - intros f E. injection E as <-. reflexivity.
Qed.

Print Assumptions matrix_synchronize_exact.
Print Assumptions matrix_synchronize_sums.
Print Assumptions implicit_apply_matrix_computes.
Print Assumptions matrix_buffers_refuted.
