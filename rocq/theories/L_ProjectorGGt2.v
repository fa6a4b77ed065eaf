(** * Lemmas: the pattern of G G^T on a rank *)
From Coq Require Import List Arith Lia Bool Reals Lra.
From Verif Require Import Base M_Indexing M_Nb S_Nb M_Exchange M_Dual S_Dual L_Dual2 L_Dual4 M_DualGraph S_DualGraph L_DualGraph L_DualGraph3 L_DualGraph4 S_Equality L_Equality6 S_Feti L_TotalFeti
  M_Projector S_Projector L_Projector2 L_Projector3 M_ProjectorG S_ProjectorG L_ProjectorG L_ProjectorG2 L_ProjectorG3 M_ProjectorGGt S_ProjectorGGt L_ProjectorGGt.
Import ListNotations.
Local Open Scope out_scope.

Lemma foldM_count {A} (l : list A) : forall m, foldM (fun m _ => Ok (m + 1)) l m = Ok (m + length l).
Proof. induction l as [|x l IH]; intros m; cbn [foldM length obind]; [f_equal; lia|]. rewrite IH. f_equal. lia. Qed.

Lemma fill_upper_eq row w kc rows cols c : fill_upper row w kc (rows, cols, c) =
  (cols <- wr cols c (v_goffset w + kc + Indexing_CSR) ;; x <- rd rows (row + 1) ;; rows <- wr rows (row + 1) (x + 1) ;; Ok (rows, cols, c + 1)).
Proof. reflexivity. Qed.
Lemma fill_row_eq vs edges d v kr rows cols : fill_row vs edges d v kr (rows, cols) =
  (b <- rd rows (v_goffset v + kr) ;; rows <- wr rows (v_goffset v + kr + 1) b ;; c <- row_begin rows (v_goffset v + kr) ;;
   '(rows, cols, _) <- over_upper vs edges d v kr (fill_upper (v_goffset v + kr)) (rows, cols, c) ;; Ok (rows, cols)).
Proof. reflexivity. Qed.

Section Pattern.
  Variables (n : nat) (first : nat -> nat) (L : list (list nat)) (nb cmap : nat -> list nat) (ksize : nat -> nat).
  Hypothesis HC : consistent n first L nb cmap.
  Local Notation own := (S_Feti.own first).
  Local Notation all := (all_of n first).
  Local Notation kidx := (kidx ksize).
  Local Notation gidx := (gidx first ksize).
  Local Notation ups := (ups n first L ksize).
  Local Notation first_kernel := (first_kernel first ksize).
  Definition ulens (ks : list (nat * nat)) : list nat := map (fun p => length (ups p)) ks.
  Definition ucols (ks : list (nat * nat)) : list nat := concat (map (fun p => map (fun q => gidx q + Indexing_CSR) (ups p)) ks).
  Lemma ucols_length ks : length (ucols ks) = list_sum (ulens ks).
  Proof. unfold ucols, ulens. rewrite concat_length, map_map. f_equal. apply map_ext. intros. apply map_length. Qed.

  Section Rank.
    Variables (r : nat) (vs : smap vertex) (es : smap (list nat)).
    Hypothesis Hr : r < n.
    Hypothesis HG : graph_ok n first L nb ksize r (vs, es).
    Local Notation D := (decomposed first nb r).
    Local Notation vert := (vert vs).

    Lemma vert_gidx p q : In (fst p) (own r) -> In q (ups p) -> v_goffset (vert (fst q)) + snd q = gidx q.
    Proof. intros Hp Hq. apply ups_in in Hq. destruct Hq as (_ & G & _). destruct (vert_ok n first L nb cmap ksize HC r vs es Hr HG (fst q) (glued_vis first L r _ _ Hp G)) as (_ & _ & V). rewrite (vo_goffset _ _ _ _ _ _ _ _ V). reflexivity. Qed.
    Lemma own_gidx p : In (fst p) (own r) -> v_goffset (vert (fst p)) + snd p = gidx p.
    Proof. intros Hp. destruct (vert_ok n first L nb cmap ksize HC r vs es Hr HG (fst p) (own_vis first L r _ Hp)) as (_ & _ & V). rewrite (vo_goffset _ _ _ _ _ _ _ _ V). reflexivity. Qed.

    Lemma count_ok : count_upper D vs es = Ok (list_sum (ulens (kidx (own r)))).
    Proof.
      unfold count_upper. rewrite (over_rows_ok n first L nb cmap ksize HC r vs es Hr HG).
      assert (G : forall ks m, (forall p, In p ks -> In (fst p) (own r)) -> foldM (fun st p => over_upper vs es (fst p) (vert (fst p)) (snd p) (fun _ _ n => Ok (n + 1)) st) ks m = Ok (m + list_sum (ulens ks))).
      { induction ks as [|p ks IH]; intros m H; [cbn; f_equal; lia|]. cbn [foldM]. rewrite (over_upper_ok n first L nb cmap ksize HC r vs es Hr HG) by (apply H; left; auto). rewrite foldM_count. cbn [obind]. rewrite IH by (intros; apply H; right; auto).
        f_equal. unfold ulens. cbn [map list_sum fold_right]. rewrite <- surjective_pairing. unfold list_sum. lia. }
      rewrite G; auto. intros (d, k) I. apply kidx_in in I. tauto.
    Qed.

    Lemma fill_upper_ok p : In (fst p) (own r) -> forall qs rpre x rpost cpre cj cpost, incl qs (ups p) -> length rpre = gidx p + 1 -> length cj = length qs ->
      foldM (fun st q => fill_upper (gidx p) (vert (fst q)) (snd q) st) qs (rpre ++ x :: rpost, cpre ++ cj ++ cpost, length cpre) =
      Ok (rpre ++ (x + length qs) :: rpost, cpre ++ map (fun q => gidx q + Indexing_CSR) qs ++ cpost, length cpre + length qs).
    Proof.
      intros Hp. induction qs as [|q qs IH]; intros rpre x rpost cpre cj cpost HI HL HJ.
      - destruct cj; [|discriminate]. cbn. now rewrite !Nat.add_0_r.
      - destruct cj as [|y cj]; [discriminate|]. cbn [foldM]. rewrite fill_upper_eq. cbn [app]. rewrite (wr_app_at cpre) by auto. cbn [obind]. rewrite (rd_app_at rpre) by auto. cbn [obind]. rewrite (wr_app_at rpre) by auto. cbn [obind].
        rewrite (vert_gidx p q Hp) by (apply HI; left; auto). specialize (IH rpre (x + 1) rpost (cpre ++ [gidx q + Indexing_CSR]) cj cpost ltac:(intros z Hz; apply HI; right; auto) HL ltac:(cbn in HJ; lia)).
        rewrite app_length in IH. cbn [length] in IH. rewrite <- !app_assoc in IH. cbn [app] in IH. rewrite IH. cbn [map length app]. replace (x + 1 + length qs) with (x + S (length qs)) by lia. replace (length cpre + 1 + length qs) with (length cpre + S (length qs)) by lia. reflexivity.
    Qed.
    Lemma fill_rows_ok ks : forall rpre b junk rpost cpre cj cpost, (forall p, In p ks -> In (fst p) (own r)) -> map gidx ks = seq (length rpre) (length ks) -> length junk = length ks ->
      b = length cpre + Indexing_CSR -> length cj = list_sum (ulens ks) ->
      foldM (fun st p => fill_row vs es (fst p) (vert (fst p)) (snd p) st) ks (rpre ++ b :: junk ++ rpost, cpre ++ cj ++ cpost) =
      Ok (rpre ++ psums b (ulens ks) ++ rpost, cpre ++ ucols ks ++ cpost).
    Proof.
      induction ks as [|p ks IH]; intros rpre b junk rpost cpre cj cpost HI HS HJ -> HL.
      - destruct junk; [|discriminate]. destruct cj; [|discriminate]. reflexivity.
      - destruct junk as [|x junk]; [discriminate|]. cbn [map seq length] in HS. injection HS as E0 HS. assert (Hp : In (fst p) (own r)) by (apply HI; left; auto).
        cbn [ulens map list_sum fold_right] in HL. fold (ulens ks) in HL. change (fold_right Nat.add 0 (ulens ks)) with (list_sum (ulens ks)) in HL.
        destruct (L_ProjectorG2.map_split (fun y => y) cj (firstn (length (ups p)) cj) (skipn (length (ups p)) cj)) as (c1 & c2 & -> & E1 & E2); [now rewrite map_id, firstn_skipn|]. rewrite map_id in E1, E2.
        assert (L1 : length c1 = length (ups p)) by (rewrite E1, firstn_length; lia). assert (L2 : length c2 = list_sum (ulens ks)) by (rewrite app_length in HL; lia). clear E1 E2.
        cbn [foldM]. rewrite fill_row_eq. rewrite (own_gidx p Hp). rewrite (rd_app_at rpre) by auto. cbn [obind app].
        replace (rpre ++ (length cpre + Indexing_CSR) :: x :: junk ++ rpost) with ((rpre ++ [length cpre + Indexing_CSR]) ++ x :: junk ++ rpost) by (rewrite <- app_assoc; reflexivity).
        rewrite (wr_app_at (rpre ++ [length cpre + Indexing_CSR])) by (rewrite app_length; cbn; lia). cbn [obind]. unfold row_begin. rewrite <- (app_assoc rpre). cbn [app]. rewrite (rd_app_at rpre) by auto. cbn [obind]. replace (length cpre + Indexing_CSR <? Indexing_CSR) with false by (symmetry; apply Nat.ltb_ge; lia). rewrite Nat.add_sub. cbn [obind].
        replace (rpre ++ (length cpre + Indexing_CSR) :: (length cpre + Indexing_CSR) :: junk ++ rpost) with ((rpre ++ [length cpre + Indexing_CSR]) ++ (length cpre + Indexing_CSR) :: junk ++ rpost) by (rewrite <- app_assoc; reflexivity).
        rewrite (over_upper_ok n first L nb cmap ksize HC r vs es Hr HG) by auto. rewrite <- surjective_pairing. rewrite <- (app_assoc c1).
        rewrite (fill_upper_ok p Hp (ups p)) by (auto using incl_refl; rewrite app_length; cbn; lia). cbn [obind].
        rewrite (app_assoc cpre). rewrite (IH (rpre ++ [length cpre + Indexing_CSR]) (length cpre + Indexing_CSR + length (ups p)) junk rpost (cpre ++ map (fun q => gidx q + Indexing_CSR) (ups p)) c2 cpost).
        + unfold ulens, ucols. cbn [map psums concat]. rewrite <- !app_assoc. reflexivity.
        + intros; apply HI; right; auto.
        + rewrite app_length. cbn [length]. rewrite Nat.add_1_r. exact HS.
        + cbn in HJ. lia.
        + rewrite app_length, map_length. lia.
        + exact L2.
    Qed.

    Lemma fill_ok off rows cols : length rows = length (kidx all) + 1 -> off + list_sum (ulens (kidx (own r))) <= length cols -> (first_kernel (first r) = 0 -> off = 0) ->
      exists rpre rpost cpre cpost, fill_GGt D vs es (first_kernel (first r)) off rows cols = Ok (rpre ++ psums (off + Indexing_CSR) (ulens (kidx (own r))) ++ rpost, cpre ++ ucols (kidx (own r)) ++ cpost) /\
        length rpre = first_kernel (first r) /\ firstn 1 (rpre ++ psums (off + Indexing_CSR) (ulens (kidx (own r))) ++ rpost) = [Indexing_CSR] /\ length rpre + (length (kidx (own r)) + 1) + length rpost = length rows /\
        length cpre = off /\ length cpre + list_sum (ulens (kidx (own r))) + length cpost = length cols.
    Proof.
      intros LR LC H0. set (f := first_kernel (first r)) in *. assert (Room : f + length (kidx (own r)) <= length (kidx all)).
      { unfold f. rewrite first_kernel_length. destruct (ranks_le n first L nb cmap HC r Hr) as (A & B & C). unfold S_Feti.own, own_domains, all_of.
        replace (first n - first 0) with ((first r - first 0) + ((first (r + 1) - first r) + (first n - first (r + 1)))) by lia. rewrite !seq_app, !kidx_app, !app_length. replace (first 0 + (first r - first 0)) with (first r) by lia. lia. }
      unfold fill_GGt. destruct rows as [|x0 rows]; [cbn in LR; lia|]. change (wr (x0 :: rows) 0 Indexing_CSR) with (Ok (Indexing_CSR :: rows)). cbn [obind].
      assert (S1 : exists rpre x junk rpost, Indexing_CSR :: rows = rpre ++ x :: junk ++ rpost /\ length rpre = f /\ length junk = length (kidx (own r))).
      { exists (firstn f (Indexing_CSR :: rows)). destruct (skipn f (Indexing_CSR :: rows)) as [|x rest] eqn:E; [apply (f_equal (@length nat)) in E; rewrite skipn_length in E; cbn [length] in *; lia|]. exists x, (firstn (length (kidx (own r))) rest), (skipn (length (kidx (own r))) rest).
        rewrite firstn_skipn, <- E, firstn_skipn. repeat split; [rewrite firstn_length; cbn [length] in *; lia|]. rewrite firstn_length. apply (f_equal (@length nat)) in E. rewrite skipn_length in E. cbn [length] in *. lia. }
      destruct S1 as (rpre & x & junk & rpost & ES & L1 & L2). rewrite ES. rewrite (wr_app_at rpre) by auto. cbn [obind].
      assert (S2 : exists cpre cj cpost, cols = cpre ++ cj ++ cpost /\ length cpre = off /\ length cj = list_sum (ulens (kidx (own r)))).
      { exists (firstn off cols), (firstn (list_sum (ulens (kidx (own r)))) (skipn off cols)), (skipn (list_sum (ulens (kidx (own r)))) (skipn off cols)). rewrite !firstn_skipn. repeat split; rewrite ?firstn_length, ?skipn_length; lia. }
      destruct S2 as (cpre & cj & cpost & -> & C1 & C2). rewrite (over_rows_ok n first L nb cmap ksize HC r vs es Hr HG). exists rpre, rpost, cpre, cpost. split; [|split; [auto|split; [|split; [|split; [auto|]]]]].
      - apply fill_rows_ok; try lia; [intros (d, k) I; apply kidx_in in I; tauto|]. rewrite L1. apply (gidx_own n first L nb cmap ksize HC r Hr).
      - destruct rpre as [|y rpre]; [|cbn [app] in ES; injection ES as <- _; reflexivity]. cbn [length] in L1. rewrite (H0 (eq_sym L1)). cbn [app]. destruct (ulens (kidx (own r))); reflexivity.
      - apply (f_equal (@length nat)) in ES. rewrite !app_length in ES. cbn [length] in ES |- *. rewrite app_length in ES. lia.
      - rewrite !app_length. lia.
    Qed.
  End Rank.
End Pattern.
