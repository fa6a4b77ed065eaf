(** * Lemmas: the loops over the upper triangle of G G^T *)
From Coq Require Import List Arith Lia Bool.
From Verif Require Import Base M_Nb S_Nb M_Exchange M_Dual S_Dual L_Dual2 L_Dual4 M_DualGraph S_DualGraph L_DualGraph L_DualGraph3 L_DualGraph4 S_Feti L_TotalFeti
  M_Projector S_Projector L_Projector2 L_Projector3 M_ProjectorG S_ProjectorG L_ProjectorG L_ProjectorG2 L_ProjectorG3 M_ProjectorGGt S_ProjectorGGt.
Import ListNotations.
Local Open Scope out_scope.

Lemma foldM_filter {S A} (f : S -> A -> outcome S) (p : A -> bool) l : forall s, foldM (fun s x => if p x then f s x else Ok s) l s = foldM f (filter p l) s.
Proof. induction l as [|x l IH]; intros s; cbn [foldM filter]; auto. destruct (p x); cbn [foldM obind]; [|apply IH]. destruct (f s x); cbn [obind]; auto. Qed.
Lemma filter_flat_map {A B} (f : A -> list B) (p : B -> bool) l : filter p (flat_map f l) = flat_map (fun a => filter p (f a)) l.
Proof. induction l as [|a l IH]; cbn [flat_map]; auto. now rewrite filter_app, IH. Qed.
Lemma flat_map_filter {A B} (f : A -> list B) (p : A -> bool) l : flat_map f (filter p l) = flat_map (fun a => if p a then f a else []) l.
Proof. induction l as [|a l IH]; cbn [filter flat_map]; auto. destruct (p a); cbn [flat_map app]; now rewrite IH. Qed.
Lemma filter_map_comm {A B} (f : A -> B) (p : B -> bool) l : filter p (map f l) = map f (filter (fun x => p (f x)) l).
Proof. symmetry. apply map_filter_comm. Qed.

Section Loops.
  Variables (n : nat) (first : nat -> nat) (L : list (list nat)) (nb cmap : nat -> list nat) (ksize : nat -> nat).
  Hypothesis HC : consistent n first L nb cmap.
  Local Notation own := (S_Feti.own first).
  Local Notation all := (all_of n first).
  Local Notation kidx := (kidx ksize).
  Local Notation glued := (glued L (all_multipliers L)).
  Local Notation first_kernel := (first_kernel first ksize).

  (** the number of a kernel *)
  Definition gidx (q : nat * nat) : nat := first_kernel (fst q) + snd q.
  Lemma gidx_seq k : forall b, first 0 <= b -> map gidx (kidx (seq b k)) = seq (first_kernel b) (length (kidx (seq b k))).
  Proof.
    induction k as [|k IH]; intros b Hb; [reflexivity|]. unfold L_Projector2.kidx in *. cbn [seq flat_map]. rewrite map_app, app_length, seq_app, IH by lia. f_equal.
    - rewrite !map_length, map_map. unfold gidx. cbn [fst snd]. rewrite seq_length. generalize (first_kernel b) as o. induction (ksize b) as [|j IHj]; intros o; auto. rewrite !seq_S, map_app, IHj. reflexivity.
    - rewrite map_length, seq_length. rewrite first_kernel_S by auto. reflexivity.
  Qed.
  Lemma first_kernel_length d : first_kernel d = length (kidx (seq (first 0) (d - first 0))).
  Proof. unfold S_DualGraph.first_kernel, L_Projector2.kidx. induction (seq (first 0) (d - first 0)) as [|x l IH]; auto. cbn [map flat_map list_sum fold_right]. rewrite app_length, map_length, seq_length, <- IH. reflexivity. Qed.
  Lemma kidx_app a b : kidx (a ++ b) = kidx a ++ kidx b.
  Proof. apply flat_map_app. Qed.
  Lemma gidx_own r : r < n -> map gidx (kidx (own r)) = seq (first_kernel (first r)) (length (kidx (own r))).
  Proof. intros Hr. destruct (ranks_le n first L nb cmap HC r Hr) as (A & B & C). apply gidx_seq. exact A. Qed.
  Lemma gidx_all : map gidx (kidx all) = seq 0 (length (kidx all)).
  Proof. unfold all_of. rewrite gidx_seq by auto. f_equal. unfold S_DualGraph.first_kernel. now rewrite Nat.sub_diag. Qed.
  Lemma gidx_nth i d : i < length (kidx all) -> gidx (nth i (kidx all) d) = i.
  Proof. intros H. rewrite <- (map_nth gidx). rewrite gidx_all. rewrite (nth_indep _ _ 0) by (rewrite seq_length; auto). now rewrite seq_nth. Qed.
  Lemma nth_gidx q d : In q (kidx all) -> gidx q < length (kidx all) /\ nth (gidx q) (kidx all) d = q.
  Proof. intros I. apply (In_nth _ _ d) in I. destruct I as (i & Hi & <-). rewrite gidx_nth by auto. auto. Qed.

  (** the elements of the row of a kernel *)
  Definition ups (p : nat * nat) : list (nat * nat) := filter (fun q => glued (fst p) (fst q) && (gidx p <=? gidx q)) (kidx all).
  Lemma ups_in p q : In q (ups p) <-> In q (kidx all) /\ glued (fst p) (fst q) = true /\ gidx p <= gidx q.
  Proof. unfold ups. rewrite filter_In, andb_true_iff, Nat.leb_le. tauto. Qed.

  Section Rank.
    Variables (r : nat) (vs : smap vertex) (es : smap (list nat)).
    Hypothesis Hr : r < n.
    Hypothesis HG : graph_ok n first L nb ksize r (vs, es).
    Definition vert (d : nat) : vertex := match mget d vs with Some v => v | None => vertex0 end.
    Lemma vs_incr : incr (map fst vs).
    Proof. pose proof (g_keys _ _ _ _ _ _ _ HG) as K. cbn [fst] in K. rewrite K. apply incr_filter, incr_seq. Qed.
    Lemma vert_in d v : In (d, v) vs -> mget d vs = Some v /\ vert d = v.
    Proof. intros I. assert (E : mget d vs = Some v) by (apply in_mget; [apply vs_incr|auto]). unfold vert. rewrite E. auto. Qed.
    Lemma vert_ok d : visible first L r d = true -> mget d vs = Some (vert d) /\ In (d, vert d) vs /\ vertex_ok n first L nb ksize r d (vert d).
    Proof.
      intros V. assert (I : In d (map fst vs)). { pose proof (g_keys _ _ _ _ _ _ _ HG) as K. cbn [fst] in K. rewrite K. apply filter_In. split; auto. apply (visible_all n first L nb cmap HC r Hr d V). }
      apply in_map_iff in I. destruct I as ((x, v) & E & I). cbn [fst] in E. subst x. destruct (vert_in d v I) as (E1 & E2). rewrite E2. split; auto. split; auto. apply (g_vertices _ _ _ _ _ _ _ HG d v I).
    Qed.
    Lemma own_vis d : In d (own r) -> visible first L r d = true.
    Proof. intros H. apply (own_iff first) in H. apply visible_iff. auto. Qed.
    Lemma glued_vis d d' : In d (own r) -> glued d d' = true -> visible first L r d' = true.
    Proof. intros H G. apply (own_iff first) in H. apply visible_iff. right. exists d. auto. Qed.

    Lemma over_upper_ok {S} d kr (body : vertex -> nat -> S -> outcome S) st : In d (own r) ->
      over_upper vs es d (vert d) kr body st = foldM (fun st q => body (vert (fst q)) (snd q) st) (ups (d, kr)) st.
    Proof.
      intros Hd. unfold over_upper. pose proof (g_edges _ _ _ _ _ _ _ HG d) as E. cbn [snd] in E. rewrite E by (now apply (own_iff first)). clear E.
      transitivity (foldM (fun st q => body (vert (fst q)) (snd q) st) (flat_map (fun d' => filter (fun q => gidx (d, kr) <=? gidx q) (map (pair d') (seq 0 (ksize d')))) (filter (glued d) all)) st).
      - rewrite foldM_flat. apply L_TotalFeti.foldM_ext_in. intros s e He. apply filter_In in He. destruct He as (_ & He). destruct (vert_ok e (glued_vis d e Hd He)) as (E & _ & V). unfold mat. rewrite E. cbn [obind].
        rewrite (vo_ksize _ _ _ _ _ _ _ _ V). rewrite filter_map_comm, foldM_map. rewrite <- foldM_filter. apply L_TotalFeti.foldM_ext_in. intros s' k _. unfold gidx. cbn [fst snd].
        rewrite (vo_goffset _ _ _ _ _ _ _ _ V). destruct (vert_ok d (own_vis d Hd)) as (_ & _ & V'). rewrite (vo_goffset _ _ _ _ _ _ _ _ V'). reflexivity.
      - unfold ups. cbn [fst]. unfold L_Projector2.kidx. rewrite filter_flat_map, flat_map_filter. f_equal. apply flat_map_ext. intros d'. destruct (glued d d') eqn:E.
        + apply filter_ext_in. intros q Hq. apply in_map_iff in Hq. destruct Hq as (k & <- & _). cbn [fst]. now rewrite E.
        + symmetry. apply filter_none. intros q Hq. apply in_map_iff in Hq. destruct Hq as (k & <- & _). cbn [fst]. now rewrite E.
    Qed.
    Lemma over_rows_ok {S} (body : nat -> vertex -> nat -> S -> outcome S) st :
      over_rows (decomposed first nb r) vs body st = foldM (fun st p => body (fst p) (vert (fst p)) (snd p) st) (kidx (own r)) st.
    Proof.
      unfold over_rows. cbn [dbegin dend decomposed]. destruct (vertices_split n first L nb cmap ksize HC r (vs, es) Hr HG) as (lo & go & up & E & H1 & H2 & H3). cbn [fst] in E.
      assert (EG : below (first (r + 1)) (from_key (first r) vs) = go).
      { rewrite E. rewrite from_key_app by (intros d I; apply H1 in I; lia). rewrite (from_own n first L r Hr) by auto. apply below_app; [rewrite H2|rewrite H3]; intros d Hd.
        - apply in_seq in Hd. lia.
        - apply filter_In in Hd. destruct Hd as (Hd & _). apply in_seq in Hd. lia. }
      rewrite EG, <- H2. assert (IG : incl go vs) by (rewrite E; intros x Hx; apply in_or_app; right; apply in_or_app; auto). clear - HG HC Hr IG. revert st. induction go as [|(d, v) go IH]; intros st; [reflexivity|].
      cbn [map fst foldM snd]. unfold L_Projector2.kidx. cbn [flat_map]. rewrite foldM_app, foldM_map. cbn [fst snd]. assert (I : In (d, v) vs) by (apply IG; left; auto). destruct (vert_in d v I) as (_ & E). rewrite E. rewrite (vo_ksize _ _ _ _ _ _ _ _ (g_vertices _ _ _ _ _ _ _ HG d v I)).
      destruct (foldM _ _ st); cbn [obind]; auto. apply IH. intros x Hx. apply IG. right; auto.
    Qed.
  End Rank.
End Loops.
