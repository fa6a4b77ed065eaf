(** * C122 - C124: ranks of nodes, links of nodes, neighbours of elements *)
From Coq Require Import List Arith ZArith Bool Lia Sorted Permutation.
From Verif Require Import Base S_Order M_Utils M_Distributed M_DistMatrix M_DistApply M_NodeInfo S_NodeInfo M_Links S_Links L_Sort L_Equality L_Equality2 L_TotalFeti L_Fill2 L_Distributed L_NodeInfo L_NodeInfo5 L_Links L_Links3 L_Links5 L_Links6.
Import ListNotations.
Local Open Scope out_scope.

(** ** C122 *)

(** every node gets the increasing list of exactly those ranks that have it *)
Theorem nodes_duplication_exact : forall nbm ids, neighborhood nbm ids ->
  exists ranks, compute_nodes_duplication nbm ids = Ok ranks /\ length ranks = length ids /\
  forall r, r < length ids -> length (nth r ranks []) = length (nth r ids []) /\
    forall n, n < length (nth r ids []) -> StronglySorted lt (nth n (nth r ranks []) []) /\
      forall t, In t (nth n (nth r ranks []) []) <-> t < length ids /\ In (nth n (nth r ids []) 0) (nth t ids []).
Proof.
  intros nbm ids H. rewrite duplication_ok by auto. eexists. split; [reflexivity|]. split; [rewrite map_length, seq_length; auto|]. intros r Hr. rewrite nth_map_seq by auto. cbn [Nat.add]. split; [apply map_length|].
  intros n Hn. rewrite (L_Distributed.nth_map _ (nth r ids []) n [] 0) by auto. split; [apply ss_filter, (nh_increasing _ _ H); auto|].
  intros t. rewrite filter_In, mem_iff. split.
  - intros [Ht Hx]. split; auto. apply (nh_symmetric _ _ H r); auto.
  - intros [Ht Hx]. split; auto. apply (nh_common _ _ H r t (nth n (nth r ids []) 0)); auto. apply nth_In; auto.
Qed.

(** the nodes with these ranks are nodes that the exchange of data of nodes expects *)
Theorem duplication_shares_nodes : forall nbm ids ranks, neighborhood nbm ids -> compute_nodes_duplication nbm ids = Ok ranks -> shared_nodes (without_me nbm) (stores ids ranks).
Proof.
  intros nbm ids ranks H E. destruct (nodes_duplication_exact nbm ids H) as (ranks' & E' & Lr & Hr). rewrite E in E'. injection E' as <-. set (P := length ids) in *.
  assert (Ls : length (stores ids ranks) = P) by (unfold stores; rewrite map_length, combine_length; lia).
  assert (Ln : length nbm = P) by apply (nh_length _ _ H).
  assert (Es : forall r, r < P -> nth r (stores ids ranks) no_store = {| ns_ids := nth r ids []; ns_ranks := nth r ranks []; ns_nhalo := 0 |}).
  { intros r Hr'. unfold stores. rewrite (L_Distributed.nth_map _ _ r no_store ([], [])) by (rewrite combine_length; lia). rewrite combine_nth by lia. auto. }
  assert (Hin : forall s, In s (stores ids ranks) -> exists r, r < P /\ s = {| ns_ids := nth r ids []; ns_ranks := nth r ranks []; ns_nhalo := 0 |}).
  { intros s Hs. destruct (In_nth _ _ no_store Hs) as (r & Hr' & <-). exists r. split; [lia|apply Es; lia]. }
  assert (Hw : forall r, r < P -> nth r (without_me nbm) [] = filter (fun j => negb (j =? r)) (nth r nbm [])) by (intros r Hr'; unfold without_me; rewrite nth_map_seq by lia; auto).
  constructor.
  - unfold without_me. rewrite map_length, seq_length. lia.
  - intros s Hs. destruct (Hin s Hs) as (r & Hr' & ->). cbn [ns_ids ns_ranks]. split; [apply ss_nodup, (nh_ids _ _ H); auto|apply Hr; auto].
  - intros s n Hs Hn. destruct (Hin s Hs) as (r & Hr' & ->). cbn [ns_ids] in Hn. apply (Hr r Hr'); auto.
  - intros s n t Hs Hn. destruct (Hin s Hs) as (r & Hr' & ->). cbn [ns_ids] in Hn. unfold ranks_of, id_of. cbn [ns_ids ns_ranks]. rewrite Ls. rewrite (proj2 (proj2 (Hr r Hr') n Hn) t). split; intros [Ht Hx]; split; auto; [rewrite Es by auto|rewrite Es in Hx by auto]; auto.
  - intros r n t Hr' Hn Ht Ne. rewrite Ls in Hr'. rewrite Es in Hn, Ht by auto. cbn [ns_ids] in Hn. unfold ranks_of in Ht. cbn [ns_ranks] in Ht. apply (proj2 (proj2 (Hr r Hr') n Hn) t) in Ht. destruct Ht as [Ht Hx]. rewrite Hw by auto. apply filter_In. split; [|apply negb_true_iff, Nat.eqb_neq; auto].
    apply (nh_common _ _ H r t (nth n (nth r ids []) 0)); auto. apply nth_In; auto.
  - intros r Hr'. rewrite Ls in Hr'. rewrite Hw by auto. apply ss_filter, (nh_increasing _ _ H); auto.
  - intros r j Hr' Hj. rewrite Ls in *. rewrite Hw in Hj by auto. apply filter_In in Hj. destruct Hj as [Hj Ne]. apply negb_true_iff, Nat.eqb_neq in Ne. destruct (nh_symmetric _ _ H r j Hr' Hj) as [Lj Hs]. split; auto. split; auto. rewrite Hw by auto. apply filter_In. split; auto. apply negb_true_iff, Nat.eqb_neq; auto.
Qed.

(** ** C123 *)

(** the record of a node lists all elements of all ranks with the node, whatever the order of threads is *)
Theorem links_exact : forall sortp os nb ms, sort_contract pair_ltb sortp -> linked_mesh nb ms -> Forall2 any_order ms os -> used_last ms ->
  exists nes, link_nodes_and_elements sortp os nb ms = Ok nes /\ Forall2 (fun m ne => linked_nodes (mesh_elements ms) (rm_nodes m) ne) ms nes.
Proof. intros. apply links_ok; auto. Qed.

Lemma linked_unique es s ne ne' : linked_nodes es s ne -> linked_nodes es s ne' -> ne = ne'.
Proof.
  intros (A1 & A2 & A3) (B1 & B2 & B3). destruct (list_eq_dec Nat.eq_dec (ns_ids s) []) as [Z|Z]; [rewrite (A2 Z), (B2 Z); auto|].
  destruct (A1 Z) as (LA & HA & TA). destruct (B1 Z) as (LB & HB & TB). set (N := length (ns_ids s)) in *.
  assert (Rec : forall n, n < N -> exists l, record ne n = Ok l /\ record ne' n = Ok l).
  { intros n Hn. destruct (A3 n Hn) as (l & El & Sl & Pl). destruct (B3 n Hn) as (l' & El' & Sl' & Pl'). assert (l = l'); [|subst; exists l'; auto]. clear - Sl Sl' Pl Pl'.
    assert (Pm : Permutation l l') by (apply (Permutation_trans Pl), Permutation_sym; auto). clear Pl Pl'. revert l' Sl' Pm. induction Sl as [|a l Sl IH F]; intros l' Sl' Pm; [apply Permutation_nil in Pm; auto|]. rewrite Forall_forall in F.
    destruct Sl' as [|b l' Sl' F']; [apply Permutation_sym, Permutation_nil in Pm; discriminate|]. rewrite Forall_forall in F'.
    assert (a = b). { assert (Ha : In a (b :: l')) by (apply (Permutation_in _ Pm); left; auto). assert (Hb : In b (a :: l)) by (apply (Permutation_in _ (Permutation_sym Pm)); left; auto). destruct Ha as [->|Ha]; auto. destruct Hb as [->|Hb]; auto. specialize (F b Hb). specialize (F' a Ha). lia. }
    subst b. f_equal. apply IH; auto. apply Permutation_cons_inv in Pm. auto. }
  assert (Rd : forall ne n l, record ne n = Ok l -> nth (n + 1) (fst ne) 0 = nth n (fst ne) 0 + length l /\ l = slice (nth n (fst ne) 0) (nth (n + 1) (fst ne) 0) (snd ne) /\ nth (n + 1) (fst ne) 0 <= length (snd ne)).
  { clear. intros ne n l H. unfold record in H. destruct (rd (fst ne) n) as [a| |] eqn:E1; try discriminate. destruct (rd (fst ne) (n + 1)) as [b| |] eqn:E2; try discriminate. cbn [obind] in H. unfold rd in E1, E2. destruct (nth_error (fst ne) n) as [a'|] eqn:Q1; try discriminate. destruct (nth_error (fst ne) (n + 1)) as [b'|] eqn:Q2; try discriminate.
    injection E1 as E1. injection E2 as E2. subst a' b'. rewrite (nth_error_nth _ _ 0 Q1), (nth_error_nth _ _ 0 Q2). destruct (Nat.ltb_spec b a); try discriminate. destruct (Nat.ltb_spec (length (snd ne)) b); try discriminate. cbn [orb] in H. injection H as <-. split; [|auto]. unfold slice. rewrite firstn_length, skipn_length. lia. }
  assert (Bd : forall n, n <= N -> nth n (fst ne) 0 = nth n (fst ne') 0 /\ firstn (nth n (fst ne) 0) (snd ne) = firstn (nth n (fst ne') 0) (snd ne')).
  { induction n as [|n IH]; intros Hn.
    - destruct (fst ne) as [|a la]; [cbn in LA; lia|]. destruct (fst ne') as [|b lb]; [cbn in LB; lia|]. cbn in HA, HB |- *. subst. auto.
    - destruct (IH ltac:(lia)) as [I1 I2]. destruct (Rec n ltac:(lia)) as (l & R1 & R2). apply Rd in R1, R2. replace (S n) with (n + 1) by lia. destruct R1 as (U1 & U2 & U3), R2 as (V1 & V2 & V3). split; [lia|].
      assert (Sp : forall (x : list nat) a b, a <= b -> firstn b x = firstn a x ++ slice a b x). { clear. intros x a b Hab. unfold slice. replace b with (a + (b - a)) at 1 by lia. rewrite <- (firstn_skipn a x) at 1. rewrite firstn_app. rewrite firstn_firstn. rewrite firstn_length. replace (Nat.min (a + (b - a)) a) with a by lia. f_equal.
        destruct (Nat.le_ge_cases a (length x)); [f_equal; lia|]. rewrite skipn_all2 by lia. rewrite !firstn_nil. auto. }
      rewrite (Sp (snd ne) (nth n (fst ne) 0)) by lia. rewrite (Sp (snd ne') (nth n (fst ne') 0)) by lia. f_equal; congruence. }
  destruct ne as [fa da], ne' as [fb db]. cbn [fst snd] in *. f_equal.
  - apply (nth_ext _ _ 0 0); [lia|]. intros n Hn. apply Bd. lia.
  - destruct (Bd N (Nat.le_refl _)) as [I1 I2]. assert (QA : nth N fa 0 = length da). { rewrite <- TA, L_Merge.last_nth by (intros ->; cbn in LA; lia). f_equal. lia. } assert (QB : nth N fb 0 = length db). { rewrite <- TB, L_Merge.last_nth by (intros ->; cbn in LB; lia). f_equal. lia. }
    rewrite QA, QB, !firstn_all in I2. auto.
Qed.
(** the result does not depend on the number of threads, the distribution to threads, and the order of their work *)
Theorem links_independent_of_threads : forall sortp sortp' os os' nb ms ms', sort_contract pair_ltb sortp -> sort_contract pair_ltb sortp' ->
  linked_mesh nb ms -> linked_mesh nb ms' -> Forall2 any_order ms os -> Forall2 any_order ms' os' -> used_last ms ->
  map rm_nodes ms = map rm_nodes ms' -> map rank_elements ms = map rank_elements ms' ->
  link_nodes_and_elements sortp os nb ms = link_nodes_and_elements sortp' os' nb ms'.
Proof.
  intros sortp sortp' os os' nb ms ms' H1 H2 L1 L2 O1 O2 U En Ee.
  assert (Em : mesh_elements ms = mesh_elements ms') by (unfold mesh_elements; rewrite !flat_map_concat_map, Ee; auto).
  assert (U' : used_last ms'). { intros m Hm Z. assert (Hs : In (rm_nodes m) (map rm_nodes ms)) by (rewrite En; apply in_map; auto). apply in_map_iff in Hs. destruct Hs as (m0 & E0 & H0). rewrite <- E0 in *. rewrite <- Em. apply U; auto. }
  destruct (links_exact sortp os nb ms H1 L1 O1 U) as (nes & E1 & F1). destruct (links_exact sortp' os' nb ms' H2 L2 O2 U') as (nes' & E2 & F2). rewrite E1, E2. f_equal. rewrite <- Em in F2. generalize dependent (mesh_elements ms). intros es _ F1 F2. clear - F1 F2 En.
  revert ms' En nes' F2. induction F1 as [|m ne ms nes Hm F1 IH]; intros [|m' ms'] En nes' F2; try discriminate; inversion F2; subst; auto. cbn [map] in En. injection En as E0 En. f_equal; [|apply (IH ms'); auto]. apply (linked_unique es (rm_nodes m)); auto. rewrite E0. auto.
Qed.

(** ** C124 *)

Lemma neighbors_call insert sortp os nb ms faces nes : link_nodes_and_elements sortp os nb ms = Ok nes -> Forall2 given_faces ms faces ->
  compute_elements_neighbors insert sortp os nb ms faces =
  mapM (fun x : (list nat * list nat) * (rank_mesh * list (list (list (list nat)))) => mapM (fun y : (nat * list nat) * list (list nat) => element_neighbors insert (fst x) (fst y) (snd y)) (combine (concat (rm_elements (fst (snd x)))) (concat (snd (snd x))))) (combine nes (combine ms faces)).
Proof.
  intros E F. unfold compute_elements_neighbors. rewrite E. cbn [obind]. clear E. revert nes. induction F as [|m f ms faces Hf F IH]; intros nes; [destruct nes; auto|]. destruct nes as [|ne nes]; auto. cbn [combine mapM fst snd]. rewrite rank_neighbors_flat by apply Hf. rewrite IH. auto.
Qed.
Lemma element_faces_eq m fs : element_faces m fs = map (fun y => (global (rm_nodes m) (fst y), snd y)) (combine (concat (rm_elements m)) (concat fs)).
Proof. unfold element_faces, rank_elements. generalize (concat (rm_elements m)) (concat fs). induction l as [|e l IH]; intros [|f l0]; auto. cbn [map combine fst snd]. rewrite IH. auto. Qed.
Lemma Forall2_map_l {A A' B} (R : A' -> B -> Prop) (f : A -> A') l l' : Forall2 (fun a b => R (f a) b) l l' -> Forall2 R (map f l) l'.
Proof. induction 1; cbn [map]; constructor; auto. Qed.

Section Neighbors.
  Context (sortp : list (nat * nat) -> list (nat * nat)) (os : list rank_order) (nb : list (list nat)) (ms : list rank_mesh) (faces : list (list (list (list (list nat))))).
  Hypothesis (Hs : sort_contract pair_ltb sortp) (LM : linked_mesh nb ms) (AO : Forall2 any_order ms os) (U : used_last ms) (RM : regular_mesh ms) (GF : Forall2 given_faces ms faces).

  Lemma rank_case nes : Forall2 (fun m ne => linked_nodes (mesh_elements ms) (rm_nodes m) ne) ms nes -> forall x, In x (combine nes (combine ms faces)) ->
    In (snd x) (combine ms faces) /\ linked_nodes (mesh_elements ms) (rm_nodes (fst (snd x))) (fst x) /\ forall y, In y (combine (concat (rm_elements (fst (snd x)))) (concat (snd (snd x)))) ->
      In (global (rm_nodes (fst (snd x))) (fst y), snd y) (element_faces (fst (snd x)) (snd (snd x))) /\
      exists ls, sharing_faces (mesh_elements ms) (global (rm_nodes (fst (snd x))) (fst y)) (snd y) ls /\ Forall2 (fun f l => across_interface (fst x) (fst (fst y)) (snd (fst y)) f = Ok l) (snd y) ls.
  Proof.
    intros F x Hx. assert (Hin : In (snd x) (combine ms faces)) by (destruct x; apply (in_combine_r _ _ _ _ Hx)).
    assert (Hl : linked_nodes (mesh_elements ms) (rm_nodes (fst (snd x))) (fst x) /\ given_faces (fst (snd x)) (snd (snd x)) /\ In (fst (snd x)) ms).
    { clear - F GF Hx. generalize dependent (mesh_elements ms). intros es F. revert faces GF Hx. induction F as [|m ne ms nes Hm F IH]; intros faces GF Hx; [destruct Hx|]. inversion GF as [|? f ? fs G1 G2]; subst. cbn [combine] in Hx. destruct Hx as [<-|Hx]; cbn [fst snd]; [split; auto; split; auto; left; auto|].
      destruct (IH fs G2 Hx) as (? & ? & ?). split; auto. split; auto. right; auto. }
    destruct Hl as (Hl & Hg & Hm). split; auto. split; auto. intros y Hy. split.
    - rewrite element_faces_eq. apply in_map_iff. exists y. auto.
    - apply sharing_exists; [apply RM|apply RM|auto|]. split.
      + apply (lm_valid _ _ LM (fst (snd x))); auto. destruct y. apply (in_combine_l _ _ _ _ Hy).
      + destruct Hg as [_ Hg]. intros f Hf. apply (Hg (fst y) (snd y)); auto. destruct y; auto.
  Qed.
  Lemma tie (nes : list (list nat * list nat)) (Q : rank_mesh * list (list (list (list nat))) -> list (list Z) -> Prop) rows : length nes = length ms -> Forall2 (fun x rs => Q (snd x) rs) (combine nes (combine ms faces)) rows -> Forall2 Q (combine ms faces) rows.
  Proof.
    intros L F. assert (Lf : length faces = length ms) by (apply (forall2_len _ _ _ GF)). assert (E : map snd (combine nes (combine ms faces)) = combine ms faces).
    { assert (Lc : length nes = length (combine ms faces)) by (rewrite combine_length; lia). clear - Lc. generalize dependent (combine ms faces). induction nes as [|a nes IH]; intros [|b l] H; try discriminate; auto. cbn [combine map snd]. f_equal. apply IH. cbn in H. lia. }
    rewrite <- E. apply Forall2_map_l. auto.
  Qed.
  Theorem edge_neighbors_exact : exists rows, compute_elements_neighbors true sortp os nb ms faces = Ok rows /\ stored_neighbors ms faces all_neighbors rows.
  Proof.
    destruct (links_exact sortp os nb ms Hs LM AO U) as (nes & E & F). rewrite (neighbors_call _ _ _ _ _ _ nes) by auto.
    match goal with |- exists rows, mapM ?g ?l = _ /\ _ => destruct (mapM_rel g (fun x rs => Forall2 (fun ef d => exists ls, sharing_faces (mesh_elements ms) (fst ef) (snd ef) ls /\ d = all_neighbors ls) (element_faces (fst (snd x)) (snd (snd x))) rs) l) as (rows & Er & Fr) end.
    - intros x Hx. destruct (rank_case nes F x Hx) as (H1 & H2 & H3).
      match goal with |- exists b, mapM ?g ?l = _ /\ _ => destruct (mapM_rel g (fun y d => exists ls, sharing_faces (mesh_elements ms) (global (rm_nodes (fst (snd x))) (fst y)) (snd y) ls /\ d = all_neighbors ls) l) as (rs & Ers & Frs) end.
      + intros y Hy. destruct (H3 y Hy) as (_ & ls & S & A). exists (all_neighbors ls). split; [apply edge_element; auto|]. exists ls. auto.
      + exists rs. split; auto. rewrite element_faces_eq. apply Forall2_map_l. auto.
    - exists rows. split; auto. apply (tie nes); auto. apply (forall2_len _ _ _ F).
  Qed.
  Lemma sharing_unique es id face l l' : sharing es id face l -> sharing es id face l' -> l = l'.
  Proof. intros [S1 H1] [S2 H2]. apply L_Numbering.ss_ext; auto. intros x. rewrite H1, H2. tauto. Qed.
  Lemma shared_faces_of (x : (list nat * list nat) * (rank_mesh * list (list (list (list nat))))) (y : (nat * list nat) * list (list nat)) ls : In (snd x) (combine ms faces) -> In (global (rm_nodes (fst (snd x))) (fst y), snd y) (element_faces (fst (snd x)) (snd (snd x))) ->
    sharing_faces (mesh_elements ms) (global (rm_nodes (fst (snd x))) (fst y)) (snd y) ls -> forall l, In l ls -> shared_face ms faces l.
  Proof.
    intros H1 H2 S l Hl. assert (Hf : exists f, In f (snd y) /\ sharing (mesh_elements ms) (fst (fst y)) (face_nodes (global (rm_nodes (fst (snd x))) (fst y)) f) l).
    { unfold sharing_faces in S. clear - S Hl. induction S as [|f l0 fs ls H S IH]; [destruct Hl|]. destruct Hl as [->|Hl]; [exists f; split; auto; left; auto|]. destruct (IH Hl) as (f' & ? & ?). exists f'. split; auto. right; auto. }
    destruct Hf as (f & Hf & Sf). exists (fst (snd x)), (snd (snd x)), (global (rm_nodes (fst (snd x))) (fst y)), (snd y), f. split; [destruct (snd x); auto|]. auto.
  Qed.
  Theorem face_neighbors_exact : (forall l, shared_face ms faces l -> length l <= 1) ->
    exists rows, compute_elements_neighbors false sortp os nb ms faces = Ok rows /\ stored_neighbors ms faces one_neighbor rows.
  Proof.
    intros H0. destruct (links_exact sortp os nb ms Hs LM AO U) as (nes & E & F). rewrite (neighbors_call _ _ _ _ _ _ nes) by auto.
    match goal with |- exists rows, mapM ?g ?l = _ /\ _ => destruct (mapM_rel g (fun x rs => Forall2 (fun ef d => exists ls, sharing_faces (mesh_elements ms) (fst ef) (snd ef) ls /\ d = one_neighbor ls) (element_faces (fst (snd x)) (snd (snd x))) rs) l) as (rows & Er & Fr) end.
    - intros x Hx. destruct (rank_case nes F x Hx) as (H1 & H2 & H3).
      match goal with |- exists b, mapM ?g ?l = _ /\ _ => destruct (mapM_rel g (fun y d => exists ls, sharing_faces (mesh_elements ms) (global (rm_nodes (fst (snd x))) (fst y)) (snd y) ls /\ d = one_neighbor ls) l) as (rs & Ers & Frs) end.
      + intros y Hy. destruct (H3 y Hy) as (Hy' & ls & S & A). exists (one_neighbor ls). split; [apply face_element; auto; apply Forall_forall; intros l Hl; apply H0; apply (shared_faces_of x y ls); auto|]. exists ls. auto.
      + exists rs. split; auto. rewrite element_faces_eq. apply Forall2_map_l. auto.
    - exists rows. split; auto. apply (tie nes); auto. apply (forall2_len _ _ _ F).
  Qed.
  (** an input with a face of at least three elements is refused *)
  Theorem face_neighbors_refused : (exists l, shared_face ms faces l /\ 2 <= length l) -> compute_elements_neighbors false sortp os nb ms faces = Fail.
  Proof.
    intros (l & (m & fs & e & ef & f & H1 & H2 & H3 & S) & Ll). destruct (links_exact sortp os nb ms Hs LM AO U) as (nes & E & F). rewrite (neighbors_call _ _ _ _ _ _ nes) by auto.
    assert (Case : forall x y, In x (combine nes (combine ms faces)) -> In y (combine (concat (rm_elements (fst (snd x)))) (concat (snd (snd x)))) -> (exists d, element_neighbors false (fst x) (fst y) (snd y) = Ok d) \/ element_neighbors false (fst x) (fst y) (snd y) = Fail).
    { intros x y Hx Hy. destruct (rank_case nes F x Hx) as (_ & _ & Q). destruct (Q y Hy) as (_ & ls & _ & A). destruct (Forall_Exists_dec (fun l => length l <= 1) (fun l => le_dec (length l) 1) ls) as [D|D]; [left; eexists; apply face_element; eauto|right; apply (face_element_stop (fst x) (fst y) (snd y) ls); auto].
      apply Exists_exists in D. destruct D as (l0 & I0 & D0). apply Exists_exists. exists l0. split; auto. lia. }
    assert (Hx : exists x, In x (combine nes (combine ms faces)) /\ snd x = (m, fs)).
    { assert (Lf : length faces = length ms) by (apply (forall2_len _ _ _ GF)). assert (Ln : length nes = length ms) by (apply (forall2_len _ _ _ F)). assert (Lc : length nes = length (combine ms faces)) by (rewrite combine_length; lia).
      destruct (In_nth _ _ (m, fs) H1) as (k & Hk & Ek). exists (nth k nes ([], []), (m, fs)). split; auto. rewrite <- Ek. rewrite <- combine_nth by auto. apply nth_In. rewrite combine_length. lia. }
    destruct Hx as (x & Hx & Ex). destruct (rank_case nes F x Hx) as (Q1 & _ & Q). rewrite Ex in Q. cbn [fst snd] in Q.
    rewrite element_faces_eq in H2. apply in_map_iff in H2. destruct H2 as (y & Ey & Hy). injection Ey as <- <-. destruct (Q y Hy) as (_ & ls & Sls & A).
    apply mapM_stop.
    - intros x' Hx'. match goal with |- (exists b, mapM ?g ?l = _) \/ _ => set (gg := g); set (ll := l) end. assert (D : (forall a, In a ll -> exists b, gg a = Ok b) \/ exists a, In a ll /\ gg a = Fail).
      { assert (C : forall a, In a ll -> (exists b, gg a = Ok b) \/ gg a = Fail) by (intros a Ha; apply Case; auto). clear - C. induction ll as [|a ll IH]; [left; intros a []|]. destruct (C a (or_introl eq_refl)) as [Ca|Ca]; [|right; exists a; split; auto; left; auto]. destruct IH as [D|(b & Hb & Eb)]; [intros; apply C; right; auto| |].
        - left. intros b [<-|Hb]; auto.
        - right. exists b. split; auto. right; auto. }
      destruct D as [D|D]; [left|right; apply mapM_stop; auto; intros a Ha; apply Case; auto]. destruct (mapM_rel gg (fun _ _ => True) ll) as (bs & Eb & _); [intros a Ha; destruct (D a Ha) as (b & Eb); exists b; auto|]. exists bs. auto.
    - exists x. split; auto. apply mapM_stop; [intros y' Hy'; apply Case; auto|]. exists y. split; [rewrite Ex; auto|]. apply (face_element_stop (fst x) (fst y) (snd y) ls); auto. apply Exists_exists. exists l. split; auto.
      unfold sharing_faces in Sls. clear - Sls H3 S. induction Sls as [|f' l' fs ls H Sls IH]; [destruct H3|]. destruct H3 as [->|H3]; [left; apply (sharing_unique _ _ _ _ _ H S)|right; auto].
  Qed.
End Neighbors.

(** ** Examples *)
Definition rev_order (n k : nat) : rank_order := {| ro_fill := rev (seq 0 n); ro_sort := rev (seq 0 n); ro_merge := fun _ n => rev (seq 0 n); ro_send := rev (seq 0 k); ro_join := fun _ n => rev (seq 0 n) |}.
Lemma rev_order_any m : any_order m (rev_order (length (rm_elements m)) (length (rm_ndist m) - 1)).
Proof. assert (H : forall n, parallel_order n (rev (seq 0 n))) by (intros n; apply Permutation_sym, Permutation_rev). constructor; cbn; auto. Qed.
Definition rev_orders (ms : list rank_mesh) : list rank_order := map (fun m => rev_order (length (rm_elements m)) (length (rm_ndist m) - 1)) ms.
Lemma rev_orders_any ms : Forall2 any_order ms (rev_orders ms).
Proof. induction ms as [|m ms IH]; constructor; auto. apply rev_order_any. Qed.

(** two quadrilaterals and a triangle; the second rank has the second quadrilateral *)
Definition ex_nbm : list (list nat) := [[0; 1]; [0; 1]].
Definition ex_ids : list (list nat) := [[0; 1; 3; 4; 6]; [1; 2; 4; 5]].
Definition ex_ranks : list (list (list nat)) := [[[0]; [0; 1]; [0]; [0; 1]; [0]]; [[0; 1]; [1]; [0; 1]; [1]]].
Ltac sorted_literal := repeat (constructor; [|repeat (constructor; try lia)]); constructor.
Ltac each_rank r H := let k := fresh in destruct r as [|[|k]]; [| |cbn in H; lia]; clear H.
Example ex_neighborhood : neighborhood ex_nbm ex_ids.
Proof.
  constructor.
  - auto.
  - intros r H. each_rank r H; sorted_literal.
  - intros r H. each_rank r H; sorted_literal.
  - intros r j H Hj. each_rank r H; cbn in Hj; destruct Hj as [<-|[<-|[]]]; cbn; auto.
  - intros r t x H Ht _ _. each_rank r H; each_rank t Ht; cbn; auto.
  - intros r H. each_rank r H; cbn; auto.
Qed.
Example ex_duplication : compute_nodes_duplication ex_nbm ex_ids = Ok ex_ranks.
Proof. reflexivity. Qed.
Definition ex_mesh : list rank_mesh :=
  [{| rm_nodes := {| ns_ids := [0; 1; 3; 4; 6]; ns_ranks := [[0]; [0; 1]; [0]; [0; 1]; [0]]; ns_nhalo := 0 |}; rm_ndist := [0; 2; 5]; rm_elements := [[(10, [0; 1; 3; 2])]; [(11, [2; 3; 4])]] |};
   {| rm_nodes := {| ns_ids := [1; 2; 4; 5]; ns_ranks := [[0; 1]; [1]; [0; 1]; [1]]; ns_nhalo := 0 |}; rm_ndist := [0; 4; 4]; rm_elements := [[(20, [0; 1; 3; 2])]; []] |}].
Ltac mono_literal := let i := fresh in let j := fresh in let Hij := fresh in intros i j Hij; cbn in Hij; do 6 (destruct j as [|j]; [do 6 (destruct i as [|i]; [cbn; lia|]); lia|]); lia.
Example ex_linked : linked_mesh (without_me ex_nbm) ex_mesh.
Proof.
  constructor.
  - apply (duplication_shares_nodes ex_nbm ex_ids ex_ranks ex_neighborhood ex_duplication).
  - intros m [<-|[<-|[]]]; cbn; sorted_literal.
  - intros m [<-|[<-|[]]]; repeat split; cbn; auto; try lia; mono_literal.
  - intros m e [<-|[<-|[]]] He n Hn; cbn in He, Hn |- *; repeat (destruct He as [<-|He]; [cbn in Hn; lia|]); destruct He.
Qed.
Example ex_used : used_last ex_mesh.
Proof. intros m [<-|[<-|[]]] _; [exists (11, [3; 4; 6])|exists (20, [1; 2; 5; 4])]; cbn; auto 10. Qed.
Example ex_links : link_nodes_and_elements (isort pair_ltb) (rev_orders ex_mesh) (without_me ex_nbm) ex_mesh =
  Ok [([0; 1; 3; 5; 8; 9], [10; 10; 20; 10; 11; 10; 11; 20; 11]); ([0; 2; 3; 6; 7], [10; 20; 20; 10; 11; 20; 20])].
Proof. reflexivity. Qed.
Definition quad_edges : list (list nat) := [[0; 1]; [1; 2]; [2; 3]; [3; 0]].
Definition triangle_edges : list (list nat) := [[0; 1]; [1; 2]; [2; 0]].
Definition ex_faces : list (list (list (list (list nat)))) := [[[quad_edges]; [triangle_edges]]; [[quad_edges]; []]].
Example ex_regular : regular_mesh ex_mesh.
Proof. split; [repeat (constructor; [cbn; intuition lia|]); constructor|]. intros e He. cbn in He. destruct He as [<-|[<-|[<-|[]]]]; cbn; repeat (constructor; [cbn; intuition lia|]); constructor. Qed.
Example ex_given : Forall2 given_faces ex_mesh ex_faces.
Proof.
  repeat constructor; cbn in *; repeat match goal with H : _ \/ _ |- _ => destruct H | H : (_, _) = (_, _) |- _ => injection H as <- <- | H : In _ _ |- _ => cbn in H | H : False |- _ => destruct H end; subst; try discriminate; cbn; try lia.
Qed.
Example ex_edges : compute_elements_neighbors true (isort pair_ltb) (rev_orders ex_mesh) (without_me ex_nbm) ex_mesh ex_faces =
  Ok [[[0; 1; 20; 1; 11; 0]; [1; 10; 0; 0]]; [[0; 0; 0; 1; 10]]]%Z.
Proof. reflexivity. Qed.
Example ex_one : compute_elements_neighbors false (isort pair_ltb) (rev_orders ex_mesh) (without_me ex_nbm) ex_mesh ex_faces =
  Ok [[[-1; 20; 11; -1]; [10; -1; -1]]; [[-1; -1; -1; 10]]]%Z.
Proof. reflexivity. Qed.
(** at most one other element at every face, decided *)
Definition at_most_one (ms : list rank_mesh) (faces : list (list (list (list (list nat))))) : bool :=
  forallb (fun mf => forallb (fun ef => forallb (fun f => length (filter (fun e => negb (fst e =? fst (fst ef)) && forallb (fun x => mem x (snd e)) (face_nodes (fst ef) f)) (mesh_elements ms)) <=? 1) (snd ef)) (element_faces (fst mf) (snd mf))) (combine ms faces).
Lemma at_most_one_ok ms faces : at_most_one ms faces = true -> forall l, shared_face ms faces l -> length l <= 1.
Proof.
  intros H l (m & fs & e & ef & f & H1 & H2 & H3 & S & HS). unfold at_most_one in H. rewrite forallb_forall in H. specialize (H _ H1). cbn [fst snd] in H. rewrite forallb_forall in H. specialize (H _ H2). cbn [fst snd] in H. rewrite forallb_forall in H. specialize (H _ H3). apply Nat.leb_le in H.
  refine (Nat.le_trans _ _ _ _ H). rewrite <- (map_length fst). apply NoDup_incl_length; [apply ss_nodup; auto|]. intros i Hi. apply HS in Hi. destruct Hi as (Ne & nodes & Hn & Hi). apply in_map_iff. exists (i, nodes). split; auto. apply filter_In. split; auto. cbn [fst snd]. apply andb_true_iff. split; [apply negb_true_iff, Nat.eqb_neq; auto|].
  apply forallb_forall. intros x Hx. apply mem_iff. auto.
Qed.
Example ex_simple : forall l, shared_face ex_mesh ex_faces l -> length l <= 1.
Proof. apply at_most_one_ok. reflexivity. Qed.
(** three triangles with a common edge *)
Definition ex_fan : list rank_mesh := [{| rm_nodes := {| ns_ids := [0; 1; 2; 3; 4]; ns_ranks := [[0]; [0]; [0]; [0]; [0]]; ns_nhalo := 0 |}; rm_ndist := [0; 5]; rm_elements := [[(0, [0; 1; 2]); (1, [0; 1; 3]); (2, [0; 1; 4])]] |}].
Example ex_refused : shared_face ex_fan [[[triangle_edges; triangle_edges; triangle_edges]]] [1; 2] /\
  compute_elements_neighbors false (isort pair_ltb) (rev_orders ex_fan) [[]] ex_fan [[[triangle_edges; triangle_edges; triangle_edges]]] = Fail.
Proof.
  split; [|reflexivity]. exists (nth 0 ex_fan no_mesh), [[triangle_edges; triangle_edges; triangle_edges]], (0, [0; 1; 2]), triangle_edges, [0; 1]. split; [cbn; auto|]. split; [cbn; auto|]. split; [cbn; auto|]. split; [sorted_literal|]. intros i. split.
  - intros [<-|[<-|[]]]; (split; [discriminate|]); [exists [0; 1; 3]|exists [0; 1; 4]]; (split; [cbn; auto|]); intros x [<-|[<-|[]]]; cbn; auto.
  - intros (Ne & nodes & [E|[E|[E|[]]]] & _); injection E as <- _; cbn; auto.
Qed.

(** ** Refuted: every node of a mesh has a record *)
Definition one_rank (ids dist : list nat) (elements : list (nat * list nat)) : list rank_mesh := [{| rm_nodes := {| ns_ids := ids; ns_ranks := map (fun _ => [0]) ids; ns_nhalo := 0 |}; rm_ndist := dist; rm_elements := [elements] |}].
Lemma one_rank_linked ids dist elements : StronglySorted lt ids -> thread_parts (length ids) dist -> (forall e, In e elements -> forall n, In n (snd e) -> n < length ids) -> linked_mesh [[]] (one_rank ids dist elements).
Proof.
  intros S TP V. constructor.
  - assert (NH : neighborhood [[0]] [ids]).
    { constructor; cbn; auto.
      - intros r H. assert (r = 0) by lia. subst. auto.
      - intros r H. assert (r = 0) by lia. subst. cbn. repeat constructor.
      - intros r j H Hj. assert (r = 0) by lia. subst. destruct Hj as [<-|[]]. cbn. auto.
      - intros r t x H Ht _ _. assert (r = 0) by lia. assert (t = 0) by lia. subst. cbn. auto.
      - intros r H. assert (r = 0) by lia. subst. cbn. auto. }
    assert (E : compute_nodes_duplication [[0]] [ids] = Ok [map (fun _ => [0]) ids]).
    { rewrite duplication_ok by auto. cbn [length seq map nth]. do 2 f_equal. apply map_ext_in. intros x Hx. cbn [filter]. rewrite (proj2 (mem_iff x ids)); auto. }
    apply (duplication_shares_nodes _ _ _ NH E).
  - intros m [<-|[]]. auto.
  - intros m [<-|[]]. auto.
  - intros m e [<-|[]] He n Hn. cbn in He. rewrite app_nil_r in He. cbn. apply (V e); auto.
Qed.
(** the last node is in no element: it has no record *)
Theorem record_of_every_node_refuted : exists os nb ms ne, linked_mesh nb ms /\ Forall2 any_order ms os /\ link_nodes_and_elements (isort pair_ltb) os nb ms = Ok [ne] /\
  exists n, n < length (ns_ids (rm_nodes (hd no_mesh ms))) /\ record ne n = UB.
Proof.
  exists (rev_orders (one_rank [0; 1; 2; 7] [0; 4] [(0, [0; 1; 2])])), [[]], (one_rank [0; 1; 2; 7] [0; 4] [(0, [0; 1; 2])]), ([0; 1; 2; 3], [0; 0; 0]). split; [|split; [apply rev_orders_any|split; [reflexivity|exists 3; split; [cbn; lia|reflexivity]]]].
  apply one_rank_linked; [sorted_literal|repeat split; cbn; try lia; mono_literal|]. intros e [<-|[]] n Hn. cbn in *. lia.
Qed.

(** ** Refuted: an element that lists a node twice does not hinder the search for neighbours *)
Theorem degenerate_element_refuted : exists os nb ms faces, linked_mesh nb ms /\ Forall2 any_order ms os /\ used_last ms /\ NoDup (map fst (mesh_elements ms)) /\ Forall2 given_faces ms faces /\
  (forall l, shared_face ms faces l -> length l <= 1) /\ compute_elements_neighbors false (isort pair_ltb) os nb ms faces = Fail.
Proof.
  set (ms := one_rank [0; 1; 2; 3] [0; 4] [(11, [0; 1; 2; 2]); (12, [2; 1; 3])]).
  exists (rev_orders ms), [[]], ms, [[[[[0; 1]; [1; 2]; [3; 0]]; triangle_edges]]]. split; [|split; [apply rev_orders_any|split; [|split; [|split; [|split; [|reflexivity]]]]]].
  - apply one_rank_linked; [sorted_literal|repeat split; cbn; try lia; mono_literal|]. intros e [<-|[<-|[]]] n Hn; cbn in *; lia.
  - intros m [<-|[]] _. exists (12, [2; 1; 3]). cbn; auto.
  - cbn. repeat (constructor; [cbn; intuition lia|]). constructor.
  - repeat constructor; cbn in *; repeat match goal with H : _ \/ _ |- _ => destruct H | H : (_, _) = (_, _) |- _ => injection H as <- <- | H : In _ _ |- _ => cbn in H | H : False |- _ => destruct H end; subst; try discriminate; cbn; try lia.
  - apply at_most_one_ok. reflexivity.
Qed.

Print Assumptions nodes_duplication_exact.
Print Assumptions duplication_shares_nodes.
Print Assumptions links_exact.
Print Assumptions links_independent_of_threads.
Print Assumptions edge_neighbors_exact.
Print Assumptions face_neighbors_exact.
Print Assumptions face_neighbors_refused.
Print Assumptions record_of_every_node_refuted.
Print Assumptions degenerate_element_refuted.
