(** * Lemmas on the neighbours of elements *)
From Coq Require Import List Arith ZArith Bool Lia Sorted Permutation.
From Verif Require Import Base S_Order M_Utils M_Distributed M_DistMatrix M_DistApply M_NodeInfo S_NodeInfo M_Links S_Links L_Equality L_Equality2 L_TotalFeti L_Distributed L_NodeInfo L_NodeInfo5 L_Links L_Links5.
Import ListNotations.
Local Open Scope out_scope.

(** ** intersection of sorted lists *)
Lemma intersect_cons a t1 b t2 : intersect (a :: t1) (b :: t2) = if b <? a then intersect (a :: t1) t2 else if a =? b then a :: intersect t1 (b :: t2) else intersect t1 (b :: t2).
Proof. reflexivity. Qed.
Lemma intersect_nil l : intersect l [] = [].
Proof. destruct l; auto. Qed.
Lemma intersect_ok l1 : StronglySorted lt l1 -> forall l2, StronglySorted lt l2 -> intersect l1 l2 = filter (fun a => mem a l2) l1.
Proof.
  induction 1 as [|a t1 S1 IH F1]; intros l2 S2; auto. induction S2 as [|b t2 S2 IH2 F2].
  - rewrite intersect_nil. symmetry. clear. induction (a :: t1); auto.
  - rewrite intersect_cons. rewrite Forall_forall in *. destruct (Nat.ltb_spec b a) as [L|L].
    + rewrite IH2. apply filter_ext_in. intros x Hx. rewrite mem_cons. assert (x <> b) by (destruct Hx as [<-|Hx]; [lia|specialize (F1 x Hx); lia]). rewrite (proj2 (Nat.eqb_neq _ _)) by auto. auto.
    + rewrite IH by (constructor; auto; apply Forall_forall; auto). cbn [filter]. rewrite mem_cons. destruct (Nat.eqb_spec a b) as [->|Ne]; cbn [orb]; auto.
      assert (M : mem a t2 = false); [|rewrite M; auto]. apply mem_false. intros C. specialize (F2 a C). lia.
Qed.

(** ** the elements across an interface *)
Definition linked_to (es : list (nat * list nat)) (ids : list nat) (i : nat) : Prop := forall x, In x ids -> In i (links_to es x).
Lemma le_nodup_ss l : StronglySorted le l -> NoDup l -> StronglySorted lt l.
Proof.
  induction 1 as [|a l S IH F]; intros ND; constructor; apply NoDup_cons_iff in ND; destruct ND as [Na ND]; auto. rewrite Forall_forall in *. intros b Hb. specialize (F b Hb). assert (a <> b) by (intros ->; auto). lia.
Qed.
Lemma nodup_repeat {A} (x : A) n : n <= 1 -> NoDup (repeat x n).
Proof. intros H. destruct n as [|[|n]]; [constructor|constructor; auto; constructor|lia]. Qed.
Lemma links_nodup es x : NoDup (map fst es) -> (forall e, In e es -> NoDup (snd e)) -> NoDup (links_to es x).
Proof.
  intros N1 N2. induction es as [|e es IH]; [constructor|]. cbn [map] in N1. apply NoDup_cons_iff in N1. destruct N1 as [Ne N1]. change (links_to (e :: es) x) with (repeat (fst e) (count_occ Nat.eq_dec (snd e) x) ++ links_to es x). apply L_Trees.nodup_app.
  - apply nodup_repeat. apply NoDup_count_occ. apply N2. left; auto.
  - apply IH; auto. intros; apply N2; right; auto.
  - intros i Hi Hl. apply repeat_spec in Hi. subst. apply links_to_iff in Hl. destruct Hl as (nodes & Hl & _). apply Ne. apply in_map_iff. exists (fst e, nodes). auto.
Qed.
Lemma linked_sharing es i face : NoDup (map fst es) -> face <> [] -> linked_to es face i <-> exists nodes, In (i, nodes) es /\ incl face nodes.
Proof.
  intros ND Nf. split.
  - intros H. destruct face as [|x face]; [congruence|]. destruct (proj1 (links_to_iff es x i) (H x (or_introl eq_refl))) as (nodes & He & Hx). exists nodes. split; auto. intros y Hy. destruct (proj1 (links_to_iff es y i) (H y Hy)) as (nodes' & He' & Hy').
    assert (nodes' = nodes); [|subst; auto]. clear - ND He He'. induction es as [|e es IH]; [destruct He|]. cbn [map] in ND. apply NoDup_cons_iff in ND. destruct ND as [Ne ND]. destruct He as [->|He], He' as [E|He']; auto.
    + congruence.
    + destruct Ne. cbn. apply in_map_iff. exists (i, nodes'); auto.
    + subst e. destruct Ne. cbn. apply in_map_iff. exists (i, nodes); auto.
  - intros (nodes & He & Hi) x Hx. apply links_to_iff. exists nodes. auto.
Qed.

Section Element.
  Context (es : list (nat * list nat)) (s : node_store) (ne : list nat * list nat).
  Hypothesis (ND : NoDup (map fst es)) (N2 : forall e, In e es -> NoDup (snd e)) (LN : linked_nodes es s ne).
  Lemma record_ok n : n < length (ns_ids s) -> exists l, record ne n = Ok l /\ StronglySorted lt l /\ forall i, In i l <-> In i (links_to es (id_of s n)).
  Proof.
    intros Hn. destruct LN as (_ & _ & H). destruct (H n Hn) as (l & El & Sl & Pl). exists l. split; auto. split.
    - apply le_nodup_ss; auto. apply (Permutation_NoDup (Permutation_sym Pl)). apply links_nodup; auto.
    - intros i. split; apply Permutation_in; [|apply Permutation_sym]; auto.
  Qed.
  Lemma across_rest nodes : valid_nodes s nodes -> forall rest inter done, StronglySorted lt inter -> (forall i, In i rest -> i < length nodes) -> forall id,
    (forall i, In i inter <-> i <> id /\ linked_to es (map (fun p => id_of s (nth p nodes 0)) done) i) ->
    exists l, foldM (fun inter i => match inter with [] => Ok [] | _ => n <- rd nodes i ;; e <- record ne n ;; Ok (intersect inter e) end) rest inter = Ok l /\ StronglySorted lt l /\
      forall i, In i l <-> i <> id /\ linked_to es (map (fun p => id_of s (nth p nodes 0)) (done ++ rest)) i.
  Proof.
    intros V. induction rest as [|p rest IH]; intros inter done Si Hr id Hi; cbn [foldM].
    - exists inter. rewrite app_nil_r. auto.
    - replace (done ++ p :: rest) with ((done ++ [p]) ++ rest) by (rewrite <- app_assoc; auto).
      destruct inter as [|x inter0] eqn:Ei.
      + cbn [obind]. apply (IH [] (done ++ [p])); [constructor|intros; apply Hr; right; auto|]. intros i. split; [intros []|]. intros [Ne L]. apply (proj2 (Hi i)). split; auto. intros y Hy. apply L. rewrite map_app. apply in_or_app. auto.
      + rewrite <- Ei in *. assert (Hp : p < length nodes) by (apply Hr; left; auto). rewrite (rd_ok _ _ 0) by auto. cbn [obind]. destruct (record_ok (nth p nodes 0)) as (e & Ee & Se & He); [apply V, nth_In; auto|]. rewrite Ee. cbn [obind].
        rewrite intersect_ok by auto. apply IH; [apply ss_filter; auto|intros; apply Hr; right; auto|]. intros i. rewrite filter_In, mem_iff, He, Hi. split.
        * intros [[Ne L] Hl]. split; auto. intros y Hy. rewrite map_app in Hy. apply in_app_or in Hy. destruct Hy as [Hy|[<-|[]]]; auto.
        * intros [Ne L]. split; [split; auto; intros y Hy; apply L; rewrite map_app; apply in_or_app; auto|]. apply L. rewrite map_app. apply in_or_app. right; left; auto.
  Qed.
  Lemma across_ok id nodes face : valid_nodes s nodes -> face <> [] -> (forall i, In i face -> i < length nodes) ->
    exists l, across_interface ne id nodes face = Ok l /\ sharing es id (face_nodes (id, map (id_of s) nodes) face) l.
  Proof.
    intros V Nf Hf. destruct face as [|p rest]; [congruence|]. cbn [across_interface]. assert (Hp : p < length nodes) by (apply Hf; left; auto). rewrite (rd_ok _ _ 0) by auto. cbn [obind].
    destruct (record_ok (nth p nodes 0)) as (e & Ee & Se & He); [apply V, nth_In; auto|]. rewrite Ee. cbn [obind].
    destruct (across_rest nodes V rest (filter (fun e => negb (e =? id)) e) [p]) with (id := id) as (l & El & Sl & Hl).
    - apply ss_filter; auto.
    - intros; apply Hf; right; auto.
    - intros i. rewrite filter_In, negb_true_iff, Nat.eqb_neq, He. split; [intros [H Ne]; split; auto; intros x [<-|[]]; auto|intros [Ne L]; split; auto; apply L; left; auto].
    - rewrite El. exists l. split; auto. split; auto. intros i. rewrite Hl. cbn [app].
      assert (Ef : face_nodes (id, map (id_of s) nodes) (p :: rest) = map (fun p => id_of s (nth p nodes 0)) (p :: rest)).
      { unfold face_nodes. cbn [snd]. apply map_ext_in. intros k Hk. specialize (Hf k Hk). apply L_Distributed.nth_map. auto. }
      rewrite Ef. split; intros [Ne L]; split; auto; apply linked_sharing; auto; discriminate.
  Qed.
  Definition proper_faces (e : nat * list nat) (faces : list (list nat)) : Prop := valid_nodes s (snd e) /\ forall f, In f faces -> f <> [] /\ forall i, In i f -> i < length (snd e).
  Definition global (e : nat * list nat) : nat * list nat := (fst e, map (id_of s) (snd e)).
  Lemma sharing_exists e faces : proper_faces e faces -> exists ls, sharing_faces es (global e) faces ls /\ Forall2 (fun f l => across_interface ne (fst e) (snd e) f = Ok l) faces ls.
  Proof.
    intros [V Hf]. induction faces as [|f faces IH]; [exists []; split; constructor|]. destruct IH as (ls & H1 & H2); [intros; apply Hf; right; auto|]. destruct (Hf f (or_introl eq_refl)) as [Nf Hi]. destruct (across_ok (fst e) (snd e) f V Nf Hi) as (l & El & Hl).
    exists (l :: ls). split; constructor; auto.
  Qed.
  Lemma edge_element e faces ls : Forall2 (fun f l => across_interface ne (fst e) (snd e) f = Ok l) faces ls -> element_neighbors true ne e faces = Ok (all_neighbors ls).
  Proof.
    intros H. unfold element_neighbors. change (all_neighbors ls) with ([] ++ all_neighbors ls). generalize (@nil Z). induction H as [|f l faces ls Hl F IH]; intros d; cbn [foldM]; [rewrite app_nil_r; auto|]. rewrite Hl. cbn [obind neighbor_data]. rewrite IH. f_equal. rewrite <- app_assoc. auto.
  Qed.
  Lemma face_element e faces ls : Forall2 (fun f l => across_interface ne (fst e) (snd e) f = Ok l) faces ls -> Forall (fun l => length l <= 1) ls -> element_neighbors false ne e faces = Ok (one_neighbor ls).
  Proof.
    intros H. unfold element_neighbors. change (one_neighbor ls) with ([] ++ one_neighbor ls). generalize (@nil Z). induction H as [|f l faces ls Hl F IH]; intros d HF; cbn [foldM]; [rewrite app_nil_r; auto|]. inversion HF as [|? ? H1 H2]; subst. rewrite Hl. cbn [obind].
    destruct l as [|x [|y l]]; [| |cbn in H1; lia]; cbn [neighbor_data obind]; rewrite IH by auto; rewrite <- app_assoc; auto.
  Qed.
  Lemma face_element_stop e faces ls : Forall2 (fun f l => across_interface ne (fst e) (snd e) f = Ok l) faces ls -> Exists (fun l => 2 <= length l) ls -> element_neighbors false ne e faces = Fail.
  Proof.
    intros H. unfold element_neighbors. generalize (@nil Z). induction H as [|f l faces ls Hl F IH]; intros d HE; [inversion HE|]. cbn [foldM]. rewrite Hl. cbn [obind]. destruct l as [|x [|y l]]; cbn [neighbor_data obind]; auto; apply IH; inversion HE; auto; cbn in *; lia.
  Qed.
End Element.

(** ** all elements *)
Lemma mapM_app {A B} (g : A -> outcome B) a b : mapM g (a ++ b) = (x <- mapM g a ;; y <- mapM g b ;; Ok (x ++ y)).
Proof.
  induction a as [|c a IH]; cbn [app mapM]; [cbn [obind app]; destruct (mapM g b); auto|]. destruct (g c); cbn [obind]; auto. rewrite IH. destruct (mapM g a); cbn [obind]; auto. destruct (mapM g b); auto.
Qed.
Lemma mapM_concat {A B C} (g : A -> outcome B) (h : C -> list A) l : (rows <- mapM (fun x => mapM g (h x)) l ;; Ok (concat rows)) = mapM g (flat_map h l).
Proof.
  induction l as [|c l IH]; auto. cbn [flat_map mapM]. rewrite mapM_app, <- IH. destruct (mapM g (h c)); cbn [obind]; auto. destruct (mapM _ l); auto.
Qed.
Lemma mapM_rel {A B} (g : A -> outcome B) (R : A -> B -> Prop) l : (forall a, In a l -> exists b, g a = Ok b /\ R a b) -> exists bs, mapM g l = Ok bs /\ Forall2 R l bs.
Proof.
  induction l as [|a l IH]; intros H; [exists []; split; auto; constructor|]. destruct (H a (or_introl eq_refl)) as (b & Eb & Rb). destruct IH as (bs & Ebs & F); [intros; apply H; right; auto|]. exists (b :: bs). cbn [mapM]. rewrite Eb. cbn [obind]. rewrite Ebs. split; [auto|constructor; auto].
Qed.
Lemma mapM_stop {A B} (g : A -> outcome B) l : (forall a, In a l -> (exists b, g a = Ok b) \/ g a = Fail) -> (exists a, In a l /\ g a = Fail) -> mapM g l = Fail.
Proof.
  induction l as [|a l IH]; intros H (a0 & Ha & E); [destruct Ha|]. cbn [mapM]. destruct (H a (or_introl eq_refl)) as [(b & Eb)|Eb].
  - rewrite Eb. cbn [obind]. rewrite IH; auto; [intros; apply H; right; auto|]. destruct Ha as [->|Ha]; [congruence|]. exists a0; auto.
  - rewrite Eb. auto.
Qed.
Lemma combine_app' {A B} (a a' : list A) (b b' : list B) : length a = length b -> combine (a ++ a') (b ++ b') = combine a b ++ combine a' b'.
Proof. revert b. induction a as [|x a IH]; intros [|y b] H; try discriminate; auto. cbn [combine app]. f_equal. apply IH. cbn in H. lia. Qed.
Lemma combine_concat {A B} (a : list (list A)) (b : list (list B)) : map (@length _) b = map (@length _) a -> combine (concat a) (concat b) = flat_map (fun x => combine (fst x) (snd x)) (combine a b).
Proof.
  revert b. induction a as [|x a IH]; intros [|y b] H; try discriminate; auto. cbn [map] in H. injection H as H1 H2. cbn [concat combine flat_map fst snd]. rewrite combine_app' by auto. f_equal. auto.
Qed.
Lemma rank_neighbors_flat insert ne elements faces : map (@length _) faces = map (@length _) elements ->
  rank_neighbors insert ne elements faces = mapM (fun y : (nat * list nat) * list (list nat) => element_neighbors insert ne (fst y) (snd y)) (combine (concat elements) (concat faces)).
Proof. intros H. unfold rank_neighbors. rewrite combine_concat by auto. apply (mapM_concat (fun y : (nat * list nat) * list (list nat) => element_neighbors insert ne (fst y) (snd y)) (fun x => combine (fst x) (snd x))). Qed.
