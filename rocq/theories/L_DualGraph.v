(** * Lemmas: maps and the loops of DualGraph::set *)
From Coq Require Import List Arith Lia Bool.
From Verif Require Import Base S_Order M_Utils P_Utils M_Nb M_Exchange M_Dual L_Dual2 M_DualGraph.
Import ListNotations.
Local Open Scope out_scope.

(** ** Maps *)
Section Map.
  Context {V : Type}.
  Variable v0 : V.
  Implicit Types m : smap V.
  Definition keys m := map fst m.
  Lemma mget_none m k : ~ In k (keys m) <-> mget k m = None.
  Proof.
    induction m as [|(j, v) m IH]; cbn; [tauto|]. destruct (Nat.eqb_spec k j) as [->|N]; split; intros H; try discriminate.
    - exfalso. apply H. auto.
    - apply IH. tauto.
    - intros [E|E]; [congruence|]. apply IH in H. tauto.
  Qed.
  Lemma mget_in m k v : mget k m = Some v -> In (k, v) m.
  Proof. induction m as [|(j, w) m IH]; cbn; [discriminate|]. destruct (Nat.eqb_spec k j) as [->|N]; [intros [= ->]; auto|auto]. Qed.
  Lemma in_mget m k v : incr (keys m) -> In (k, v) m -> mget k m = Some v.
  Proof.
    induction m as [|(j, w) m IH]; cbn; [tauto|]. intros (H1 & H2) [E|E].
    - injection E as -> ->. now rewrite Nat.eqb_refl.
    - destruct (Nat.eqb_spec k j) as [->|N]; auto. exfalso. specialize (H1 j (in_map fst _ _ E)). lia.
  Qed.
  Definition got m k : V := match mget k m with Some v => v | None => v0 end.
  Lemma mupd_keys k f m x : In x (keys (mupd v0 k f m)) <-> x = k \/ In x (keys m).
  Proof.
    unfold keys. induction m as [|(j, w) m IH]; cbn [mupd map fst In]; [split; intros [<-|H]; auto|]. destruct (Nat.eqb_spec k j) as [->|N]; cbn [map fst In].
    - split; [intros [<-|H]|intros [->|[<-|H]]]; auto.
    - destruct (k <? j); cbn [map fst In]; [split; [intros [<-|[<-|H]]|intros [->|[<-|H]]]; auto|]. rewrite IH. split; [intros [<-|[->|H]]|intros [->|[<-|H]]]; auto.
  Qed.
  Lemma mupd_incr k f m : incr (keys m) -> incr (keys (mupd v0 k f m)).
  Proof.
    pose proof (mupd_keys k f) as MK. unfold keys in *. induction m as [|(j, w) m IH]; cbn [mupd map fst incr In]; [tauto|]. intros (H1 & H2).
    destruct (Nat.eqb_spec k j) as [->|N]; cbn [map fst incr]; auto. destruct (Nat.ltb_spec k j); cbn [map fst incr].
    - split; auto. intros y [<-|Hy]; auto. apply H1 in Hy. lia.
    - split; [|apply IH; auto]. intros y Hy. apply MK in Hy. destruct Hy as [->|Hy]; [lia|auto].
  Qed.
  Lemma mupd_get k f m x : incr (keys m) -> mget x (mupd v0 k f m) = if x =? k then Some (f (got m k)) else mget x m.
  Proof.
    unfold got. induction m as [|(j, w) m IH]; cbn [mget mupd keys map fst incr]; [destruct (x =? k); auto|]. intros (H1 & H2). destruct (Nat.eqb_spec k j) as [->|N]; cbn [mget].
    { destruct (x =? j); auto. }
    destruct (Nat.ltb_spec k j) as [C|C]; cbn [mget].
    - destruct (Nat.eqb_spec x k) as [Ex|Nx]; auto. assert (E : mget k m = None). { apply mget_none. intros I. apply H1 in I. lia. } now rewrite E.
    - rewrite IH by auto. destruct (Nat.eqb_spec x j) as [->|Nj]; [destruct (Nat.eqb_spec j k); [congruence|auto]|auto].
  Qed.

  (** many updates *)
  Definition updates (ops : list (nat * (V -> V))) m := fold_left (fun m op => mupd v0 (fst op) (snd op) m) ops m.
  Definition on_key k (ops : list (nat * (V -> V))) : list (V -> V) := map snd (filter (fun op => fst op =? k) ops).
  Lemma updates_incr ops : forall m, incr (keys m) -> incr (keys (updates ops m)).
  Proof. induction ops as [|op ops IH]; intros m H; cbn; auto. apply IH, mupd_incr, H. Qed.
  Lemma updates_keys ops : forall m x, In x (keys (updates ops m)) <-> In x (map fst ops) \/ In x (keys m).
  Proof. induction ops as [|op ops IH]; intros m x; cbn; [tauto|]. fold (updates ops (mupd v0 (fst op) (snd op) m)). rewrite IH, mupd_keys. split; [intros [H|[->|H]]|intros [[<-|H]|H]]; auto. Qed.
  Lemma updates_get ops : forall m k, incr (keys m) ->
    mget k (updates ops m) = match on_key k ops with [] => mget k m | fs => Some (fold_left (fun v f => f v) fs (got m k)) end.
  Proof.
    induction ops as [|op ops IH]; intros m k H; cbn [updates fold_left]; auto. fold (updates ops (mupd v0 (fst op) (snd op) m)). rewrite IH by (apply mupd_incr, H).
    unfold got at 1. rewrite mupd_get by auto. unfold on_key. cbn [filter]. rewrite (Nat.eqb_sym (fst op) k).
    destruct (Nat.eqb_spec k (fst op)) as [->|N]; cbn [map fold_left]; [|fold (got m k); destruct (map snd _); auto].
    destruct (map snd _); reflexivity.
  Qed.
  Lemma updates_got ops m k : incr (keys m) -> got (updates ops m) k = fold_left (fun v f => f v) (on_key k ops) (got m k).
  Proof. intros H. unfold got at 1. rewrite updates_get by auto. destruct (on_key k ops) as [|f fs] eqn:E; reflexivity. Qed.
  Lemma updates_app a b m : updates (a ++ b) m = updates b (updates a m).
  Proof. apply fold_left_app. Qed.
End Map.

(** a loop of updates *)
Lemma foldM_updates {V A} (v0 : V) (f : smap V -> A -> outcome (smap V)) (ops : A -> list (nat * (V -> V))) l :
  (forall a m, In a l -> f m a = Ok (updates v0 (ops a) m)) -> forall m, foldM f l m = Ok (updates v0 (flat_map ops l) m).
Proof.
  induction l as [|a l IH]; intros H m; cbn [foldM flat_map]; auto. rewrite H by (left; auto). cbn [obind]. rewrite IH by (intros; apply H; right; auto). now rewrite updates_app.
Qed.

(** ** Loops over the blocks *)
Definition encode (bs : list (nat * list nat)) : list nat := flat_map (fun b => fst b :: length (snd b) :: snd b) bs.
(** the blocks with their positions and offsets *)
Fixpoint annot (i o : nat) (bs : list (nat * list nat)) : list (nat * nat * (nat * list nat)) :=
  match bs with [] => [] | b :: bs => (i, o, b) :: annot (i + (length (snd b) + 2)) (o + fst b) bs end.
Lemma lmap_ok {St} (f : nat -> nat -> nat -> nat -> St -> outcome St) bs : forall fuel pre lMap o st, lMap = pre ++ encode bs -> length (encode bs) <= fuel ->
  lmap_loop fuel f lMap (length pre) o st = foldM (fun st x => f (fst (fst x)) (fst (snd x)) (length (snd (snd x))) (snd (fst x)) st) (annot (length pre) o bs) st.
Proof.
  induction bs as [|(c, ds) bs IH]; intros fuel pre lMap o st E F; cbn [annot foldM].
  - cbn in E. rewrite app_nil_r in E. subst lMap. destruct fuel; cbn [lmap_loop]; auto. now rewrite Nat.ltb_irrefl.
  - cbn [encode flat_map fst snd] in E, F. cbn in F. rewrite app_length in F. destruct fuel as [|fuel]; [lia|]. cbn [lmap_loop].
    assert (C : length pre <? length lMap = true) by (subst lMap; rewrite app_length; apply Nat.ltb_lt; cbn; lia). rewrite C. cbn [fst snd].
    assert (R1 : rd lMap (length pre) = Ok c) by (subst lMap; apply rd_app_at; auto). rewrite R1. cbn [obind].
    assert (R2 : rd lMap (length pre + 1) = Ok (length ds)).
    { subst lMap. change (pre ++ (c :: length ds :: ds) ++ flat_map (fun b => fst b :: length (snd b) :: snd b) bs) with (pre ++ [c] ++ (length ds :: ds) ++ encode bs).
      rewrite app_assoc. apply rd_app_at. rewrite app_length. reflexivity. }
    rewrite R2. cbn [obind]. destruct (f (length pre) c (length ds) o st) as [s| |]; cbn [obind]; auto.
    specialize (IH fuel (pre ++ c :: length ds :: ds) lMap (o + c) s). rewrite app_length in IH. cbn [length] in IH.
    replace (length pre + S (S (length ds))) with (length pre + (length ds + 2)) in IH by lia. apply IH.
    + rewrite E, <- app_assoc. reflexivity.
    + unfold encode. lia.
Qed.
Lemma annot_in bs : forall pre o x, In x (annot (length pre) o bs) -> exists post pre', pre ++ encode bs = pre' ++ snd (snd x) ++ post /\ length pre' = fst (fst x) + 2.
Proof.
  induction bs as [|(c, ds) bs IH]; intros pre o x; cbn [annot]; [intros []|]. intros [<-|H].
  - cbn [fst snd encode flat_map]. exists (encode bs), (pre ++ [c; length ds]). split; [rewrite <- app_assoc; reflexivity|rewrite app_length; reflexivity].
  - cbn [fst snd] in H. specialize (IH (pre ++ c :: length ds :: ds) (o + c) x). rewrite app_length in IH. cbn [length] in IH.
    replace (length pre + S (S (length ds))) with (length pre + (length ds + 2)) in IH by lia. destruct (IH H) as (post & pre' & E1 & E2). exists post, pre'. split; auto.
    rewrite <- E1, <- app_assoc. reflexivity.
Qed.
Lemma annot_blocks bs : forall i o, map snd (annot i o bs) = bs.
Proof. induction bs as [|b bs IH]; intros i o; cbn; auto. now rewrite IH. Qed.

(** ** Edges *)
Definition edge_ops (ds : list nat) : list (nat * (list nat -> list nat)) := flat_map (fun k => map (fun e => (k, fun l => l ++ [e])) ds) ds.
Lemma edges_block_ok lMap i lsize o pre ds post es : lMap = pre ++ ds ++ post -> length pre = i + 2 ->
  edges_block lMap i lsize (length ds) o es = Ok (updates [] (edge_ops ds) es).
Proof.
  intros E Ep. unfold edges_block. 
  transitivity (foldM (fun es d => k <- rd lMap (i + 2 + d) ;; foldM (fun es e => Ok (mupd [] k (fun l => l ++ [e]) es)) ds es) (seq 0 (length ds)) es).
  - apply foldM_ext_in. intros st d1 H1. apply in_seq in H1. unfold edges_from.
    assert (R : rd lMap (i + 2 + d1) = Ok (nth d1 ds 0)).
    { subst lMap. rewrite (rd_ok _ _ 0) by (rewrite !app_length; lia). rewrite app_nth2 by lia. rewrite app_nth1 by lia. f_equal. f_equal. lia. }
    rewrite R. cbn [obind]. rewrite <- (foldM_rd (fun es e => Ok (mupd [] (nth d1 ds 0) (fun l => l ++ [e]) es)) lMap (i + 2) pre ds post) by auto. reflexivity.
  - rewrite (foldM_rd (fun es k => foldM (fun es e => Ok (mupd [] k (fun l => l ++ [e]) es)) ds es) lMap (i + 2) pre ds post) by auto.
    apply (foldM_updates [] _ (fun k => map (fun e => (k, fun l => l ++ [e])) ds)). intros k m _.
    rewrite (foldM_updates [] _ (fun e => [(k, fun l => l ++ [e])])) by reflexivity.
    assert (F : forall l : list nat, flat_map (fun e => [(k, fun l : list nat => l ++ [e])]) l = map (fun e => (k, fun l => l ++ [e])) l) by (intros l; induction l; cbn; congruence). now rewrite F.
Qed.
Lemma set_edges_blocks bs : lmap_loop (length (encode bs)) (edges_block (encode bs)) (encode bs) 0 0 [] = Ok (updates [] (flat_map (fun b => edge_ops (snd b)) bs) []).
Proof.
  rewrite (lmap_ok _ bs _ [] (encode bs)) by auto. cbn [length].
  rewrite (foldM_updates [] _ (fun x => edge_ops (snd (snd x)))).
  - f_equal. f_equal. rewrite <- (annot_blocks bs 0 0) at 2. generalize (annot 0 0 bs). intros l. induction l; cbn; congruence.
  - intros x m Hx. destruct (annot_in bs [] 0 x Hx) as (post & pre' & E1 & E2). cbn [app] in E1. apply (edges_block_ok _ _ _ _ pre' _ post); auto.
Qed.

Lemma nat_order : strict_total_order Nat.ltb Nat.eqb.
Proof.
  split; [split|..]; unfold le_of.
  - intros a b H. apply Nat.ltb_lt in H. apply Nat.ltb_ge. lia.
  - intros a b c H1 H2. apply Nat.ltb_ge in H1, H2. apply Nat.ltb_ge. lia.
  - intros a b H1 H2. apply Nat.ltb_ge in H1, H2. lia.
  - apply Nat.eqb_eq.
Qed.
Lemma strictly_incr l : strictly_sorted Nat.ltb l -> incr l.
Proof. induction 1 as [|x l H IH F]; cbn; auto. split; auto. intros y Hy. rewrite Forall_forall in F. apply Nat.ltb_lt, F, Hy. Qed.

Section Sort.
  Variable sort : list nat -> list nat.
  Hypothesis HS : sort_contract Nat.ltb sort.
  Lemma sort_edges_ok es : forall acc, exists es', foldM (fun es e => l <- sortAndRemoveDuplicates Nat.eqb sort 0 (snd e) 0 ;; Ok (es ++ [(fst e, l)])) es acc = Ok (acc ++ es') /\
    map fst es' = map fst es /\ forall k, match mget k es, mget k es' with
      | None, None => True
      | Some l, Some l' => incr l' /\ forall x, In x l' <-> In x l
      | _, _ => False end.
  Proof.
    induction es as [|(k, l) es IH]; intros acc; cbn [foldM fst snd].
    - exists []. rewrite app_nil_r. repeat split; auto.
    - destruct (sortAndRemoveDuplicates_set nat Nat.ltb Nat.eqb 0 sort nat_order HS l 0 (Nat.le_0_l _)) as (tail & E & S & M). cbn [firstn app skipn] in E, M. rewrite E. cbn [obind].
      destruct (IH (acc ++ [(k, tail)])) as (es' & F & K & G). exists ((k, tail) :: es'). rewrite F, <- app_assoc. split; auto. split; [cbn; congruence|].
      intros x. cbn [mget]. destruct (x =? k); [|apply G]. split; auto. apply strictly_incr, S.
  Qed.
End Sort.

Lemma on_key_edges k (bs : list (nat * list nat)) : on_key k (flat_map (fun b => edge_ops (snd b)) bs) =
  flat_map (fun b => flat_map (fun d => if d =? k then map (fun e l => l ++ [e]) (snd b) else []) (snd b)) bs.
Proof.
  unfold on_key. induction bs as [|b bs IH]; cbn [flat_map]; auto. rewrite filter_app, map_app, IH. f_equal. clear IH. unfold edge_ops. generalize (snd b) at 2 4. intros ks.
  induction ks as [|d ks IH]; cbn [flat_map]; auto. rewrite filter_app, map_app, IH. f_equal. clear. induction (snd b) as [|e es IH]; cbn [map filter fst]; [destruct (d =? k); auto|].
  destruct (d =? k) eqn:E; cbn [map snd]; rewrite ?IH; auto.
Qed.
Lemma push_all (es l : list nat) : fold_left (fun v f => f v) (map (fun e (l : list nat) => l ++ [e]) es) l = l ++ es.
Proof. revert l; induction es as [|e es IH]; intros l; cbn; [now rewrite app_nil_r|]. rewrite IH, <- app_assoc. reflexivity. Qed.
Lemma edges_members (bs : list (nat * list nat)) k x : In x (got [] (updates [] (flat_map (fun b => edge_ops (snd b)) bs) []) k) <-> exists b, In b bs /\ In k (snd b) /\ In x (snd b).
Proof.
  rewrite updates_got by exact I. rewrite on_key_edges. change (got [] [] k) with (@nil nat).
  assert (E : forall l, fold_left (fun v f => f v) (flat_map (fun b => flat_map (fun d => if d =? k then map (fun e (l : list nat) => l ++ [e]) (snd b) else []) (snd b)) bs) l =
    l ++ flat_map (fun b => flat_map (fun d => if d =? k then snd b else []) (snd b)) bs).
  { induction bs as [|b bs IH]; intros l; cbn [flat_map]; [now rewrite app_nil_r|]. rewrite fold_left_app, IH, app_assoc. f_equal. clear IH. generalize (snd b) at 2 4. intros ks.
    revert l; induction ks as [|d ks IH]; intros l; cbn [flat_map]; [now rewrite app_nil_r|]. rewrite fold_left_app, IH, app_assoc. f_equal. destruct (d =? k); [apply push_all|now rewrite app_nil_r]. }
  rewrite E. cbn [app]. rewrite in_flat_map. split.
  - intros (b & Hb & H). apply in_flat_map in H. destruct H as (d & Hd & H). destruct (Nat.eqb_spec d k) as [->|]; [|destruct H]. exists b. auto.
  - intros (b & Hb & Hk & Hx). exists b. split; auto. apply in_flat_map. exists k. split; auto. now rewrite Nat.eqb_refl.
Qed.

Theorem set_edges_ok sort bs : sort_contract Nat.ltb sort ->
  exists es, set_edges sort (encode bs) = Ok es /\ forall d, incr (edges_of es d) /\ forall x, In x (edges_of es d) <-> exists b, In b bs /\ In d (snd b) /\ In x (snd b).
Proof.
  intros HS. unfold set_edges. rewrite set_edges_blocks. cbn [obind]. unfold sort_edges.
  destruct (sort_edges_ok sort HS (updates [] (flat_map (fun b => edge_ops (snd b)) bs) []) []) as (es & E & _ & G). exists es. split; [exact E|]. intros d.
  specialize (G d). pose proof (edges_members bs d) as M. unfold got in M. unfold edges_of.
  destruct (mget d (updates [] _ [])) as [l|], (mget d es) as [l'|]; try tauto.
  - destruct G as (G1 & G2). split; auto. intros x. rewrite G2. apply M.
Qed.
