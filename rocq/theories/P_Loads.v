(** * Loads are added to the components they belong to (C138) *)
From Coq Require Import List Bool Arith ZArith Lia.
From Verif Require Import Base M_Loads S_Loads.
From Verif Require L_BoundaryValues.
Import ListNotations.
Local Open Scope out_scope.

Local Notation starts := L_BoundaryValues.starts.

(** ** Positions *)
Definition element_positions (dofs : nat) (ns : list nat) : list nat := flat_map (fun rd => map (fun from => from * dofs + rd) ns) (seq 0 dofs).

Local Lemma push_list {A} (h : A -> nat) l : forall p, fold_left (fun p a => p ++ [h a]) l p = p ++ map h l.
Proof. induction l as [|a l IH]; intros p; simpl; [now rewrite app_nil_r|]. rewrite IH, <- app_assoc. reflexivity. Qed.
Local Lemma push_lists {A B} (h : A -> list B) (f : list B -> A -> list B) l : (forall p a, f p a = p ++ h a) -> forall p, fold_left f l p = p ++ flat_map h l.
Proof. intros E. induction l as [|a l IH]; intros p; simpl; [now rewrite app_nil_r|]. rewrite E, IH, <- app_assoc. reflexivity. Qed.

Local Lemma push_element_eq {V} dofs p (e : @element V) : push_element dofs p e = p ++ element_positions dofs (fst e).
Proof. unfold push_element. apply push_lists. intros q rd. apply push_list. Qed.
Local Lemma push_node_eq {V} dofs p (m : nat * list V) : push_node dofs p m = p ++ element_positions dofs [fst m].
Proof.
  unfold push_node. rewrite push_list. reflexivity.
Qed.

(** the positions of an interval as a block *)
Definition block {V} (dofs : nat) (es : list (@element V)) : list nat := flat_map (fun e => element_positions dofs (fst e)) es.
Definition as_elements {V} (ns : list (nat * list V)) : list (@element V) := map (fun m => ([fst m], snd m)) ns.

Local Lemma push_intervals {V} dofs (ivs : list (list (@element V))) : forall p o,
  fold_left (push_interval dofs) ivs (p, o) = (p ++ concat (map (block dofs) ivs), o ++ starts (length p) (map (block dofs) ivs)).
Proof.
  induction ivs as [|es ivs IH]; intros p o; simpl; [now rewrite !app_nil_r|].
  change (push_interval dofs (p, o) es) with (fold_left (push_element dofs) es p, o ++ [length p]). rewrite (push_lists (fun e : @element V => element_positions dofs (fst e))) by (intros; apply push_element_eq).
  fold (block dofs es). rewrite IH, app_length, <- !app_assoc. reflexivity.
Qed.
Local Lemma push_threads {V} dofs (ts : list (list (nat * list V))) : forall p o,
  fold_left (push_thread dofs) ts (p, o) =
  (p ++ concat (map (block dofs) (map as_elements ts)), o ++ starts (length p) (map (block dofs) (map as_elements ts))).
Proof.
  induction ts as [|ns ts IH]; intros p o; simpl; [now rewrite !app_nil_r|].
  change (push_thread dofs (p, o) ns) with (fold_left (push_node dofs) ns p, o ++ [length p]). rewrite (push_lists (fun m : nat * list V => element_positions dofs [fst m])) by (intros; apply push_node_eq).
  replace (flat_map (fun m : nat * list V => element_positions dofs [fst m]) ns) with (block dofs (as_elements ns)).
  2:{ unfold block, as_elements. induction ns; simpl; auto. now f_equal. }
  rewrite IH, app_length, <- !app_assoc. reflexivity.
Qed.

Local Lemma starts_app {A} (a b : list (list A)) : forall k, starts k (a ++ b) = starts k a ++ starts (k + length (concat a)) b.
Proof.
  induction a as [|x a IH]; intros k; simpl; [now rewrite Nat.add_0_r|]. rewrite IH, app_length, Nat.add_assoc. reflexivity.
Qed.

(** the blocks of a region *)
Definition blocks {V} (r : @region V) : list (list (@element V)) :=
  (if dimension r =? 0 then [] else faces r) ++ map as_elements (nodes r).

Local Lemma build_elements_eq {V} dofs (ivs : list (list (@element V))) :
  build_elements dofs ivs = (concat (map (block dofs) ivs), starts 0 (map (block dofs) ivs)).
Proof. unfold build_elements. now rewrite push_intervals. Qed.
Local Lemma build_region_eq {V} dofs (r : @region V) :
  build_region dofs r = (concat (map (block dofs) (blocks r)), starts 0 (map (block dofs) (blocks r))).
Proof.
  unfold build_region, blocks. destruct (dimension r =? 0).
  - now rewrite push_threads.
  - rewrite push_intervals, push_threads. simpl. now rewrite map_app, concat_app, starts_app.
Qed.

(** ** Sums *)
Section Sums.
Context {V : Type}.
Variable add : V -> V -> V.
Variable zero : V.
Hypothesis Add : addition add zero.

Local Notation tot := (total add zero).
Local Notation elem := (@element V).

Local Lemma add_comm a b : add a b = add b a. Proof. apply (proj1 Add). Qed.
Local Lemma add_assoc a b c : add a (add b c) = add (add a b) c. Proof. apply (proj1 (proj2 Add)). Qed.
Local Lemma add_0_l a : add zero a = a. Proof. apply (proj2 (proj2 Add)). Qed.
Local Lemma add_0_r a : add a zero = a. Proof. rewrite add_comm. apply add_0_l. Qed.

Local Lemma total_cons {A} (a : A) l f : tot (a :: l) f = add (f a) (tot l f).
Proof. reflexivity. Qed.
Local Lemma total_app {A} (a b : list A) f : tot (a ++ b) f = add (tot a f) (tot b f).
Proof.
  induction a as [|x a IH].
  - unfold total at 2. simpl. now rewrite add_0_l.
  - rewrite <- app_comm_cons, !total_cons, IH. apply add_assoc.
Qed.
Local Lemma total_zero {A} (l : list A) f : (forall a, In a l -> f a = zero) -> tot l f = zero.
Proof.
  induction l as [|x l IH]; intros Z; [reflexivity|]. rewrite total_cons, IH, Z, add_0_l; auto; [now left|]. intros. apply Z. now right.
Qed.
Local Lemma total_ext {A} (l : list A) f g : (forall a, In a l -> f a = g a) -> tot l f = tot l g.
Proof. induction l as [|x l IH]; intros E; [reflexivity|]. rewrite !total_cons, E, IH; auto; [|now left]. intros. apply E. now right. Qed.
Local Lemma total_map {A B} (h : A -> B) l f : tot (map h l) f = tot l (fun a => f (h a)).
Proof. unfold total. now rewrite map_map. Qed.

(** values [xs] added to the positions [ps]: what is added to position [j] *)
Definition added (ps : list nat) (xs : list V) (j : nat) : V := tot (combine ps xs) (fun px => if fst px =? j then snd px else zero).

Local Lemma added_app p1 p2 xs j : added (p1 ++ p2) xs j = add (added p1 (firstn (length p1) xs) j) (added p2 (skipn (length p1) xs) j).
Proof.
  unfold added. revert xs. induction p1 as [|a p1 IH]; intros xs; simpl.
  - unfold total at 2. simpl. now rewrite add_0_l.
  - destruct xs as [|x xs]; simpl.
    + destruct p2; unfold total; simpl; now rewrite add_0_l.
    + rewrite !total_cons, IH. apply add_assoc.
Qed.

(** the change of a vector *)
Definition changes (out out' : list V) (f : nat -> V) : Prop :=
  length out' = length out /\ forall j, j < length out -> nth j out' zero = add (nth j out zero) (f j).
Local Lemma changes_refl out : changes out out (fun _ => zero).
Proof. split; auto. intros. now rewrite add_0_r. Qed.
Local Lemma changes_trans a b c f g : changes a b f -> changes b c g -> changes a c (fun j => add (f j) (g j)).
Proof. intros [L1 C1] [L2 C2]. split; [congruence|]. intros j B. rewrite C2, C1 by lia. now rewrite add_assoc. Qed.
Local Lemma changes_ext a b f g : (forall j, j < length a -> f j = g j) -> changes a b f -> changes a b g.
Proof. intros E [L C]. split; auto. intros j B. now rewrite C, E. Qed.

Local Lemma add_vector_ok v : forall ps rest out, length ps = length v -> Forall (fun p => p < length out) ps ->
  exists out', add_vector add (ps ++ rest, out) v = Ok (rest, out') /\ changes out out' (added ps v).
Proof.
  unfold add_vector. induction v as [|x v IH]; intros ps rest out L F.
  - destruct ps; [|discriminate]. exists out. split; [reflexivity|apply changes_refl].
  - destruct ps as [|p ps]; [discriminate|]. inversion F; subst. simpl. rewrite (rd_ok out p zero) by auto. simpl.
    rewrite wr_ok by auto. simpl. destruct (IH ps rest (upd out p (add (nth p out zero) x))) as (out' & E & C).
    + simpl in L. lia.
    + eapply Forall_impl; [|eassumption]. intros. now rewrite upd_length.
    + exists out'. split; [exact E|]. destruct C as [LC C]. rewrite upd_length in *. split; auto. intros j B. rewrite C by auto.
      unfold added at 2. simpl. rewrite total_cons. simpl. fold (added ps v j). destruct (Nat.eqb_spec p j) as [->|N].
      * rewrite nth_upd_eq by auto. now rewrite add_assoc.
      * rewrite nth_upd_neq by auto. now rewrite add_0_l.
Qed.

(** ** Elements *)
Variable dofs size : nat.

Local Lemma component_of n d m e : d < dofs -> e < dofs -> (m * dofs + e = n * dofs + d <-> m = n /\ e = d).
Proof. intros Ld Le. split; [|intros [-> ->]; auto]. intros E. destruct (lt_eq_lt_dec m n) as [[?|?]|?]; split; nia. Qed.

Local Lemma positions_length ns : length (element_positions dofs ns) = dofs * length ns.
Proof.
  unfold element_positions.
  assert (A : forall l, length (flat_map (fun rd => map (fun from => from * dofs + rd) ns) l) = length l * length ns).
  { induction l; simpl; auto. now rewrite app_length, map_length, IHl. }
  now rewrite A, seq_length.
Qed.
Local Lemma positions_below ns : (forall n, In n ns -> n < size) -> Forall (fun p => p < dofs * size) (element_positions dofs ns).
Proof.
  intros B. apply Forall_forall. intros p I. apply in_flat_map in I. destruct I as (rd & I & J). apply in_seq in I.
  apply in_map_iff in J. destruct J as (n & <- & J). specialize (B _ J). nia.
Qed.

Local Lemma added_component ns n d rd : rd < dofs -> d < dofs -> forall w,
  added (map (fun from => from * dofs + rd) ns) w (n * dofs + d) = if rd =? d then added ns w n else zero.
Proof.
  intros Lr Ld. unfold added. induction ns as [|m ns IH]; intros w; simpl.
  - unfold total. simpl. now destruct (rd =? d).
  - destruct w as [|x w]; [unfold total; simpl; now destruct (rd =? d)|]. simpl. rewrite !total_cons, IH. simpl.
    destruct (Nat.eqb_spec (m * dofs + rd) (n * dofs + d)) as [E|E]; rewrite component_of in E by auto.
    + destruct E as [-> ->]. now rewrite !Nat.eqb_refl.
    + destruct (Nat.eqb_spec rd d) as [->|]; [|apply add_0_l]. destruct (Nat.eqb_spec m n) as [->|]; [|auto]. exfalso. auto.
Qed.

Local Lemma skipn_add {A} (a b : nat) (l : list A) : skipn a (skipn b l) = skipn (b + a) l.
Proof. rewrite skipn_skipn. f_equal. lia. Qed.

Local Lemma added_components ns n d m : forall a w, a + m <= dofs -> d < dofs ->
  added (flat_map (fun rd => map (fun from => from * dofs + rd) ns) (seq a m)) w (n * dofs + d) =
  if (a <=? d) && (d <? a + m) then added ns (firstn (length ns) (skipn ((d - a) * length ns) w)) n else zero.
Proof.
  induction m as [|m IH]; intros a w La Ld; simpl.
  - unfold added at 1, total. simpl. destruct (Nat.leb_spec a d); simpl; auto. destruct (Nat.ltb_spec d (a + 0)); auto. lia.
  - rewrite added_app, map_length, added_component by lia. rewrite IH by lia.
    destruct (Nat.eqb_spec a d) as [->|N].
    + destruct (Nat.leb_spec (S d) d); [lia|]. simpl. rewrite add_0_r. destruct (Nat.leb_spec d d); [|lia].
      destruct (Nat.ltb_spec d (d + S m)); [|lia]. simpl. now rewrite Nat.sub_diag.
    + rewrite add_0_l. rewrite skipn_add. destruct (Nat.leb_spec (S a) d), (Nat.leb_spec a d); try lia; simpl; auto.
      destruct (Nat.ltb_spec d (S (a + m))), (Nat.ltb_spec d (a + S m)); try lia; auto.
      replace (length ns + (d - S a) * length ns) with ((d - a) * length ns) by nia. reflexivity.
Qed.

Local Lemma added_nodes ns : forall w n, length w = length ns ->
  added ns w n = tot (seq 0 (length ns)) (fun k => if nth k ns 0 =? n then nth k w zero else zero).
Proof.
  unfold added. induction ns as [|m ns IH]; intros w n L; [reflexivity|]. destruct w as [|x w]; [discriminate|].
  simpl combine. simpl length. cbn [seq]. rewrite !total_cons, <- seq_shift, total_map. simpl in L. rewrite IH by lia. reflexivity.
Qed.

Local Lemma nth_firstn_ {A} (l : list A) k m z : k < m -> nth k (firstn m l) z = nth k l z.
Proof. revert l m. induction k; intros l m L; destruct m; try lia; destruct l; simpl; auto. apply IHk. lia. Qed.
Local Lemma nth_skipn_ {A} (l : list A) k m z : nth k (skipn m l) z = nth (m + k) l z.
Proof. revert l. induction m; intros l; simpl; auto. destruct l; simpl; auto. now destruct k. Qed.

Local Lemma added_element (e : elem) n d : length (snd e) = dofs * length (fst e) -> d < dofs ->
  added (element_positions dofs (fst e)) (snd e) (n * dofs + d) = element_load add zero e n d.
Proof.
  intros L Ld. unfold element_positions. rewrite added_components by lia. destruct (Nat.ltb_spec d (0 + dofs)); [|lia]. simpl. rewrite Nat.sub_0_r.
  rewrite added_nodes.
  - unfold element_load. apply total_ext. intros k I. apply in_seq in I. rewrite nth_firstn_, nth_skipn_ by lia. reflexivity.
  - rewrite firstn_length, skipn_length, L. nia.
Qed.

Definition good_element (e : elem) : Prop := length (snd e) = dofs * length (fst e) /\ forall n, In n (fst e) -> n < size.

(** the change by some loads, for the components of nodes *)
Definition loaded (out out' : list V) (f : nat -> nat -> V) : Prop :=
  length out' = length out /\ forall n d, n < size -> d < dofs -> nth (n * dofs + d) out' zero = add (nth (n * dofs + d) out zero) (f n d).
Local Lemma loaded_refl out : loaded out out (fun _ _ => zero).
Proof. split; auto. intros. now rewrite add_0_r. Qed.
Local Lemma loaded_trans a b c f g : loaded a b f -> loaded b c g -> loaded a c (fun n d => add (f n d) (g n d)).
Proof. intros [L1 C1] [L2 C2]. split; [congruence|]. intros n d Ln Ld. rewrite C2, C1 by lia. now rewrite add_assoc. Qed.
Local Lemma loaded_ext a b f g : (forall n d, n < size -> d < dofs -> f n d = g n d) -> loaded a b f -> loaded a b g.
Proof. intros E [L C]. split; auto. intros n d Ln Ld. now rewrite C, E. Qed.

Local Lemma add_elements es : Forall good_element es -> forall rest out, length out = dofs * size ->
  exists out', foldM (add_vector add) (map snd es) (block dofs es ++ rest, out) = Ok (rest, out') /\
    loaded out out' (fun n d => tot es (fun e => element_load add zero e n d)).
Proof.
  induction 1 as [|e es [Le Be] F IH]; intros rest out L; simpl.
  - exists out. split; [reflexivity|apply loaded_refl].
  - rewrite <- app_assoc. destruct (add_vector_ok (snd e) (element_positions dofs (fst e)) (block dofs es ++ rest) out) as (o1 & E1 & C1).
    + rewrite positions_length. auto.
    + rewrite L. now apply positions_below.
    + fold (block dofs es). rewrite E1. simpl. destruct C1 as [L1 C1]. destruct (IH rest o1) as (o2 & E2 & C2); [congruence|]. exists o2. split; [exact E2|].
      eapply loaded_ext; [|eapply loaded_trans; [|exact C2]].
      * intros. rewrite total_cons. reflexivity.
      * split; auto. intros n d Ln Ld. rewrite C1 by (rewrite L; nia). now rewrite added_element.
Qed.

(** a block of elements from its own start *)
Local Lemma fill_block_own pre es post out : Forall good_element es -> length out = dofs * size ->
  exists out', fill_block add (concat (map (block dofs) (pre ++ es :: post)), starts 0 (map (block dofs) (pre ++ es :: post))) out (length pre, map snd es) = Ok out' /\
    loaded out out' (fun n d => tot es (fun e => element_load add zero e n d)).
Proof.
  intros F L. unfold fill_block. cbn [fst snd].
  assert (R : rd (starts 0 (map (block dofs) (pre ++ es :: post))) (length pre) = Ok (length (concat (map (block dofs) pre)))).
  { unfold rd. rewrite map_app. simpl. rewrite <- (map_length (block dofs) pre), L_BoundaryValues.starts_nth. reflexivity. }
  rewrite R. simpl. rewrite map_app, L_BoundaryValues.skipn_concat. simpl.
  destruct (add_elements es F (concat (map (block dofs) post)) out L) as (o & E & C). rewrite E. simpl. eauto.
Qed.

Local Lemma fill_own ivs all : Forall (Forall good_element) ivs -> forall pre post out, all = pre ++ ivs ++ post -> length out = dofs * size ->
  exists out', foldM (fill_block add (concat (map (block dofs) all), starts 0 (map (block dofs) all)))
      (combine (seq (length pre) (length ivs)) (map (map snd) ivs)) out = Ok out' /\
    loaded out out' (fun n d => tot ivs (fun es => tot es (fun e => element_load add zero e n d))).
Proof.
  induction 1 as [|es ivs Fe F IH]; intros pre post out E L; simpl.
  - exists out. split; [reflexivity|apply loaded_refl].
  - destruct (fill_block_own pre es (ivs ++ post) out Fe L) as (o1 & E1 & C1). rewrite E. simpl. rewrite E1. simpl.
    destruct (IH (pre ++ [es]) post o1) as (o2 & E2 & C2).
    + rewrite E. rewrite <- app_assoc. reflexivity.
    + destruct C1. congruence.
    + rewrite app_length, Nat.add_comm in E2. simpl in E2. rewrite E in E2. simpl in E2. exists o2. split; [exact E2|].
      eapply loaded_ext; [|eapply loaded_trans; eassumption]. intros. now rewrite total_cons.
Qed.

(** zeros may be added anywhere *)
Local Lemma add_zeros v : (forall x, In x v -> x = zero) -> forall ps out, length v <= length ps -> Forall (fun p => p < length out) ps ->
  exists out', add_vector add (ps, out) v = Ok (skipn (length v) ps, out') /\ changes out out' (fun _ => zero).
Proof.
  intros Z ps out L F.
  destruct (add_vector_ok v (firstn (length v) ps) (skipn (length v) ps) out) as (o & E & C).
  - rewrite firstn_length. lia.
  - rewrite <- (firstn_skipn (length v) ps), Forall_app in F. tauto.
  - rewrite firstn_skipn in E. exists o. split; auto. eapply changes_ext; [|exact C]. intros j B. unfold added. apply total_zero. intros [p x] I. simpl.
    apply in_combine_r in I. rewrite (Z x I). now destruct (p =? j).
Qed.

Local Lemma add_zero_vectors vs : (forall v x, In v vs -> In x v -> x = zero) -> forall ps out, length (concat vs) <= length ps ->
  Forall (fun p => p < length out) ps ->
  exists r, foldM (add_vector add) vs (ps, out) = Ok r /\ changes out (snd r) (fun _ => zero).
Proof.
  induction vs as [|v vs IH]; intros Z ps out L F; simpl.
  - eexists. split; [reflexivity|apply changes_refl].
  - simpl in L. rewrite app_length in L. destruct (add_zeros v) with (ps := ps) (out := out) as (o & E & C); auto; [|lia|].
    + intros. eapply Z; [now left|auto].
    + rewrite E. simpl. destruct (IH (fun w x I => Z w x (or_intror I)) (skipn (length v) ps) o) as (r & E2 & C2).
      * rewrite skipn_length. lia.
      * destruct C as [-> _]. rewrite <- (firstn_skipn (length v) ps), Forall_app in F. tauto.
      * exists r. split; auto. eapply changes_ext; [|eapply changes_trans; eassumption]. intros. simpl. apply add_0_l.
Qed.

Local Lemma starts_rd {A} (l : list (list A)) t : t < length l -> rd (starts 0 l) t = Ok (length (concat (firstn t l))).
Proof.
  intros L. destruct (nth_error l t) as [x|] eqn:X; [|apply nth_error_None in X; lia].
  destruct (nth_error_split l t X) as (a & b & -> & <-). unfold rd. rewrite L_BoundaryValues.starts_nth.
  rewrite firstn_app, firstn_all, Nat.sub_diag. simpl. now rewrite app_nil_r.
Qed.

Local Lemma concat_suffix {A} (l : list (list A)) t k x : nth_error l (k + t) = Some x -> length x <= length (concat (skipn t l)).
Proof.
  intros E. destruct (nth_error_split l (k + t) E) as (a & b & -> & La). rewrite skipn_app, concat_app, app_length.
  replace (t - length a) with 0 by lia. simpl. rewrite app_length. lia.
Qed.

Local Lemma skipn_blocks {A} (l : list (list A)) k : skipn (length (concat (firstn k l))) (concat l) = concat (skipn k l).
Proof.
  transitivity (skipn (length (concat (firstn k l))) (concat (firstn k l ++ skipn k l))); [now rewrite firstn_skipn|].
  apply L_BoundaryValues.skipn_concat.
Qed.

Local Lemma vectors_length es : Forall good_element es -> length (concat (map snd es)) = length (block dofs es).
Proof. induction 1 as [|e es [L _] F IH]; simpl; auto. now rewrite !app_length, IH, positions_length, L. Qed.

Local Lemma block_below es : Forall good_element es -> Forall (fun p => p < dofs * size) (block dofs es).
Proof. induction 1 as [|e es [_ B] F IH]; simpl; [constructor|]. apply Forall_app. split; auto. now apply positions_below. Qed.

Local Lemma fill_zeros front ts : Forall (Forall good_element) front -> Forall (Forall good_element) ts ->
  (forall es e x, In es ts -> In e es -> In x (snd e) -> x = zero) ->
  forall pre post out, ts = pre ++ post -> length out = dofs * size ->
  exists out', foldM (fill_block add (concat (map (block dofs) (front ++ ts)), starts 0 (map (block dofs) (front ++ ts))))
      (combine (seq (length pre) (length post)) (map (map snd) post)) out = Ok out' /\ loaded out out' (fun _ _ => zero).
Proof.
  intros Ff Ft Z pre post. revert pre. induction post as [|es post IH]; intros pre out E L; simpl.
  - exists out. split; [reflexivity|apply loaded_refl].
  - unfold fill_block at 1. cbn [fst snd].
    assert (All : Forall (Forall good_element) (front ++ ts)) by (apply Forall_app; auto).
    assert (Ie : In es ts) by (rewrite E; apply in_or_app; right; now left).
    rewrite starts_rd by (rewrite map_length, E, !app_length; simpl; lia). simpl.
    rewrite skipn_blocks.
    destruct (add_zero_vectors (map snd es)) with (ps := concat (skipn (length pre) (map (block dofs) (front ++ ts)))) (out := out) as (r & E1 & C1).
    + intros v x Iv Ix. apply in_map_iff in Iv. destruct Iv as (e & <- & Iv). eapply Z; eauto.
    + rewrite vectors_length by (rewrite Forall_forall in Ft; auto). apply concat_suffix with (length front).
      rewrite map_app, nth_error_app2 by (rewrite map_length; lia). rewrite map_length, E, map_app.
      rewrite nth_error_app2 by (rewrite map_length; lia). rewrite map_length. replace (_ - _) with 0 by lia. reflexivity.
    + apply Forall_forall. intros p Ip. rewrite in_concat in Ip. destruct Ip as (b & Ib & Ip).
      assert (Ib' : In b (map (block dofs) (front ++ ts))).
      { rewrite <- (firstn_skipn (length pre)). apply in_or_app. now right. }
      apply in_map_iff in Ib'. destruct Ib' as (es' & <- & Ie'). rewrite Forall_forall in All. specialize (All _ Ie').
      pose proof (block_below es' All) as B. rewrite Forall_forall in B. rewrite L. auto.
    + rewrite E1. simpl. destruct C1 as [L1 C1].
      destruct (IH (pre ++ [es]) (snd r)) as (o2 & E2 & C2); [rewrite E, <- app_assoc; reflexivity|congruence|].
      rewrite app_length, Nat.add_comm in E2. simpl in E2. exists o2. split; [exact E2|].
      eapply loaded_ext; [|eapply loaded_trans; [|exact C2]].
      * intros. simpl. apply add_0_l.
      * split; auto. intros n d Ln Ld. rewrite C1 by (rewrite L; nia). reflexivity.
Qed.

(** ** Everything *)
Local Lemma good_all ivs : good_elements dofs size ivs -> Forall (Forall good_element) ivs.
Proof. intros G. apply Forall_forall. intros es Ie. apply Forall_forall. intros e I. exact (G es e Ie I). Qed.
Local Lemma good_threads ts : good_nodes dofs size ts -> Forall (Forall good_element) (map as_elements ts).
Proof.
  intros G. apply Forall_forall. intros es Ie. apply in_map_iff in Ie. destruct Ie as (ns & <- & Ie). apply Forall_forall. intros e I.
  unfold as_elements in I. apply in_map_iff in I. destruct I as (m & <- & I). destruct (G ns m Ie I) as [L B]. split; simpl; [lia|].
  intros n [<-|[]]. exact B.
Qed.
Local Lemma as_elements_snd (ts : list (list (nat * list V))) : map (map snd) (map as_elements ts) = map (map snd) ts.
Proof. rewrite map_map. apply map_ext. intros ns. unfold as_elements. now rewrite map_map. Qed.
Local Lemma node_element (m : nat * list V) n d : element_load add zero ([fst m], snd m) n d = node_load zero m n d.
Proof.
  unfold element_load, node_load, total. simpl. rewrite add_0_r. destruct (fst m =? n); auto. f_equal. lia.
Qed.
Local Lemma numbered_eq {A B} (h : A -> B) l : numbered (map h l) = combine (seq 0 (length l)) (map h l).
Proof. unfold numbered. now rewrite map_length. Qed.

Local Lemma fill_region_ok r out : good_region dofs size r -> dimension r = 0 \/ no_nodal_loads zero r -> length out = dofs * size ->
  exists out', fill_region add dofs out r = Ok out' /\ loaded out out' (fun n d => region_load add zero r n d).
Proof.
  intros [Gf Gn] D L. unfold fill_region. cbv zeta. rewrite build_region_eq. apply good_all in Gf. apply good_threads in Gn.
  assert (Nodes : forall n d, tot (map as_elements (nodes r)) (fun es => tot es (fun e => element_load add zero e n d)) =
    tot (nodes r) (fun ns => tot ns (fun m => node_load zero m n d))).
  { intros n d. rewrite total_map. apply total_ext. intros ns _. unfold as_elements. rewrite total_map. apply total_ext. intros m _. apply node_element. }
  unfold region_load. destruct (Nat.eqb_spec (dimension r) 0) as [Z|Z].
  - simpl. destruct (fill_own (map as_elements (nodes r)) (blocks r) Gn [] [] out) as (o & E & C); auto.
    { unfold blocks. rewrite Z. simpl. now rewrite app_nil_r. }
    simpl in E. rewrite as_elements_snd, map_length in E. rewrite numbered_eq, E. exists o. split; auto.
    eapply loaded_ext; [|exact C]. intros n d _ _. simpl. now rewrite Nodes, add_0_l.
  - destruct D as [D|D]; [tauto|].
    destruct (fill_own (faces r) (blocks r) Gf [] (map as_elements (nodes r)) out) as (o1 & E1 & C1); auto.
    { unfold blocks. destruct (Nat.eqb_spec (dimension r) 0); [tauto|reflexivity]. }
    simpl in E1. match goal with |- context [obind ?m _] => replace m with (@Ok (list V) o1) by (symmetry; unfold numbered; rewrite map_length; exact E1) end. simpl.
    destruct (fill_zeros (faces r) (map as_elements (nodes r)) Gf Gn) with (pre := @nil (list elem)) (post := map as_elements (nodes r)) (out := o1) as (o2 & E2 & C2); auto.
    { intros es e x Ie I Ix. apply in_map_iff in Ie. destruct Ie as (ns & <- & Ie). unfold as_elements in I. apply in_map_iff in I.
      destruct I as (m & <- & I). eapply D; eauto. }
    { destruct C1. congruence. }
    simpl in E2. rewrite as_elements_snd, map_length in E2. rewrite numbered_eq. unfold blocks.
    destruct (Nat.eqb_spec (dimension r) 0); [tauto|]. rewrite E2. exists o2. split; auto.
    eapply loaded_ext; [|eapply loaded_trans; [exact C1|exact C2]]. intros n0 d _ _. simpl. unfold elements_load. f_equal. symmetry.
    apply total_zero. intros ns Ins. apply total_zero. intros m Im. unfold node_load. destruct (fst m =? n0); auto.
    destruct (nth_in_or_default d (snd m) zero) as [I|I]; auto. eapply D; eauto.
Qed.

(** C138: every component of every node gets the loads of its elements, of the faces of regions and of the nodes of regions without elements *)
Theorem loads_added intervals regions out :
  good_elements dofs size intervals -> (forall r, In r regions -> good_region dofs size r) ->
  (forall r, In r regions -> dimension r = 0 \/ no_nodal_loads zero r) -> length out = dofs * size ->
  exists out', fill_loads add dofs intervals regions out = Ok out' /\ length out' = dofs * size /\
    forall n d, n < size -> d < dofs -> nth (n * dofs + d) out' zero = add (nth (n * dofs + d) out zero) (load add zero intervals regions n d).
Proof.
  intros Ge Gr D L. unfold fill_loads, fill_elements. rewrite build_elements_eq. apply good_all in Ge.
  destruct (fill_own intervals intervals Ge [] [] out) as (o1 & E1 & C1); auto; [simpl; now rewrite app_nil_r|].
  simpl in E1.
  match goal with |- context [obind ?m _] => replace m with (@Ok (list V) o1) by (symmetry; unfold numbered; rewrite map_length; exact E1) end. simpl.
  assert (A : forall rs o, (forall r, In r rs -> In r regions) -> length o = dofs * size ->
    exists out', foldM (fill_region add dofs) rs o = Ok out' /\ loaded o out' (fun n d => tot rs (fun r => region_load add zero r n d))).
  { induction rs as [|r rs IH]; intros o Sub Lo; simpl.
    - exists o. split; [reflexivity|apply loaded_refl].
    - destruct (fill_region_ok r o) as (o' & E & C); auto; [apply Gr, Sub; now left|apply D, Sub; now left|]. rewrite E. simpl.
      destruct (IH o') as (o'' & E' & C'); [intros; apply Sub; now right|destruct C; congruence|]. exists o''. split; auto.
      eapply loaded_ext; [|eapply loaded_trans; eassumption]. intros. now rewrite total_cons. }
  destruct (A regions o1 (fun _ H => H)) as (o2 & E2 & C2); [destruct C1; congruence|].
  exists o2. split; auto. destruct (loaded_trans _ _ _ _ _ C1 C2) as [L2 Q]. split; [congruence|]. intros n d Ln Ld. now rewrite Q.
Qed.
End Sums.

(** C138: in a region with elements, forces in nodes are added to the components of other nodes *)
Theorem nodal_loads_refuted :
  exists (r : @region Z) out', dimension r = 1 /\ good_region 2 2 r /\
    fill_loads Z.add 2 [] [r] [0; 0; 0; 0]%Z = Ok out' /\
    (* both nodes have the force (1, 10), and the vector would be 1, 10, 1, 10 *)
    load Z.add 0%Z [] [r] 0 0 = 1%Z /\ load Z.add 0%Z [] [r] 0 1 = 10%Z /\ load Z.add 0%Z [] [r] 1 0 = 1%Z /\ load Z.add 0%Z [] [r] 1 1 = 10%Z /\
    out' = [1; 1; 10; 10]%Z.
Proof.
  exists (Region 1 [[([0; 1], [0; 0; 0; 0]%Z)]] [[(0, [1; 10]%Z); (1, [1; 10]%Z)]]). eexists. split; [reflexivity|]. split.
  - split.
    + intros es e Hes He. destruct Hes as [<-|[]]. destruct He as [<-|[]]. split; [reflexivity|]. simpl. intros n Hn. lia.
    + intros ns m Hns Hm. destruct Hns as [<-|[]]. destruct Hm as [<-|[<-|[]]]; simpl; split; auto; lia.
  - repeat (split; [reflexivity|]). reflexivity.
Qed.

(** Hypotheses are met: two triangles, an edge with a pressure, a node with a force *)
Definition mesh_elements : list (list (@element Z)) :=
  [[([0; 1; 2], [1; 2; 3; 4; 5; 6]%Z)]; [([1; 3; 2], [10; 20; 30; 40; 50; 60]%Z)]].
Definition mesh_regions : list (@region Z) :=
  [Region 1 [[([1; 3], [100; 200; 300; 400]%Z)]] [[(1, [0; 0]%Z)]; [(3, [0; 0]%Z)]]; Region 0 [] [[(3, [1000; 2000]%Z)]; []]].
Example mesh_met :
  addition Z.add 0%Z /\ good_elements 2 4 mesh_elements /\ (forall r, In r mesh_regions -> good_region 2 4 r) /\
  (forall r, In r mesh_regions -> dimension r = 0 \/ no_nodal_loads 0%Z r) /\
  fill_loads Z.add 2 mesh_elements mesh_regions (repeat 0%Z 8) = Ok [1; 4; 112; 345; 33; 66; 1220; 2450]%Z.
Proof.
  split; [|split; [|split; [|split]]].
  - repeat split; intros; lia.
  - intros es e Hes He. repeat (destruct Hes as [<-|Hes]; [destruct He as [<-|[]]; split; [reflexivity|]; simpl; intros; lia|]). destruct Hes.
  - intros r Hr. destruct Hr as [<-|[<-|[]]]; split.
    + intros es e Hes He. destruct Hes as [<-|[]]. destruct He as [<-|[]]. split; [reflexivity|]. simpl. intros; lia.
    + intros ns m Hns Hm. destruct Hns as [<-|[<-|[]]]; destruct Hm as [<-|[]]; simpl; split; auto; lia.
    + intros es e [].
    + intros ns m Hns Hm. destruct Hns as [<-|[<-|[]]]; [|destruct Hm]. destruct Hm as [<-|[]]; simpl; split; auto; lia.
  - intros r Hr. destruct Hr as [<-|[<-|[]]]; [right|left; reflexivity].
    intros ns m x Hns Hm Hx. destruct Hns as [<-|[<-|[]]]; destruct Hm as [<-|[]]; simpl in Hx; intuition.
  - reflexivity.
Qed.

Print Assumptions loads_added.
Print Assumptions nodal_loads_refuted.
