(** Lemmas about the gluing constraints: [equality_set] of a rank. *)
From Coq Require Import List Arith Bool Permutation Sorted Lia.
From Verif Require Import Base S_Order S_Dual M_Dual S_Equality M_Equality L_Equality L_Equality2 L_Equality3.
Import ListNotations.
Local Open Scope out_scope.

Lemma filter_nth_seq {A} (f : A -> bool) (L : list A) d : map (fun i => nth i L d) (filter (fun i => f (nth i L d)) (seq 0 (length L))) = filter f L.
Proof. rewrite <- filter_map_comm. f_equal. rewrite (map_nth_seq (fun x => x) L d). apply map_id. Qed.
Lemma combine_seq_app {A} (x y : list A) b : combine (seq b (length (x ++ y))) (x ++ y) = combine (seq b (length x)) x ++ combine (seq (b + length x) (length y)) y.
Proof.
  revert b. induction x as [|a x IH]; intros b; cbn [length app seq combine]; [now rewrite Nat.add_0_r|]. f_equal. rewrite IH. do 3 f_equal. lia.
Qed.
Lemma combine_map_r {A B C} (f : B -> C) (x : list A) : forall y, combine x (map f y) = map (fun p => (fst p, f (snd p))) (combine x y).
Proof. induction x as [|a x IH]; intros [|c y]; cbn; try reflexivity. f_equal. apply IH. Qed.
Lemma combine3 {T} (l : list (nat * (nat * T))) : combine (map fst l) (combine (map (fun x => fst (snd x)) l) (map (fun x => snd (snd x)) l)) = l.
Proof. induction l as [|(a, (c, v)) l IH]; cbn; [reflexivity|]. now rewrite IH. Qed.
Lemma sorted_split {A} (lt : A -> A -> Prop) (f : A -> bool) l : StronglySorted lt l -> (forall x y, In x l -> In y l -> lt x y -> f y = true -> f x = true) ->
  l = filter f l ++ filter (fun x => negb (f x)) l.
Proof.
  intros S H. induction S as [|x l S IH F]; [reflexivity|]. cbn [filter]. destruct (f x) eqn:E; cbn [negb].
  - cbn [app]. f_equal. apply IH. intros y z Iy Iz. apply H; now right.
  - assert (K : forall y, In y l -> f y = false).
    { intros y I. destruct (f y) eqn:Ey; [|reflexivity]. rewrite Forall_forall in F. rewrite <- E. symmetry. apply (H x y); auto; now constructor. }
    replace (filter f l) with (@nil A). 2: { clear -K. induction l as [|y l IH]; [reflexivity|]. cbn. rewrite K by now left. apply IH. intros. apply K. now right. }
    cbn [app]. f_equal. clear -K. induction l as [|y l IH]; [reflexivity|]. cbn. rewrite K by now left. cbn. f_equal. apply IH. intros. apply K. now right.
Qed.
Lemma filter_seq_range f b m c k : (forall d, f d = true <-> b <= d < b + m) -> c <= b -> b + m <= c + k -> filter f (seq c k) = seq b m.
Proof.
  intros H L1 L2. apply (strict_unique lt); [lia|apply ss_filter, ss_seq|apply ss_seq|]. intros x. rewrite filter_In, !in_seq, H. lia.
Qed.

Section Set_.
  Context {T : Type}.
  Variables (zero one : T) (low diag : nat -> T).
  Variables (n : nat) (first : nat -> nat) (N : nat) (copies : nat -> list nat) (fixed : nat -> bool) (index : nat -> nat -> nat -> nat).
  Hypothesis M : mesh n first N copies.
  Variables (nb : nat -> list nat) (r : nat).
  Hypothesis Hr : r < n.
  Variable glued : list (nat * nat).
  Hypothesis Hg : ordered N copies fixed glued.
  Variable sort : (nat * nat -> nat * nat -> bool) -> list (nat * nat) -> list (nat * nat).
  Hypothesis Hsort : forall lt, strict_weak_order lt -> sort_contract lt (sort lt).

  Local Notation D := (decomposed first nb r).
  Local Notation b := (first r).
  Local Notation m := (first (r + 1) - first r).
  Local Notation loc := (local first N copies r).
  Local Notation touch := (touches first r).
  Local Notation dmap := (dmap_of first N copies index r).
  Local Notation ps := (sort (less dmap) (flat_map (perm_of first N copies fixed r) (seq 0 (length loc)))).
  Local Notation glob := (to_global first N copies r).
  Local Notation all := (multipliers n first N copies fixed glued).
  Local Notation Ls := (map (domains_of copies) all).
  Local Notation cols := (fun d => map (fun g => index r d g) (fixed_in N copies fixed d)).
  Definition glue_of (p : nat * nat) : multiplier := Glue (fst p) (snd p).
  Definition own_fixes : list multiplier := flat_map (fun d => map (Fix d) (fixed_in N copies fixed d)) (seq b m).

  Lemma first_le : forall k i, i + k <= n -> first i <= first (i + k).
  Proof.
    induction k as [|k IH]; intros i H; [now rewrite Nat.add_0_r|]. specialize (IH i ltac:(lia)). pose proof (mesh_first _ _ _ _ M (i + k) ltac:(lia)) as F.
    replace (i + S k) with (i + k + 1) by lia. lia.
  Qed.
  Lemma first_bounds : first 0 <= b /\ b <= first (r + 1) /\ first (r + 1) <= first n.
  Proof.
    pose proof (first_le r 0 ltac:(lia)). pose proof (mesh_first _ _ _ _ M r Hr). pose proof (first_le (n - (r + 1)) (r + 1) ltac:(lia)) as F.
    replace (r + 1 + (n - (r + 1))) with n in F by lia. rewrite Nat.add_0_l in *. lia.
  Qed.
  Lemma own_range d : (b <=? d) && (d <? first (r + 1)) = true <-> b <= d < b + m.
  Proof. pose proof first_bounds. rewrite andb_true_iff, Nat.leb_le, Nat.ltb_lt. lia. Qed.
  Lemma has_loc d : b <= d < b + m -> filter (has copies fixed d) loc = fixed_in N copies fixed d.
  Proof.
    intros H. unfold local, fixed_in. change (fun g => fixed g && existsb (Nat.eqb d) (copies g)) with (has copies fixed d).
    induction (seq 0 N) as [|g l IH]; [reflexivity|]. cbn [filter]. destruct (touch (copies g)) eqn:E; cbn [filter]; rewrite IH; [reflexivity|].
    replace (has copies fixed d g) with false; [reflexivity|]. symmetry. unfold has. destruct (existsb (Nat.eqb d) (copies g)) eqn:X; [|apply andb_false_r].
    exfalso. apply existsb_exists in X as (d' & I & X). apply Nat.eqb_eq in X. subst d'. enough (touch (copies g) = true) by congruence.
    unfold touches. apply existsb_exists. exists d. split; [easy|]. now apply own_range.
  Qed.
  Lemma held_split : held_multipliers first copies r all = map glue_of (map glob ps) ++ own_fixes.
  Proof.
    unfold held_multipliers, multipliers. rewrite filter_app. f_equal.
    - rewrite filter_map_comm. rewrite (sorted_global n first N copies fixed index nb r Hr glued Hg sort Hsort). reflexivity.
    - unfold fixes, own_fixes. rewrite filter_flat_map. rewrite <- (filter_seq_range (fun d => (b <=? d) && (d <? first (r + 1))) b m (first 0) (first n - first 0)); [|intros; apply own_range|apply first_bounds|pose proof first_bounds; lia].
      rewrite flat_map_filter. apply flat_map_ext_in. intros d _. rewrite filter_map_comm. cbn [domains_of]. unfold touches. cbn [existsb]. rewrite orb_false_r.
      destruct ((b <=? d) && (d <? first (r + 1))).
      + clear. induction (fixed_in N copies fixed d); [reflexivity|]. cbn in *. congruence.
      + clear. induction (fixed_in N copies fixed d); [reflexivity|]. cbn in *. exact IHl.
  Qed.

  (* ---- the multipliers of the loop -------------------------------------------- *)
  Lemma ps_valid p : In p ps -> valid first N copies fixed r p.
  Proof. exact (sorted_valid n first N copies fixed index r Hr sort Hsort p). Qed.
  Lemma ps_sorted : StronglySorted (fun p q => less dmap p q = true) ps.
  Proof. exact (proj2 (sort_strict dmap sort _ (Hsort _ (less_order dmap)) (perm_nodup first N copies fixed r))). Qed.
  Lemma len_dmap : length dmap = length loc.
  Proof. unfold dmap_of. apply map_length. Qed.
  Lemma doms_global p : valid first N copies fixed r p -> doms dmap p = domains_of copies (glue_of (glob p)).
  Proof. intros (V1 & V2 & V3). unfold doms. rewrite dmap_domains by easy. reflexivity. Qed.
  Lemma in_front_global p : valid first N copies fixed r p -> in_front first r dmap p = (nth 0 (copies (fst (glob p))) 0 <? b).
  Proof.
    intros (V1 & V2 & V3). unfold in_front. rewrite dmap_nth by easy. cbn [to_global fst]. f_equal.
    destruct (copies (nth (fst p) loc 0)) eqn:E; [cbn in V3; lia|reflexivity].
  Qed.
  Lemma front_mono p q : In p ps -> In q ps -> less dmap p q = true -> in_front first r dmap q = true -> in_front first r dmap p = true.
  Proof.
    intros Ip Iq H. apply ps_valid in Ip, Iq. rewrite !in_front_global by easy. rewrite !Nat.ltb_lt. rewrite less_lex, lex2_lt in H. unfold lkey in H. cbn [fst snd] in H.
    destruct Ip as (P1 & P2 & P3), Iq as (Q1 & Q2 & Q3).
    assert (L : forall i, i < length loc -> length (nth i dmap []) = length (copies (nth i loc 0))) by (intros; rewrite dmap_nth by easy; apply map_length).
    rewrite !prefix_firstn, !dmap_domains in H by (try rewrite L; lia). cbn [to_global fst].
    set (x := copies (nth (fst p) loc 0)) in *. set (y := copies (nth (fst q) loc 0)) in *. destruct p as (p, [|k]), q as (q, [|k']); cbn [fst snd] in *; try lia.
    destruct x as [|x0 x]; [cbn in P3; lia|]. destruct y as [|y0 y]; [cbn in Q3; lia|]. cbn [firstn nth] in *. rewrite lex_step in H.
    destruct H as [[H|[H _]]|[H _]]; [lia|lia|]. injection H as -> _. lia.
  Qed.
  Lemma rows_global l p d : valid first N copies fixed r p -> rows_at low diag dmap l p d = map (pair l) (entries copies index one low diag r d (glue_of (glob p))).
  Proof.
    intros (V1 & V2 & V3). unfold rows_at, glue_rows. cbn [glue_of to_global entries fst snd]. rewrite map_map. set (g := nth (fst p) loc 0) in *.
    assert (E : forall c, c < length (copies g) -> nth c (nth (fst p) dmap []) (0, 0) = (nth c (copies g) 0, index r (nth c (copies g) 0) g)).
    { intros c Hc. rewrite dmap_nth by easy. fold g. rewrite (nth_indep _ (0, 0) (0, index r 0 g)) by now rewrite map_length.
      exact (map_nth (fun d => (d, index r d g)) (copies g) 0 c). }
    rewrite (filter_ext_in (fun c => fst (nth c (nth (fst p) dmap []) (0, 0)) =? d) (fun c => nth c (copies g) 0 =? d)).
    2: { intros c I. apply in_seq in I. rewrite E by lia. reflexivity. }
    apply map_ext_in. intros c I. apply filter_In in I as [I Ed]. apply in_seq in I. apply Nat.eqb_eq in Ed. rewrite E by lia. cbn [snd]. now rewrite Ed.
  Qed.
  Lemma own_fixes_expand k : expand (flat_map (fun d => match cols d with [] => [] | _ => [(length (cols d), [d])] end) (seq b k))
    = map (domains_of copies) (flat_map (fun d => map (Fix d) (fixed_in N copies fixed d)) (seq b k)).
  Proof.
    clear. generalize b as c. induction k as [|k IH]; intros c; [reflexivity|]. cbn [seq flat_map]. rewrite expand_app, map_app, IH. f_equal. rewrite map_map. cbn [domains_of].
    set (x := fixed_in N copies fixed c). transitivity (repeat [c] (length x)).
    - destruct x as [|g x]; [reflexivity|]. cbn [map]. unfold expand. cbn [flat_map fst snd]. rewrite app_nil_r. f_equal. cbn. now rewrite map_length.
    - clear. induction x; cbn; [reflexivity|]. now f_equal.
  Qed.
  Lemma own_fixes_rows d l0 : b <= d < b + m ->
    fixed_rows one (offset_of first r cols l0 d) (cols d)
    = flat_map (fun x => map (pair (fst x)) (entries copies index one low diag r d (snd x))) (combine (seq l0 (length own_fixes)) own_fixes).
  Proof.
    intros Hd. unfold own_fixes. replace m with ((d - b) + (1 + (m - (d - b) - 1))) by lia. rewrite !seq_app, !flat_map_app. cbn [seq flat_map]. rewrite app_nil_r.
    replace (b + (d - b)) with d by lia. set (A := flat_map _ (seq b (d - b))). set (C := flat_map _ (seq (d + 1) _)).
    rewrite combine_seq_app, flat_map_app, combine_seq_app, flat_map_app.
    assert (Z : forall l (X : list multiplier), (forall x, In x X -> exists d' g, x = Fix d' g /\ d' <> d) ->
      flat_map (fun x => map (pair (fst x)) (entries copies index one low diag r d (snd x))) (combine (seq l (length X)) X) = []).
    { clear. intros l X. revert l. induction X as [|x X IH]; intros l H; [reflexivity|]. cbn [length seq combine flat_map fst snd]. rewrite IH by (intros; apply H; now right).
      destruct (H x (or_introl eq_refl)) as (d' & g & -> & Nd). cbn [entries]. destruct (Nat.eqb_spec d' d); [contradiction|reflexivity]. }
    rewrite (Z _ A), (Z _ C).
    2: { intros x I. apply in_flat_map in I as (d' & Id & I). apply in_map_iff in I as (g & <- & _). apply in_seq in Id. exists d', g. split; [reflexivity|lia]. }
    2: { intros x I. apply in_flat_map in I as (d' & Id & I). apply in_map_iff in I as (g & <- & _). apply in_seq in Id. exists d', g. split; [reflexivity|lia]. }
    rewrite app_nil_r. cbn [app]. assert (EA : offset_of first r cols l0 d = l0 + length A).
    { unfold offset_of, A. f_equal. clear. induction (seq b (d - b)) as [|x l IH]; [reflexivity|]. cbn [flat_map]. now rewrite !app_length, IH, !map_length. }
    rewrite EA. unfold fixed_rows. rewrite !map_length. rewrite !combine_map_r, map_map, flat_map_map. cbn [fst snd entries]. rewrite Nat.eqb_refl. cbn [map].
    clear. induction (combine (seq (l0 + length A) (length (fixed_in N copies fixed d))) (fixed_in N copies fixed d)) as [|x l IH]; [reflexivity|]. cbn. now f_equal.
  Qed.

  Local Notation hm := (held_multipliers first copies r all).
  Lemma held_domains : map (fun i => nth i Ls []) (held first Ls r) = map (domains_of copies) hm.
  Proof.
    transitivity (filter touch Ls); [exact (filter_nth_seq touch Ls [])|]. unfold held_multipliers. now rewrite filter_map_comm.
  Qed.
  Lemma equality_set_ok : exists E, equality_set zero one low diag sort D dmap (fixed_of first N copies fixed r) = Ok E /\
    e_size E = length hm /\ describes first Ls (e_cmap E) r /\ intervals_ok first Ls [length Ls] r [e_interval E] /\
    (forall d, b <= d < b + m -> domain_rows E (d - b) = Ok (rows_of copies index one low diag r d hm)) /\
    e_doffset E = map (offset_of first r cols (length ps)) (seq b m).
  Proof.
    destruct (collect_ok n first N copies fixed index M nb r Hr) as (di & maxm & Ec & M2 & Mx).
    unfold equality_set. change (dend D - dbegin D) with m. rewrite Ec. cbn [obind].
    destruct (lambdas_vals_ok zero low diag maxm) as (vals & -> & V). cbn [obind]. rewrite (Bof_nil b m).
    assert (G : Forall (good dmap maxm) ps).
    { apply Forall_forall. intros p I. apply ps_valid in I as (V1 & V2 & V3). unfold good. rewrite len_dmap. split; [easy|]. rewrite dmap_nth, map_length by easy.
      pose proof (Mx (nth (fst p) loc 0) (nth_In _ _ V1) V2). lia. }
    destruct (push_lambdas_ok low diag first nb r (mesh_first _ _ _ _ M r Hr) dmap maxm vals V ps 0 0 0 [] [] (fun _ => []) G) as (prev & cmap & E1 & K1).
    { exists []. repeat split; try easy. now left. }
    rewrite E1. cbn [obind].
    rewrite (map_ext_in (fun d => map (fun g => index r d g) (filter (has copies fixed d) loc)) cols).
    2: { intros d I. apply in_seq in I. now rewrite has_loc by lia. }
    rewrite (fixed_domains_ok one first nb r (mesh_first _ _ _ _ M r Hr) cols m (le_n _)). cbn [obind Bof].
    eexists. split; [reflexivity|]. cbn [e_size e_interval e_cmap e_doffset].
    assert (Len : 0 + length ps + length (flat_map cols (seq b m)) = length hm).
    { rewrite held_split, app_length, !map_length. cbn [Nat.add]. f_equal. unfold own_fixes. clear. induction (seq b m) as [|x l IH]; [reflexivity|]. cbn [flat_map].
      now rewrite !app_length, IH, !map_length. }
    split; [exact Len|]. split; [|split; [|split]].
    - destruct K1 as (bl & -> & Ex & P & _). eexists (bl ++ _). rewrite cmap_of_app. split; [reflexivity|]. split.
      + rewrite expand_app, Ex, own_fixes_expand. unfold domains. rewrite held_domains, held_split, map_app. fold own_fixes. f_equal. cbn [app]. rewrite !map_map.
        apply map_ext_in. intros p I. apply doms_global. now apply ps_valid.
      + apply Forall_app. split; [exact P|]. apply Forall_forall. intros x I. apply in_flat_map in I as (d & _ & I). destruct (cols d) eqn:Ed; [contradiction|].
        destruct I as [<-|[]]. cbn. lia.
    - split; [cbn; lia|]. cbn [groups]. constructor; [|constructor]. rewrite Len.
      set (A := filter (in_front first r dmap) ps). set (C := filter (fun p => negb (in_front first r dmap p)) ps).
      assert (Eps : ps = A ++ C).
      { apply (sorted_split (fun p q => less dmap p q = true)); [exact ps_sorted|]. intros p q Ip Iq. now apply front_mono. }
      assert (Eh : halo_of first r dmap 0 ps 0 = length A).
      { rewrite Eps. apply (halo_split first r (mesh_first _ _ _ _ M r Hr) dmap A C 0 0); [| |reflexivity]; apply Forall_forall; intros p I; apply filter_In in I as [_ I]; [easy|now apply negb_true_iff]. }
      rewrite Eh. set (h := held_in first Ls r (0, length Ls)). assert (Hh : map (fun i => nth i Ls []) h = map (domains_of copies) hm) by exact held_domains.
      assert (Lh : length h = length hm) by (apply (f_equal (@length _)) in Hh; now rewrite !map_length in Hh).
      assert (LA : length A <= length hm) by (rewrite held_split, Eps, !app_length, !map_length, app_length; lia).
      exists (firstn (length A) h), (skipn (length A) h). split; [symmetry; apply firstn_skipn|]. split; [rewrite firstn_length, skipn_length; f_equal; lia|].
      assert (H1 : map (fun i => nth i Ls []) (firstn (length A) h) = map (fun p => firstn (snd (glob p)) (copies (fst (glob p)))) A).
      { rewrite <- firstn_map, Hh, held_split, Eps, !map_app, <- app_assoc, firstn_app, !map_map. rewrite map_length, Nat.sub_diag, firstn_O, app_nil_r.
        rewrite firstn_all2 by (rewrite map_length; lia). reflexivity. }
      assert (H2 : map (fun i => nth i Ls []) (skipn (length A) h) = map (fun p => firstn (snd (glob p)) (copies (fst (glob p)))) C ++ map (domains_of copies) own_fixes).
      { rewrite <- skipn_map, Hh, held_split, Eps, !map_app, <- app_assoc, skipn_app, !map_map. rewrite map_length, Nat.sub_diag, skipn_O.
        rewrite skipn_all2 by (rewrite map_length; lia). reflexivity. }
      split; intros i I.
      + apply (in_map (fun i => nth i Ls [])) in I. rewrite H1 in I. apply in_map_iff in I as (p & E & I). apply filter_In in I as [Ip If].
        apply ps_valid in Ip. rewrite in_front_global in If by easy. apply Nat.ltb_lt in If. unfold owned, domains. rewrite <- E. destruct Ip as (V1 & V2 & V3).
        cbn [to_global fst snd] in *. destruct (copies (nth (fst p) loc 0)) as [|x ds]; [cbn in V3; lia|]. destruct (snd p) as [|k]; [lia|]. cbn [firstn nth] in *.
        unfold touches. cbn [existsb]. destruct (Nat.leb_spec b x); [lia|]. reflexivity.
      + assert (Ih : touch (nth i Ls []) = true).
        { assert (Ih : In i h) by (rewrite <- (firstn_skipn (length A) h); apply in_or_app; now right). unfold h, held_in in Ih. apply filter_In in Ih. exact (proj2 Ih). }
        apply (in_map (fun i => nth i Ls [])) in I. rewrite H2 in I. unfold owned, domains. apply in_app_or in I as [I|I].
        * apply in_map_iff in I as (p & E & I). apply filter_In in I as [Ip If]. apply ps_valid in Ip. apply negb_true_iff in If. rewrite in_front_global in If by easy. apply Nat.ltb_ge in If.
          rewrite <- E in *. destruct Ip as (V1 & V2 & V3). cbn [to_global fst snd] in *. set (g := nth (fst p) loc 0) in *.
          assert (Sg : StronglySorted lt (copies g)). { apply (mesh_copies _ _ _ _ M). assert (Ig : In g loc) by now apply nth_In. unfold local in Ig. apply filter_In in Ig as [Ig _]. apply in_seq in Ig. lia. }
          destruct (copies g) as [|x ds]; [cbn in V3; lia|]. destruct (snd p) as [|k]; [lia|]. cbn [firstn nth] in *.
          unfold touches. cbn [existsb]. rewrite orb_false_r. apply andb_true_iff. split; [apply Nat.leb_le; lia|].
          unfold touches in Ih. apply existsb_exists in Ih as (y & Iy & Ey). apply andb_true_iff in Ey as [_ Ey]. apply Nat.ltb_lt in Ey. apply Nat.ltb_lt.
          apply StronglySorted_inv in Sg as [_ F]. rewrite Forall_forall in F. destruct Iy as [->|Iy]; [lia|].
          assert (In y ds) by (rewrite <- (firstn_skipn k ds); apply in_or_app; now left). specialize (F y H). lia.
        * apply in_map_iff in I as (x & E & I). apply in_flat_map in I as (d & Id & I). apply in_map_iff in I as (g & <- & _). rewrite <- E. cbn [domains_of firstn].
          unfold touches. cbn [existsb]. rewrite orb_false_r. apply own_range. apply in_seq in Id. lia.
    - intros d Hd. unfold domain_rows. cbn [e_D2C e_COLS e_VALS]. rewrite !rd_map_seq by lia. cbn [obind]. replace (b + (d - b)) with d by lia. rewrite combine3. f_equal.
      cbn [app]. replace (d <? b + m) with true by (symmetry; apply Nat.ltb_lt; lia). cbn [Nat.add].
      unfold rows_of. rewrite held_split, combine_seq_app, flat_map_app. f_equal.
      + rewrite !map_length, map_map, combine_map_r, flat_map_map. apply flat_map_ext_in. intros (l, p) I. cbn [fst snd]. apply rows_global. apply in_combine_r in I. now apply ps_valid.
      + rewrite !map_length. cbn [Nat.add]. now apply own_fixes_rows.
    - reflexivity.
  Qed.
End Set_.
