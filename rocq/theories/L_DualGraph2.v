(** * Lemmas: the communication of DualGraph::set on one rank *)
From Coq Require Import List Arith Lia Bool.
From Verif Require Import Base M_Nb M_Exchange M_Dual L_Dual2 M_DualGraph L_DualGraph.
Import ListNotations.
Local Open Scope out_scope.

Definition mem (d : nat) (ds : list nat) : bool := existsb (Nat.eqb d) ds.
Lemma mem_in d ds : mem d ds = true <-> In d ds.
Proof. unfold mem. rewrite existsb_exists. split; [intros (x & H & E); apply Nat.eqb_eq in E; congruence|intros H; exists d; split; auto; apply Nat.eqb_refl]. Qed.
Lemma mem_not d ds : mem d ds = false <-> ~ In d ds.
Proof. rewrite <- mem_in. destruct (mem d ds); split; congruence. Qed.

Section Rank.
  Variables (first : nat -> nat) (D : decomposition).
  Local Notation nbl := (neighbors D).
  Local Notation N := (length (neighbors D)).
  Hypothesis HND : exists x, neighDomain D = map first nbl ++ [x].
  Hypothesis Hsep : forall i j, i < j < N -> first (nth i nbl 0) <= first (nth i nbl 0 + 1) <= first (nth j nbl 0).
  Hypothesis Hmine : forall k d, k < N -> on first (nth k nbl 0) d = true -> ismy D d = false.
  Local Notation pos := (pos first D).
  Local Notation known := (known first D).
  Local Notation ordered := (ordered first D).
  Local Notation touch := (touch first D).
  Local Notation foreign := (foreign first D).

  Lemma noffset_defined d : exists k, noffset D d = Ok k.
  Proof.
    destruct HND as (x & ED). unfold noffset. generalize 0 at 1. generalize N at 1. intros fuel. induction fuel as [|fuel IH]; intros j; cbn [noffset_loop]; [eauto|].
    destruct (Nat.ltb_spec (j + 1) N); [|eauto]. rewrite ED, (rd_ok _ _ 0) by (rewrite app_length, map_length; cbn; lia). cbn [obind]. destruct (_ <=? d); [apply IH|eauto].
  Qed.

  (** *** Send *)
  Lemma send_edges_ok d v ds : ordered ds -> forall F last, exists last',
    foldM (send_edge D d v) ds (map F (seq 0 N), last) = Ok (map (fun k => if mem k (dedup last (foreign ds)) then F k ++ [d; v_goffset v; v_ksize v] else F k) (seq 0 N), last').
  Proof.
    unfold L_Dual2.foreign. induction ds as [|e ds IH]; intros O F last; cbn [foldM filter map dedup].
    - exists last. reflexivity.
    - assert (O' : ordered ds) by (destruct O as (O1 & O2); split; [apply O1|intros; apply O2; right; auto]).
      pose proof (foreign_nondec first D HND Hsep ds O') as FN. unfold L_Dual2.foreign in FN. unfold send_edge at 1. destruct (ismy D e) eqn:M; cbn [negb].
      + destruct (noffset_defined e) as (k & ->). cbn [obind andb]. apply (IH O').
      + destruct (pos_ok first D HND Hsep e M (proj2 O e (or_introl eq_refl))) as (P1 & P2 & P3). rewrite P3. cbn [obind andb map dedup].
        destruct (is_next last (pos e)) eqn:E; cbn [obind]; [|apply (IH O')].
        rewrite rd_map_seq by auto. cbn [obind]. rewrite wr_map_seq by auto. cbn [obind].
        destruct (IH O' (fun j => if j =? pos e then F (pos e) ++ [d; v_goffset v; v_ksize v] else F j) (Some (pos e))) as (last' & G). exists last'. rewrite G. f_equal. f_equal. apply map_ext. intros k.
        cbn [mem existsb]. fold (mem k (dedup (Some (pos e)) (map pos (filter (fun d => negb (ismy D d)) ds)))).
        destruct (Nat.eqb_spec k (pos e)) as [->|NE]; cbn [orb]; [|destruct (mem k _); auto].
        assert (X : mem (pos e) (dedup (Some (pos e)) (map pos (filter (fun d => negb (ismy D d)) ds))) = false).
        { apply mem_not. rewrite dedup_in by exact FN. cbn [is_next]. rewrite Nat.ltb_irrefl. intros (_ & X). discriminate X. }
        rewrite X. reflexivity.
  Qed.
  Definition triple (x : nat * nat * nat) : list nat := [fst (fst x); snd (fst x); snd x].
  Definition message_of (es : smap (list nat)) (vs : smap vertex) (k : nat) : list (nat * nat * nat) :=
    flat_map (fun dv => if touch k (edges_of es (fst dv)) then [(fst dv, v_goffset (snd dv), v_ksize (snd dv))] else []) vs.
  Lemma send_vertices_ok es vs : (forall d v, In (d, v) vs -> ordered (edges_of es d)) ->
    send_vertices D es vs = Ok (map (fun k => flat_map triple (message_of es vs k)) (seq 0 N)).
  Proof.
    intros H. unfold send_vertices.
    assert (G : forall vs F, (forall d v, In (d, v) vs -> ordered (edges_of es d)) ->
      foldM (send_vertex D es) vs (map F (seq 0 N)) = Ok (map (fun k => F k ++ flat_map triple (message_of es vs k)) (seq 0 N))).
    { clear vs H. induction vs as [|(d, v) vs IH]; intros F H; cbn [foldM].
      - f_equal. apply map_ext. intros k. cbn. now rewrite app_nil_r.
      - unfold send_vertex at 1. cbn [fst snd]. pose proof (H d v (or_introl eq_refl)) as O. destruct (send_edges_ok d v (edges_of es d) O F None) as (last' & E). rewrite E. cbn [obind].
        rewrite IH by (intros; eapply H; right; eauto). f_equal. apply map_ext_in. intros k Hk. apply in_seq in Hk. unfold message_of. cbn [flat_map fst snd]. rewrite flat_map_app.
        rewrite (foreign_targets first D HND Hsep Hmine _ O). unfold targets.
        assert (X : mem k (filter (fun k => touch k (edges_of es d)) (seq 0 N)) = touch k (edges_of es d)).
        { apply eq_iff_eq_true. rewrite mem_in, filter_In, in_seq. intuition lia. }
        rewrite X. destruct (touch k (edges_of es d)); cbn [flat_map app]; [|auto]. rewrite <- app_assoc. reflexivity. }
    specialize (G vs (fun _ => []) H). cbn [app] in G.
    assert (R0 : forall b, map (fun _ : nat => @nil nat) (seq b N) = repeat [] N). { generalize N. intros m. induction m as [|m IH]; intros b; cbn; auto. now rewrite IH. }
    rewrite R0 in G. exact G.
  Qed.

  (** *** Receive *)
  Lemma receive_loop_ok rank l : forall fuel pre vs, length (flat_map triple l) <= fuel ->
    receive_loop fuel rank (pre ++ flat_map triple l) (length pre) vs = Ok (updates vertex0 (map (fun x => (fst (fst x), placed rank (snd (fst x)) (snd x))) l) vs).
  Proof.
    induction l as [|((d, g), s) l IH]; intros fuel pre vs Hf; cbn [flat_map map].
    - rewrite app_nil_r. destruct fuel; cbn [receive_loop]; auto. now rewrite Nat.ltb_irrefl.
    - cbn [triple flat_map fst snd app length] in Hf. destruct fuel as [|fuel]; [lia|]. cbn [receive_loop triple fst snd app].
      assert (C : length pre <? length (pre ++ d :: g :: s :: flat_map triple l) = true) by (apply Nat.ltb_lt; rewrite app_length; cbn; lia). rewrite C.
      assert (R : forall i x a b, pre ++ d :: g :: s :: flat_map triple l = (pre ++ a) ++ x :: b -> i = length a -> rd (pre ++ d :: g :: s :: flat_map triple l) (length pre + i) = Ok x).
      { intros i x a b -> ->. apply rd_app_at. now rewrite app_length. }
      pose proof (R 0 d [] _ ltac:(rewrite app_nil_r; reflexivity) eq_refl) as R1. rewrite Nat.add_0_r in R1. rewrite R1. cbn [obind].
      rewrite (R 1 g [d] (s :: flat_map triple l)) by (try rewrite <- app_assoc; reflexivity). cbn [obind]. rewrite (R 2 s [d; g] (flat_map triple l)) by (try rewrite <- app_assoc; reflexivity). cbn [obind].
      specialize (IH fuel (pre ++ [d; g; s]) (mupd vertex0 d (placed rank g s) vs)). rewrite app_length in IH. cbn [length] in IH. rewrite <- app_assoc in IH. cbn [app] in IH.
      rewrite IH by lia. reflexivity.
  Qed.
  Lemma receive_ok (msg : nat -> list (nat * nat * nat)) vs :
    receive_vertices D (map (fun q => flat_map triple (msg q)) nbl) vs = Ok (updates vertex0 (flat_map (fun q => map (fun x => (fst (fst x), placed q (snd (fst x)) (snd x))) (msg q)) nbl) vs).
  Proof.
    unfold receive_vertices. rewrite map_length.
    transitivity (foldM (fun vs d => x <- rd (combine nbl (map (fun q => flat_map triple (msg q)) nbl)) (0 + d) ;; receive_loop (length (snd x)) (fst x) (snd x) 0 vs) (seq 0 N) vs).
    - apply foldM_ext_in. intros st k Hk. apply in_seq in Hk. cbn [Nat.add]. 
      rewrite (rd_ok nbl k 0), (rd_ok _ k []), (rd_ok _ k (0, [])) by (rewrite ?combine_length, ?map_length; lia). cbn [obind]. rewrite combine_nth by (now rewrite map_length). reflexivity.
    - assert (EN : N = length (combine nbl (map (fun q => flat_map triple (msg q)) nbl))) by (rewrite combine_length, map_length; lia). rewrite EN.
      rewrite (foldM_rd (fun vs x => receive_loop (length (snd x)) (fst x) (snd x) 0 vs) _ 0 [] _ []) by (rewrite ?app_nil_r; reflexivity). clear EN.
      induction nbl as [|q l IH] in vs |- *; cbn [map combine foldM flat_map fst snd]; auto. rewrite (receive_loop_ok q (msg q) _ [] vs) by auto. cbn [obind]. rewrite IH, updates_app. reflexivity.
  Qed.

  (** *** Lower neighbours *)
  Definition lower_pushed (acc : list nat) (x : nat) : outcome (list nat) :=
    if x <? dbegin D then n <- noffset D x ;; Ok (match acc with [] => [n] | _ => if last acc 0 =? n then acc else acc ++ [n] end) else Ok acc.
  Definition last_of (acc : list nat) : option nat := match acc with [] => None | _ => Some (last acc 0) end.
  Lemma lower_run ds : ordered ds -> forall acc, (forall k, last_of acc = Some k -> forall x, In x ds -> x < dbegin D -> k <= pos x) ->
    foldM lower_pushed ds acc = Ok (acc ++ dedup (last_of acc) (map pos (filter (fun x => x <? dbegin D) ds))).
  Proof.
    induction ds as [|x ds IH]; intros O acc H; cbn [foldM filter map dedup]; [now rewrite app_nil_r|].
    assert (O' : ordered ds) by (destruct O as (O1 & O2); split; [apply O1|intros; apply O2; right; auto]). unfold lower_pushed at 1.
    destruct (Nat.ltb_spec x (dbegin D)) as [C|C]; cbn [obind map dedup].
    - assert (M : forall y, y < dbegin D -> ismy D y = false) by (intros y Hy; unfold ismy; destruct (Nat.leb_spec (dbegin D) y); [lia|reflexivity]).
      destruct (pos_ok first D HND Hsep x (M x C) (proj2 O x (or_introl eq_refl))) as (P1 & P2 & P3). rewrite P3. cbn [obind].
      assert (Mono : forall y, In y ds -> y < dbegin D -> pos x <= pos y).
      { intros y Hy Cy. apply (pos_mono first D HND Hsep); auto; [apply O; left; auto|apply O; right; auto|]. apply (proj1 (proj1 O)), Hy. }
      assert (S : last_of (acc ++ [pos x]) = Some (pos x)). { unfold last_of. rewrite last_last. destruct acc; reflexivity. }
      destruct acc as [|a acc]; [|set (ac := a :: acc) in *].
      + cbn [last_of is_next app]. specialize (IH O' [pos x]). cbn [last_of last app] in IH. apply IH. intros k [= <-]. exact Mono.
      + change (last_of ac) with (Some (last ac 0)). cbn [is_next]. assert (Le : last ac 0 <= pos x) by (apply (H _ eq_refl); [left|]; auto).
        destruct (Nat.eqb_spec (last ac 0) (pos x)) as [E|E].
        * assert (LF : last ac 0 <? pos x = false) by (rewrite E; apply Nat.ltb_irrefl). rewrite LF. apply (IH O' ac). intros k Hk y Hy Cy. assert (EK : k = last ac 0) by (change (last_of ac) with (Some (last ac 0)) in Hk; congruence). rewrite EK, E. auto.
        * destruct (Nat.ltb_spec (last ac 0) (pos x)); [|lia]. rewrite IH; auto; rewrite S.
          -- rewrite <- app_assoc. reflexivity.
          -- intros k [= <-]. exact Mono.
    - apply IH; auto. intros k Hk y Hy. apply H; auto. right; auto.
  Qed.
End Rank.
