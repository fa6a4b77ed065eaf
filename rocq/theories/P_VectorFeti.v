(** * C106, C107, C108, C109: vectors torn to domains *)
From Coq Require Import List Arith Bool Lia Sorted Permutation ZArith.
From Verif Require Import Base S_Assembly M_Assembly M_Distributed S_Distributed L_Distributed P_Distributed M_VectorFeti S_VectorFeti L_Numbering L_VectorFeti L_VectorFeti2 L_VectorFeti3.
Import ListNotations.
Local Open Scope out_scope.

(** C106: copying to the domains, copying back *)
Theorem tear_exact : forall T (zero : T) div dofs t f, 0 < dofs -> torn_ok dofs t -> decomposed dofs t f -> forall (doms : list (list T)), is_domains dofs t doms ->
  (forall cluster, length cluster = t_size dofs t -> exists doms', copy_to_domains f cluster doms = Ok doms' /\ is_domains dofs t doms' /\
    forall d k x, copy_in dofs t doms' d k x -> nth_error cluster k = Some x) /\
  (forall cluster, length cluster = t_size dofs t -> exists doms', split_to_domains div f cluster doms = Ok doms' /\ is_domains dofs t doms' /\
    forall d k x, copy_in dofs t doms' d k x -> exists c, nth_error cluster k = Some c /\ x = div c (length (t_domains dofs t k))) /\
  (forall output, length output <= t_size dofs t -> exists doms', set_from f output doms = Ok doms' /\ is_domains dofs t doms' /\
    forall d k x, copy_in dofs t doms' d k x -> (k < length output /\ nth_error output k = Some x) \/ (length output <= k /\ copy_in dofs t doms d k x)).
Proof.
  intros T zero div dofs t f Hd Ht D doms I. split; [|split].
  - intros cluster L. apply (copy_to_ok dofs t f Hd Ht D zero (fun a _ => a) (fun a _ => a) div); auto.
  - intros cluster L. apply (split_to_ok dofs t f Hd Ht D zero (fun a _ => a) (fun a _ => a) div); auto.
  - intros output L. apply (set_from_ok dofs t f Hd Ht D zero (fun a _ => a) (fun a _ => a) div); auto.
Qed.
(** back: the first copy on this rank; a DOF that is in no domain of this rank keeps its value *)
Theorem untear_exact : forall T (zero : T) add mul dofs t f, 0 < dofs -> torn_ok dofs t -> decomposed dofs t f -> forall (doms : list (list T)), is_domains dofs t doms ->
  (forall cluster, length cluster = t_size dofs t -> exists cluster', copy_from_domains f doms cluster = Ok cluster' /\ length cluster' = t_size dofs t /\
    forall k, k < t_size dofs t -> nth_error cluster' k = match copies dofs t doms k with [] => nth_error cluster k | x :: _ => Some x end) /\
  (forall output, length output <= t_size dofs t -> exists output', store_to f doms output = Ok output' /\ length output' = length output /\
    forall k, k < length output -> nth_error output' k = match copies dofs t doms k with [] => nth_error output k | x :: _ => Some x end) /\
  (forall alpha cluster, length cluster <= t_size dofs t -> exists cluster', add_to add mul f alpha doms cluster = Ok cluster' /\ length cluster' = length cluster /\
    forall k c, nth_error cluster k = Some c -> nth_error cluster' k = Some (match copies dofs t doms k with [] => c | x :: _ => add c (mul alpha x) end)).
Proof.
  intros T zero add mul dofs t f Hd Ht D doms I. split; [|split].
  - intros cluster L. apply (copy_from_ok dofs t f Hd Ht D zero); auto.
  - intros output L. apply (store_to_ok dofs t f Hd Ht D zero); auto.
  - intros alpha cluster L. apply (add_to_ok dofs t f Hd Ht D zero); auto.
Qed.
(** there and back *)
Theorem tear_roundtrip : forall T (zero : T) dofs t f, 0 < dofs -> torn_ok dofs t -> decomposed dofs t f -> forall (doms : list (list T)) cluster other,
  is_domains dofs t doms -> length cluster = t_size dofs t -> length other = t_size dofs t -> (forall k, k < t_size dofs t -> exists d, In d (t_domains dofs t k) /\ t_own t d = true) ->
  exists doms', copy_to_domains f cluster doms = Ok doms' /\ copy_from_domains f doms' other = Ok cluster.
Proof.
  intros T zero dofs t f Hd Ht D doms cluster other I L1 L2 H. destruct (tear_exact T zero (fun a _ => a) dofs t f Hd Ht D doms I) as (A & _). destruct (A cluster L1) as (doms' & E & I' & Q).
  exists doms'. split; auto. destruct (untear_exact T zero (fun a _ => a) (fun a _ => a) dofs t f Hd Ht D doms' I') as (B & _). destruct (B other L2) as (c & E' & L' & Q'). rewrite E'. f_equal.
  apply (list_eq_nth _ _ zero); [congruence|]. intros k Hk. rewrite L' in Hk. specialize (Q' k Hk). rewrite (nth_error_nth' c zero) in Q' by lia.
  rewrite (copies_eq dofs t zero) in Q' by auto. destruct (H k Hk) as (d & H1 & H2). destruct (filter (t_own t) (t_domains dofs t k)) as [|e l] eqn:F.
  - assert (In d []) as []. rewrite <- F. apply filter_In. auto.
  - cbn [map] in Q'. injection Q' as ->. assert (In e (filter (t_own t) (t_domains dofs t k))) as M by (rewrite F; left; auto). apply filter_In in M. destruct M as [M1 M2].
    symmetry. apply nth_error_nth. apply (Q e). apply (copy_in_iff dofs t zero); auto. split; auto. split; auto. apply ks_in. auto.
Qed.

(** C107: the sums and the averages over the domains of all ranks *)
Theorem sum_exact : forall T (zero : T) add dofs nb us ts fs, 0 < dofs -> numbered nb us -> torn_mesh dofs us ts -> decomposed_ranks dofs ts fs ->
  forall sync doms vs, history zero add dofs nb us sync -> is_feti_vector dofs ts doms -> is_vector dofs us vs ->
  exists sync' vs', sum_to zero add fs doms (sync, vs) = Ok (sync', vs') /\ history zero add dofs nb us sync' /\ is_vector dofs us vs' /\
    forall r g x, has_value dofs us vs' r g x -> x = total zero add (values dofs us (local_sums zero add dofs ts doms) g).
Proof. intros T zero add dofs nb us ts fs Hd N M D sync doms vs. apply (sum_to_ok dofs nb us ts fs Hd N M D). Qed.
Theorem average_exact : forall T (zero : T) add div dofs nb us ts fs, 0 < dofs -> numbered nb us -> torn_mesh dofs us ts -> decomposed_ranks dofs ts fs ->
  forall sync doms vs, history zero add dofs nb us sync -> is_feti_vector dofs ts doms -> is_vector dofs us vs ->
  exists sync' vs', average_to zero add div fs doms (sync, vs) = Ok (sync', vs') /\ history zero add dofs nb us sync' /\ is_vector dofs us vs' /\
    forall r g x k, has_value dofs us vs' r g x -> nth_error (stored_dofs dofs (nth r us no_info)) k = Some g ->
      x = div (total zero add (values dofs us (local_sums zero add dofs ts doms) g)) (length (t_domains dofs (nth r ts no_torn) k)).
Proof. intros T zero add div dofs nb us ts fs Hd N M D sync doms vs. apply (average_to_ok dofs nb us ts fs Hd N M D). Qed.
(** every copy is counted once: if the copies of every DOF are equal, the sum is the value multiplied by the number of domains of the DOF *)
Theorem sum_of_equal_copies : forall dofs nb us ts fs, 0 < dofs -> numbered nb us -> torn_mesh dofs us ts -> same_domains us ts -> decomposed_ranks dofs ts fs ->
  forall sync doms vs X, history 0%Z Z.add dofs nb us sync -> is_feti_vector dofs ts doms -> is_vector dofs us vs -> consistent dofs us ts doms X ->
  exists sync' vs', sum_to 0%Z Z.add fs doms (sync, vs) = Ok (sync', vs') /\
    forall r g x k, has_value dofs us vs' r g x -> nth_error (stored_dofs dofs (nth r us no_info)) k = Some g -> x = (Z.of_nat (length (t_domains dofs (nth r ts no_torn) k)) * X g)%Z.
Proof.
  intros dofs nb us ts fs Hd N M S D sync doms vs X H I V C. destruct (sum_exact Z 0%Z Z.add dofs nb us ts fs Hd N M D sync doms vs H I V) as (sync' & vs' & E & _ & _ & Q).
  exists sync', vs'. split; auto. intros r g x k Hx Hk. rewrite (Q r g x Hx). apply (consistent_sum dofs nb us ts Hd N M S); auto. apply Hx.
Qed.

(** C108: the norm counts every DOF once: on every rank the code adds the squares of a list of values, and all lists together are the values of all DOFs *)
Theorem norm_counts_once : forall T (zero : T) add mul dofs nb us ts fs, 0 < dofs -> numbered nb us -> torn_mesh dofs us ts -> same_domains us ts -> decomposed_ranks dofs ts fs ->
  forall doms X, is_feti_vector dofs ts doms -> consistent dofs us ts doms X -> exists picks,
    length picks = length us /\
    (forall r f, nth_error fs r = Some f -> local_dot zero add mul f (nth r doms []) = Ok (fold_left (fun a v => add a (mul v v)) (nth r picks []) zero)) /\
    Permutation (concat picks) (map X (global_dofs dofs us)).
Proof.
  intros T zero add mul dofs nb us ts fs Hd N M S D doms X I C. exists (map (picks dofs ts doms) (seq 0 (length us))). rewrite map_length, seq_length. split; auto. split.
  - intros r f E. apply (nth_error_nth_iff _ _ _ {| f_begin := 0; f_end := 0; f_rows := [] |}) in E. destruct E as [Hr <-]. rewrite (fs_length dofs us ts fs M D) in Hr.
    rewrite nth_map_seq by auto. apply (local_dot_ok dofs us ts fs Hd M D); auto. intros n. apply (sd_some us ts S); auto.
  - rewrite <- flat_map_concat_map. apply (picks_permutation dofs nb us ts Hd N M zero S); auto.
Qed.

(** C109: y = alpha * A x + beta * y *)
Theorem apply_exact : forall T M (zero : T) add mul (mv : M -> T -> list T -> list T) dofs nb us ts fs, 0 < dofs -> numbered nb us -> torn_mesh dofs us ts -> decomposed_ranks dofs ts fs ->
  (forall m alpha x, length (mv m alpha x) = length x) ->
  forall mss alpha beta xs sync ys data, history zero add dofs nb us sync -> is_matrices ts mss -> is_vector dofs us xs -> is_vector dofs us ys -> is_apply_data dofs ts data ->
  exists sync' ys' data' outs, apply zero add mul mv fs mss alpha beta xs sync ys data = Ok (sync', ys', data') /\
    history zero add dofs nb us sync' /\ is_vector dofs us ys' /\ is_apply_data dofs ts data' /\ products mv dofs ts mss alpha xs outs /\
    forall r g x y, has_value dofs us ys' r g x -> has_value dofs us ys r g y -> x = add (total zero add (values dofs us (local_sums zero add dofs ts outs) g)) (mul beta y).
Proof. intros T M zero add mul mv dofs nb us ts fs Hd N Me D L mss alpha beta xs sync ys data. apply (apply_ok dofs nb us ts fs Hd N Me D zero add mul mv L). Qed.
(** the data of apply after the initialisation *)
Theorem apply_init_ok : forall T (zero : T) dofs us ts Ns, 0 < dofs -> torn_mesh dofs us ts ->
  Forall2 (fun t N => fill_decomposition dofs (t_begin t) (t_end t) (t_ndoms t) (t_surface t) = Ok N) ts Ns ->
  is_apply_data dofs ts (map (fun x : numbering * uniq_info => apply_init zero (n_sizes (fst x)) (length (stored_dofs dofs (snd x)))) (combine Ns us)).
Proof.
  intros T zero dofs us ts Ns Hd M F. assert (LN : length Ns = length ts) by (clear -F; induction F; cbn; auto). pose proof (ts_length dofs us ts M) as LT.
  split; [rewrite map_length, combine_length; lia|]. intros r a E. rewrite nth_error_map in E. destruct (nth_error (combine Ns us) r) as [(Nr, v)|] eqn:Q; [|discriminate]. injection E as <-.
  pose (N0 := {| n_dist := []; n_data := []; n_sizes := []; n_surface := [] |}).
  apply (nth_error_nth_iff _ _ _ (N0, no_info)) in Q. destruct Q as [Lr Q]. rewrite combine_length in Lr. rewrite combine_nth in Q by lia. injection Q as <- <-. cbn [fst snd apply_init a_in a_out a_direct].
  assert (EN : fill_decomposition dofs (t_begin (nth r ts no_torn)) (t_end (nth r ts no_torn)) (t_ndoms (nth r ts no_torn)) (t_surface (nth r ts no_torn)) = Ok (nth r Ns N0)).
  { assert (Hr : r < length ts) by lia. clear -F Hr. revert r Hr. induction F as [|a b l l' Q F IH]; intros r Hr; [cbn in Hr; lia|]. destruct r; cbn; auto. apply IH. cbn in Hr. lia. }
  destruct (ok_at dofs us ts M r ltac:(lia)) as [o1 o2]. destruct (fill_decomposition_ok dofs _ _ _ _ Hd o1 o2) as (N' & E' & Sz & _). rewrite EN in E'. injection E' as <-.
  assert (Z : is_domains dofs (nth r ts no_torn) (map (repeat zero) (n_sizes (nth r Ns N0)))).
  { rewrite Sz, map_map. split; [rewrite map_length, seq_length; auto|]. intros d H. rewrite (nth_map _ _ _ _ 0) by (rewrite seq_length; lia). rewrite repeat_length, seq_nth by lia. unfold t_dofs. do 2 f_equal. lia. }
  split; auto. split; auto. rewrite repeat_length. apply (stored_size dofs us ts M). lia.
Qed.

(** ** Example: the ranks of the example of C104 with four domains *)
Definition ex_ts : list torn :=
  [{| t_begin := 0; t_end := 2; t_ndoms := [[0; 1]; [0; 2; 3]]; t_surface := [] |};
   {| t_begin := 2; t_end := 3; t_ndoms := [[0; 2; 3]; [2]; [2; 3]]; t_surface := [] |};
   {| t_begin := 3; t_end := 4; t_ndoms := [[0; 2; 3]; [2; 3]; [3]]; t_surface := [] |}].
Example ex_torn : torn_mesh 2 ex_us ex_ts.
Proof.
  split; auto. intros [|[|[|r]]] H; cbn in H; try lia; cbn.
  all: split; [split; [repeat constructor; cbn; intuition lia | split; [constructor|split; [constructor|intros C; cbn in C; congruence]]] | reflexivity].
Qed.
Example ex_same : same_domains ex_us ex_ts.
Proof.
  constructor.
  - intros [|[|[|r]]] n H Hn; cbn in *; try lia; destruct n as [|[|[|n]]]; cbn in *; try lia; discriminate.
  - intros r s n m p Hr Hs. unfold node_of.
    destruct r as [|[|[|r]]]; cbn in Hr; try lia; destruct s as [|[|[|s]]]; cbn in Hs; try lia; destruct n as [|[|[|n]]]; destruct m as [|[|[|m]]]; cbn; intros E1 E2; try congruence; try (destruct n; discriminate); try (destruct m; discriminate); reflexivity.
  - intros r n p d Hr. unfold node_of.
    destruct r as [|[|[|r]]]; cbn in Hr; try lia; destruct n as [|[|[|n]]]; cbn; intros E; try discriminate; try (destruct n; discriminate); injection E as <-; intros Hd; cbn in Hd.
    all: repeat match type of Hd with _ \/ _ => destruct Hd as [<-|Hd] | False => destruct Hd end.
    all: first [ exists 0, 0; cbn; repeat split; auto; lia | exists 0, 1; cbn; repeat split; auto; lia | exists 1, 0; cbn; repeat split; auto; lia | exists 1, 1; cbn; repeat split; auto; lia
      | exists 1, 2; cbn; repeat split; auto; lia | exists 2, 0; cbn; repeat split; auto; lia | exists 2, 1; cbn; repeat split; auto; lia | exists 2, 2; cbn; repeat split; auto; lia ].
  - intros r s d Hr Hs. unfold t_own. rewrite !andb_true_iff, !Nat.leb_le, !Nat.ltb_lt.
    destruct r as [|[|[|r]]]; cbn in Hr; try lia; destruct s as [|[|[|s]]]; cbn in Hs; try lia; cbn; lia.
Qed.
Definition ex_fs : outcome (list feti) :=
  mapM (fun t => N <- fill_decomposition 2 (t_begin t) (t_end t) (t_ndoms t) (t_surface t) ;; Ok {| f_begin := t_begin t; f_end := t_end t; f_rows := dmap_rows N |}) ex_ts.
Example ex_decomposed : exists fs, ex_fs = Ok fs /\ decomposed_ranks 2 ex_ts fs.
Proof.
  destruct ex_fs as [fs| |] eqn:E; vm_compute in E; try discriminate. exists fs. split; auto. injection E as <-. split; auto.
  intros [|[|[|r]]] H; cbn in H; try lia; (eexists; split; [vm_compute; reflexivity | reflexivity]).
Qed.
Definition ex_doms : list (list (list Z)) := [[[1; 2; 3; 4]; [10; 20]]; [[5; 6; 7; 8; 9; 10]]; [[100; 200; 300; 400; 500; 600]]]%Z.
Example ex_feti_vector : is_feti_vector 2 ex_ts ex_doms.
Proof.
  split; auto. intros [|[|[|r]]] H; cbn in H; try lia; (split; [reflexivity|]; intros [|[|[|[|d]]]] Hd; cbn in Hd; try lia; reflexivity).
Qed.
(** the node 1 (DOFs 2, 3) is in the domains 0, 2 and 3 of three ranks *)
Example sum_example :
  (fs <- ex_fs ;; ds <- decompose 2 ex_nb ex_us ;; ys <- init 0%Z ds ;; '(_, vs) <- sum_to 0%Z Z.add fs ex_doms (ys, ex_vs) ;; Ok vs)
    = Ok [[11; 22; 108; 210]; [108; 210; 7; 8; 309; 410]; [108; 210; 309; 410; 500; 600]]%Z /\
  (fs <- ex_fs ;; ds <- decompose 2 ex_nb ex_us ;; ys <- init 0%Z ds ;; '(_, vs) <- average_to 0%Z Z.add (fun x n => (x / Z.of_nat n)%Z) fs ex_doms (ys, ex_vs) ;; Ok vs)
    = Ok [[5; 11; 36; 70]; [36; 70; 7; 8; 154; 205]; [36; 70; 154; 205; 500; 600]]%Z.
Proof. split; reflexivity. Qed.
(** a consistent vector: the value of the DOF g is g + 1; the ranks add the squares of different DOFs *)
Definition ex_same_doms : list (list (list Z)) := [[[1; 2; 3; 4]; [1; 2]]; [[3; 4; 5; 6; 7; 8]]; [[3; 4; 7; 8; 9; 10]]]%Z.
Example norm_example : consistent 2 ex_us ex_ts ex_same_doms (fun g => Z.of_nat g + 1)%Z /\
  (fs <- ex_fs ;; mapM (fun x => local_dot 0%Z Z.add Z.mul (fst x) (snd x)) (combine fs ex_same_doms)) = Ok [30; 174; 181]%Z /\ (30 + 174 + 181 = 385)%Z.
Proof.
  split; [|split; reflexivity]. intros r d k g x Hr. destruct r as [|[|[|r]]]; cbn in Hr; try lia; intros E (Hd & i & Ei & Ex); cbn in Hd.
  all: repeat (destruct k as [|k]; cbn in E; [injection E as <-|]); try (destruct k; discriminate).
  all: destruct d as [|[|[|[|d]]]]; try lia; cbn in Ei, Ex.
  all: repeat (destruct i as [|i]; cbn in Ei, Ex; [inversion Ei; inversion Ex; subst; try reflexivity; try discriminate|]); try (destruct i; discriminate).
Qed.
(** matrices: every domain multiplies its vector by a number *)
Example apply_example :
  (fs <- ex_fs ;; ds <- decompose 2 ex_nb ex_us ;; ys <- init 0%Z ds ;;
   '(_, vs, _) <- apply 0%Z Z.add Z.mul (fun m a x => map (fun v => (a * (m * v))%Z) x) fs [[1; 2]; [3]; [4]]%Z 10%Z 7%Z
     [[1; 2; 3; 4]; [3; 4; 5; 6; 7; 8]; [3; 4; 7; 8; 9; 10]]%Z ys [[0; 0; 1; 1]; [1; 1; 0; 0; 0; 0]; [1; 1; 0; 0; 0; 0]]%Z
     [apply_init 0%Z [4; 2] 4; apply_init 0%Z [6] 6; apply_init 0%Z [6] 6] ;; Ok vs)
  = Ok [[30; 60; 247; 327]; [247; 327; 150; 180; 490; 560]; [247; 327; 490; 560; 360; 400]]%Z.
Proof. reflexivity. Qed.

Print Assumptions tear_exact.
Print Assumptions untear_exact.
Print Assumptions tear_roundtrip.
Print Assumptions sum_exact.
Print Assumptions average_exact.
Print Assumptions sum_of_equal_copies.
Print Assumptions norm_counts_once.
Print Assumptions apply_exact.
Print Assumptions apply_init_ok.
