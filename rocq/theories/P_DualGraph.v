(** * Properties of the graph of domains: C96 *)
From Coq Require Import List Arith ZArith Lia Bool Permutation.
From Verif Require Import Base S_Order M_Utils P_Utils M_Nb S_Nb M_Exchange P_Exchange M_Distribute M_Scan S_Scan P_Scan M_Dual S_Dual L_Dual L_Dual2 L_Dual3 L_Dual4 P_Dual
  M_DualGraph S_DualGraph L_DualGraph L_DualGraph2 L_DualGraph3 L_DualGraph4.
Import ListNotations.
Local Open Scope out_scope.

Lemma nth_of_seq {A} (f : nat -> A) n i d : i < n -> nth i (map f (seq 0 n)) d = f i.
Proof. intros H. rewrite (nth_indep _ d (f 0)) by (rewrite map_length, seq_length; auto). rewrite map_nth, seq_nth; auto. Qed.

Section Graph.
  Variables (n limit : nat) (first : nat -> nat) (L : list (list nat)) (nb cmap : nat -> list nat) (ksize : nat -> nat) (sort : list nat -> list nat).
  Hypothesis HC : consistent n first L nb cmap.
  Hypothesis HN : forall m, m < length L -> NoDup (domains L m).
  Hypothesis HS : sort_contract Nat.ltb sort.
  Hypothesis Hlimit : forall r, r < n -> 3 * (first (r + 1) - first r) <= limit.

  Lemma local_kernels_ok r : local_kernels (pushed_vertices first ksize r) = list_sum (map ksize (own first r)).
  Proof.
    rewrite pushed_ok. unfold local_kernels. assert (G : forall l s, fold_left (fun s v => s + v_ksize (snd v)) (map (fun d => (d, pvertex first ksize r d)) l) s = s + list_sum (map ksize l)).
    { clear. induction l as [|d l IH]; intros s; cbn [map fold_left list_sum fold_right]; [lia|]. rewrite IH. cbn [snd v_ksize pvertex]. unfold list_sum. lia. }
    rewrite G. reflexivity.
  Qed.
  Lemma kernels_upto i : i <= n -> sum_below (map (fun r => Z.of_nat (local_kernels (pushed_vertices first ksize r))) (seq 0 n)) i = Z.of_nat (first_kernel first ksize (first i)).
  Proof.
    induction i as [|i IH]; intros Hi.
    - rewrite sum_below_0. unfold first_kernel. rewrite Nat.sub_diag. reflexivity.
    - rewrite sum_below_S by (rewrite map_length, seq_length; lia). rewrite IH by lia.
      rewrite (nth_indep _ 0%Z (Z.of_nat (local_kernels (pushed_vertices first ksize 0)))) by (rewrite map_length, seq_length; lia).
      rewrite (map_nth (fun r => Z.of_nat (local_kernels (pushed_vertices first ksize r)))), seq_nth by lia. cbn [Nat.add]. rewrite local_kernels_ok, <- Nat2Z.inj_add. f_equal.
      pose proof (first_le n first L nb cmap HC 0 i ltac:(lia)). pose proof (first_le n first L nb cmap HC i (S i) ltac:(lia)).
      unfold first_kernel, own. replace (first (S i) - first 0) with ((first i - first 0) + (first (S i) - first i)) by lia. rewrite seq_app, map_app, list_sum_app. f_equal. f_equal. f_equal. rewrite Nat.add_1_r. f_equal; lia.
  Qed.

  (** C96: in every execution every rank gets its own domains and the domains glued to them, each with the rank that holds it, its kernels in the
      numbering of all kernels, its multipliers and the lower neighbours with a copy of them.  [u]: the undefined buffer of MPI_Exscan on rank 0 *)
  Theorem dual_graph_exact u :
    (Z.of_nat (first_kernel first ksize (first n)) < 2 ^ 31)%Z -> (1 < n -> defined_sum (Signed 32) u (Z.of_nat (list_sum (map ksize (own first 0))))) ->
    exists offsets, exscan (Signed 32) u (map (fun r => Z.of_nat (local_kernels (pushed_vertices first ksize r))) (seq 0 n)) = Ok offsets /\
    exists g, ncompletes n (map (fun r => dual_set sort limit r (Z.to_nat (fst (nth r offsets (0, 0)%Z))) (decomposed first nb r) (cmap r) (pushed_vertices first ksize r)) (seq 0 n)) (map g (seq 0 n)) /\
    forall r, r < n -> graph_ok n first L nb ksize r (g r).
  Proof.
    intros HK HU.
    assert (Mono : forall i, i <= n -> first_kernel first ksize (first i) <= first_kernel first ksize (first n)).
    { intros i Hi. pose proof (first_le n first L nb cmap HC i n ltac:(lia)). pose proof (first_le n first L nb cmap HC 0 i ltac:(lia)). unfold first_kernel.
      replace (first n - first 0) with ((first i - first 0) + (first n - first i)) by lia. rewrite seq_app, map_app, list_sum_app. lia. }
    eexists. split.
    - apply exscan_sums; rewrite map_length, seq_length.
      + intros i Hi. rewrite kernels_upto by auto. specialize (Mono i Hi). unfold representable. change (32 - 1)%Z with 31%Z. lia.
      + intros H1. specialize (HU H1). rewrite (nth_indep _ 0%Z (Z.of_nat (local_kernels (pushed_vertices first ksize 0)))) by (rewrite map_length, seq_length; lia).
        rewrite (map_nth (fun r => Z.of_nat (local_kernels (pushed_vertices first ksize r)))), seq_nth by lia. cbn [Nat.add]. rewrite local_kernels_ok. exact HU.
    - rewrite !map_length, !seq_length.
      assert (EO : forall r, r < n -> Z.to_nat (fst (nth r (map (fun i => (sum_below (map (fun r => Z.of_nat (local_kernels (pushed_vertices first ksize r))) (seq 0 n)) i,
        sum_below (map (fun r => Z.of_nat (local_kernels (pushed_vertices first ksize r))) (seq 0 n)) n)) (seq 0 n)) (0, 0)%Z)) = first_kernel first ksize (first r)).
      { intros r Hr. rewrite nth_of_seq by auto. cbn [fst]. rewrite kernels_upto by lia. apply Nat2Z.id. }
      set (es := fun r => match set_edges sort (cmap r) with Ok es => es | _ => [] end).
      assert (ES : forall r, r < n -> set_edges sort (cmap r) = Ok (es r) /\
        forall d, mine first r d = true -> incr (edges_of (es r) d) /\ forall x, In x (edges_of (es r) d) <-> glued L (all_multipliers L) d x = true).
      { intros r Hr. destruct (edges_ok n first L nb cmap ksize HC HN sort HS r Hr) as (e & E1 & E2). unfold es. rewrite E1. auto. }
      set (vs0 := fun r => map (fun d => (d, base first ksize r d)) (own first r)).
      set (fin := fun r => set_finish (decomposed first nb r) (cmap r) (vs0 r) (es r)).
      set (msg := fun q r => flat_map triple (sent first L ksize q r)).
      exists (fun r => match fin r (Some (map (fun q => msg q r) (nb r))) with Ok g => g | _ => ([], []) end). split.
      + erewrite (map_ext_in _ (fun r => nfin (fin r) (exchange_unknown limit (map (msg r) (nb r)) (repeat [] (length (nb r))) (nb r)))).
        2: { intros r Hr. apply in_seq in Hr. rewrite EO by lia. unfold dual_set. rewrite base_ok by (apply (first_le n first L nb cmap HC); lia).
             destruct (ES r ltac:(lia)) as (-> & E2). rewrite (send_ok n first L nb cmap ksize HC r ltac:(lia) (es r) E2). reflexivity. }
        apply (nfin_completes n fin) with (P := fun r => exchange_unknown limit (map (msg r) (nb r)) (repeat [] (length (nb r))) (nb r)) (R := fun r => Some (map (fun q => msg q r) (nb r))).
        * apply (exchange_unknown_delivers n limit nb (c_neighbours _ _ _ _ _ HC) msg (fun r => repeat [] (length (nb r)))).
          -- intros i j Hi Hj. unfold msg. pose proof (sent_length first L ksize i j) as S1. specialize (Hlimit i Hi). unfold own in S1. rewrite seq_length in S1. lia.
          -- intros i Hi. apply repeat_length.
        * intros r Hr. destruct (ES r Hr) as (_ & E2). destruct (finish_ok n first L nb cmap ksize HC HN r Hr (es r) E2) as (g & F1 & _). unfold fin, vs0, msg. rewrite F1. reflexivity.
      + intros r Hr. destruct (ES r Hr) as (_ & E2). destruct (finish_ok n first L nb cmap ksize HC HN r Hr (es r) E2) as (g & F1 & F2). unfold fin, vs0, msg. rewrite F1. exact F2.
  Qed.
End Graph.

(** ** A case: the decomposition of P_Dual; the kernels of the domains have the sizes 1, 2, 3, 0, 1 *)
Definition ex_ksize (d : nat) : nat := nth d [1; 2; 3; 0; 1] 0.
Fixpoint ins (x : nat) (l : list nat) : list nat := match l with [] => [x] | y :: l' => if x <=? y then x :: l else y :: ins x l' end.
Definition isort (l : list nat) : list nat := fold_right ins [] l.
Lemma ins_perm x l : Permutation (ins x l) (x :: l).
Proof. induction l as [|y l IH]; cbn; auto. destruct (x <=? y); auto. rewrite IH. apply perm_swap. Qed.
Lemma isort_contract : sort_contract Nat.ltb isort.
Proof.
  intros v. split.
  - induction v as [|x l IH]; cbn; auto. fold (isort l). rewrite ins_perm. constructor. exact IH.
  - induction v as [|x l IH]; cbn; [constructor|]. fold (isort l). generalize dependent (isort l). clear. intros l H.
    assert (G : forall l, sorted Nat.ltb l -> sorted Nat.ltb (ins x l)).
    { clear. induction l as [|y l IH]; cbn; intros H; [repeat constructor|]. inversion H as [|? ? H1 H2]; subst. destruct (Nat.leb_spec x y).
      - constructor; auto. constructor; [unfold le_of; apply Nat.ltb_ge; lia|]. eapply Forall_impl; [|exact H2]. intros z Hz. unfold le_of in *. rewrite Nat.ltb_ge in *. lia.
      - constructor; [apply IH, H1|]. rewrite Forall_forall in *. intros z Hz. apply (Permutation_in _ (ins_perm x l)) in Hz. destruct Hz as [<-|Hz]; [unfold le_of; apply Nat.ltb_ge; lia|auto]. }
    auto.
Qed.
Definition ex_graph (r : nat) : nprog (list nat) (smap vertex * smap (list nat)) :=
  dual_set isort 6 r (nth r [0; 3; 6] 0) (decomposed ex_first ex_nbs r) (ex_cmap r) (pushed_vertices ex_first ex_ksize r).
Lemma ex_nodup m : m < length ex_L -> NoDup (domains ex_L m).
Proof. intros H. cbn in H. cases_lt m H; cbn; repeat constructor; cbn; intuition lia. Qed.
Example dual_graph_ex : exists g, ncompletes 3 (map ex_graph (seq 0 3)) (map g (seq 0 3)) /\ forall r, r < 3 -> graph_ok 3 ex_first ex_L ex_nbs ex_ksize r (g r).
Proof.
  destruct (dual_graph_exact 3 6 ex_first ex_L ex_nbs ex_cmap ex_ksize isort ex_consistent ex_nodup isort_contract) with (u := 77%Z) as (offs & E & g & G1 & G2).
  - intros r H. cases_lt r H; cbn; lia.
  - cbn. lia.
  - intros _. cbn. lia.
  - exists g. split; auto. vm_compute in E. injection E as <-. exact G1.
Qed.
(** domain 2 on rank 1: the second multiplier of the block 0-1 is shared with rank 0, the last one only with rank 2 *)
Example dual_graph_meaning :
  filter (visible ex_first ex_L 1) (all_of 3 ex_first) = [0; 2; 3; 4] /\ first_kernel ex_first ex_ksize 2 = 3 /\
  multipliers_of ex_first ex_L 1 2 = [(0, 1); (1, 2); (2, 3); (3, 4)] /\ map (lower_copies ex_first ex_L ex_nbs 1) [1; 2; 3; 4] = [[0]; [0]; [0]; []] /\
  map (lower_copies ex_first ex_L ex_nbs 2) [3; 4; 5] = [[0; 1]; [1]; []].
Proof. repeat split. Qed.

Print Assumptions dual_graph_exact.
