(** * Properties of messages to various targets: C30 *)
From Coq Require Import List Arith Lia Bool Permutation Sorted.
From Verif Require Import Base S_Order L_Utils M_Nb S_Nb L_Nb M_Exchange L_Exchange L_Various P_Trees.
Import ListNotations.
Local Open Scope out_scope.

(** counters of all ranks, summed by MPI_Allreduce, and then the calls: every rank gets the messages of all its senders, ordered by the sender *)
Theorem send_various_delivers {T} sort limit n (targets : nat -> list nat) (d : nat -> nat -> list T) (rb : nat -> list (list T)) :
  (forall ltb, strict_weak_order ltb -> sort_contract ltb (sort ltb)) ->
  (forall i, i < n -> NoDup (targets i)) -> (forall i t, i < n -> In t (targets i) -> t < n) ->
  (forall i t, i < n -> In t (targets i) -> length (d i t) <= limit) ->
  exists cs, (forall i, i < n -> msg_counter n (targets i) = Ok (cs i)) /\
    ncompletes n (map (fun i => send_various sort limit i (reduce_sum n (map cs (seq 0 n))) (map (d i) (targets i)) (rb i) (targets i)) (seq 0 n))
      (map (fun i => Some (Ok (map (fun j => d j i) (senders n targets i), senders n targets i))) (seq 0 n)).
Proof.
  intros HS ND Tr HL.
  exists (fun i => match msg_counter n (targets i) with Ok c => c | _ => [] end).
  assert (CO : forall i, i < n -> exists c, msg_counter n (targets i) = Ok c /\ forall r, r < n -> nth r c 0 = if existsb (Nat.eqb r) (targets i) then 1 else 0).
  { intros i Hi. destruct (msg_counter_ok n (targets i)) as (c & E & L & H); eauto. apply Forall_forall. intros t Ht. eauto. }
  split. { intros i Hi. destruct (CO i Hi) as (c & E & _). now rewrite E. }
  assert (Snd : forall i j, i < n -> (In j (senders n targets i) <-> j < n /\ In i (targets j))).
  { intros i j Hi. unfold senders. rewrite filter_In, in_seq, existsb_exists. split.
    - intros (H & x & Hx & E). apply Nat.eqb_eq in E. subst. split; [lia|auto].
    - intros (H & Hin). split; [lia|]. exists i. split; auto. apply Nat.eqb_refl. }
  assert (Nd : forall i, NoDup (senders n targets i)) by (intros i; apply nodup_filter, seq_NoDup).
  rewrite (map_ext_in _ (fun i => call (map (fun t => (t, d i t)) (targets i)) (length (senders n targets i)) None push ([], [])
    (fun acc => Some (order_by_source sort (rb i) acc)))).
  2:{ intros i Hi. apply in_seq in Hi. unfold send_various. rewrite map_length, Nat.eqb_refl. cbn [negb]. rewrite too_long_no.
      - rewrite combine_map. f_equal. unfold reduce_sum. rewrite (nth_map_seq (fun r => fold_right Nat.add 0 _)) by lia.
        rewrite map_map. unfold senders. rewrite <- count_filter. f_equal. apply map_ext_in. intros j Hj. apply in_seq in Hj.
        destruct (CO j ltac:(lia)) as (c & E & Hc). rewrite E. apply Hc. lia.
      - intros b Hb. apply in_map_iff in Hb. destruct Hb as (t & <- & Ht). apply HL; auto. lia. }
  apply (engine_recvd n (fun i => map (fun t => (t, d i t)) (targets i)) (fun i => length (senders n targets i)) (fun _ => None) (fun _ => push)
    (fun _ => ([], [])) (fun i acc => Some (order_by_source sort (rb i) acc)) (fun i => Some (Ok (map (fun j => d j i) (senders n targets i), senders n targets i)))
    (fun i => map (fun j => (j, d j i)) (senders n targets i)) (fun _ L a => a = (map snd L, map fst L))).
  - intros i Hi. apply Forall_forall. intros x Hx. apply in_map_iff in Hx. destruct Hx as (t & <- & Ht). cbn. eauto.
  - intros i Hi. rewrite map_fst_pair. auto.
  - intros i Hi. rewrite map_fst_pair. auto.
  - intros i j m Hi. rewrite !in_map_iff. split.
    + intros (t & E & H). injection E as <- <-. apply Snd in H; auto. destruct H. split; auto. exists i. auto.
    + intros (Hj & t & E & H). injection E as -> <-. exists j. split; auto. apply Snd; auto.
  - intros i Hi. now rewrite map_length.
  - discriminate.
  - auto.
  - intros i L a j m Hi -> _ _ _. unfold push. cbn [fst snd]. eexists. split; [reflexivity|]. now rewrite !map_app.
  - intros i L a Hi -> HP. f_equal. apply order_ok; auto. apply filter_strict, seq_strict.
Qed.

Example send_various_delivers_ex :
  exists cs, (forall i, i < 3 -> msg_counter 3 (nth i [[2; 0]; [2]; []] []) = Ok (cs i)) /\
    ncompletes 3 (map (fun i => send_various gsort 10 i (reduce_sum 3 (map cs (seq 0 3))) (map (fun t => [i; t]) (nth i [[2; 0]; [2]; []] [])) [] (nth i [[2; 0]; [2]; []] [])) (seq 0 3))
      [Some (Ok ([[0; 0]], [0])); Some (Ok ([], [])); Some (Ok ([[0; 2]; [1; 2]], [0; 1]))].
Proof.
  apply (send_various_delivers gsort 10 3 (fun i => nth i [[2; 0]; [2]; []] []) (fun i t => [i; t]) (fun _ => [])).
  - intros ltb W. apply (gsort_contract 0 false ltb W).
  - intros i Hi. do 3 (destruct i as [|i]; [repeat constructor; cbn; lia|]). lia.
  - intros i t Hi. do 3 (destruct i as [|i]; [cbn; lia|]). lia.
  - intros. cbn. lia.
Qed.

(** two messages to one target are counted once: one of them is never received *)
Theorem send_various_twice_refuted :
  ~ (forall sort limit n (targets : nat -> list nat) (d : nat -> list (list nat)) cs,
       (forall ltb, strict_weak_order ltb -> sort_contract ltb (sort ltb)) ->
       (forall i, i < n -> length (d i) = length (targets i)) ->
       (forall i t, i < n -> In t (targets i) -> t < n) -> (forall i m, i < n -> In m (d i) -> length m <= limit) ->
       (forall i, i < n -> msg_counter n (targets i) = Ok (cs i)) ->
       exists rs, ncompletes n (map (fun i => send_various sort limit i (reduce_sum n (map cs (seq 0 n))) (d i) [] (targets i)) (seq 0 n)) rs).
Proof.
  intros H.
  destruct (H gsort 5 2 (fun i => if i =? 0 then [1; 1] else []) (fun i => if i =? 0 then [[7]; [8]] else []) (fun i => if i =? 0 then [0; 1] else [0; 0])) as (rs & _ & _ & F).
  - intros ltb W. apply (gsort_contract 0 false ltb W).
  - intros i Hi. destruct i as [|[|i]]; auto.
  - intros i t Hi. destruct i as [|[|i]]; cbn; lia.
  - intros i m Hi. destruct i as [|[|i]]; cbn; [|tauto|lia]. intros [<-|[<-|[]]]; cbn; lia.
  - intros i Hi. destruct i as [|[|i]]; auto.
  - clear H. cbn [map seq Nat.eqb] in F.
    match type of F with forall s, nsteps _ ?s0 _ -> _ => set (start := s0) in F end.
    assert (exists p q, nsteps 2 start {| n_procs := [NRet p; NRet q]; n_chan := [[]; [[8]]; []; []] |}) as (p & q & R).
    { do 2 eexists. unfold start.
      eapply nsteps_next. { left. apply (StepIsend _ _ 2 0 1 [7]); [lia|lia|reflexivity|reflexivity]. }
      eapply nsteps_next. { left. apply (StepIsend _ _ 2 0 1 [8]); [lia|lia|reflexivity|reflexivity]. }
      eapply nsteps_next. { left. apply (StepRecv _ _ 2 0 1 [7] None); [lia|lia|reflexivity|exact I|reflexivity]. }
      eapply nsteps_next. { right. eapply (StepBuffered _ _ 2 0); [lia|reflexivity]. }
      eapply nsteps_next. { right. eapply (StepBuffered _ _ 2 1); [lia|reflexivity]. }
      apply nsteps_refl. }
    apply F in R.
    + apply (f_equal n_chan) in R. cbn in R. discriminate.
    + intros s' St.
      assert (N : forall i (x : nprog (list nat) _), nth_error [NRet p; NRet q] i = Some x -> x = NRet p \/ x = NRet q).
      { intros i x E. destruct i as [|[|[|i]]]; cbn in E; try discriminate; injection E as <-; auto. }
      destruct St as [St|St]; inversion St; subst; match goal with E : nth_error _ _ = Some _ |- _ => apply N in E; destruct E; discriminate end.
Qed.

Print Assumptions send_various_delivers.
Print Assumptions send_various_twice_refuted.
