(** * Properties of the collective operations: C25, C26, C27, C31, C32, C34, C68, C69 *)
From Coq Require Import ZArith List Bool Arith Lia Permutation Sorted.
From Verif Require Import Base S_Order M_Mpi S_Mpi L_Mpi M_Comm S_Comm L_Comm L_Coll L_Coll2 L_A2a.
Import ListNotations.
Local Open Scope nat_scope.

(** C25: every rank of [left, right) gets the elementwise combination of the contributions of the ranks [left, right), the other ranks of the
    communicator do not take part *)
Theorem all_reduce_total {T} (op : T -> T -> T) dflt n left right len (data : nat -> list T) :
  associative op -> commutative op -> left < right <= n -> (forall i, left <= i < right -> length (data i) = len) ->
  completes n
    (map (fun i => if (left <=? i) && (i <? right) then all_reduce op i left right (data i) (fun x => Ret (Some x)) else Ret None) (seq 0 n))
    (map (fun i => if (left <=? i) && (i <? right) then Some (reduced op dflt len data left right) else None) (seq 0 n)).
Proof.
  intros Ass Com H HL. destruct (ar_td (A := option (list T)) op Ass Com dflt len n left right (fun i => (data i, data i))) as (gF & R & Q).
  { lia. } { intros i Hi. cbn. auto. }
  pose proof (body_completes n _ gF (fun _ st => Some (fst st)) left right (fun _ => None) ltac:(lia) (R (right - left) (le_n _))) as C.
  cbn beta in C.
  replace (map (fun i => if (left <=? i) && (i <? right) then Some (reduced op dflt len data left right) else None) (seq 0 n))
    with (map (fun i => if inr left right i then Some (fst (gF i)) else None) (seq 0 n)).
  2:{ apply map_ext_in. intros i _. fold (inr left right i). destruct (inr_spec left right i) as [I|]; auto. rewrite (Q i I). auto. }
  exact C.
Qed.

Example all_reduce_total_ex :
  completes 5 (map (fun i => if (0 <=? i) && (i <? 5) then all_reduce Nat.add i 0 5 [i; 10 * i] (fun x => Ret (Some x)) else Ret None) (seq 0 5))
    (map (fun i => Some [10; 100]) (seq 0 5)).
Proof.
  exact (all_reduce_total Nat.add 0 5 0 5 2 (fun i => [i; 10 * i]) Nat.add_assoc Nat.add_comm ltac:(lia) (fun _ _ => eq_refl)).
Qed.

(** C25: commutativity alone is not enough for equal results.  Sums of [double] on seven ranks differ. *)
Theorem all_reduce_equal_refuted :
  ~ (forall (op : Z -> Z -> Z) n (data : nat -> list Z) rs, commutative op -> (forall i, i < n -> length (data i) = 1) ->
       completes n (map (fun i => all_reduce op i 0 n (data i) (fun x => Ret x)) (seq 0 n)) rs ->
       forall i j, i < n -> j < n -> nth i rs [] = nth j rs []).
Proof.
  intros H.
  set (data := fun i => nth i [[0]; [0]; [0]; [1]; [0]; [1]; [9007199254740992]]%Z []).
  specialize (H double_add 7 data (map (fun i => if i <? 4 then [9007199254740994]%Z else [9007199254740992]%Z) (seq 0 7))).
  assert (C : commutative double_add) by (intros x y; unfold double_add; rewrite (Z.add_comm x y); auto).
  assert (L : forall i, i < 7 -> length (data i) = 1).
  { intros i Hi. do 7 (destruct i as [|i]; [reflexivity|]). lia. }
  specialize (H C L). assert (E : nth 0 (map (fun i => if i <? 4 then [9007199254740994]%Z else [9007199254740992]%Z) (seq 0 7)) [] =
    nth 6 (map (fun i => if i <? 4 then [9007199254740994]%Z else [9007199254740992]%Z) (seq 0 7)) []).
  { apply H; try lia. apply (exec_completes 7 40). vm_compute. reflexivity. }
  vm_compute in E. discriminate.
Qed.

(** C26: every rank gets the concatenation in rank order *)
Theorem all_gather_concat {T} limit n (data : nat -> list T) :
  0 < n -> (forall i, i < n -> length (data i) <= limit) ->
  completes n (map (fun i => all_gather ag_append limit n i (data i) (fun x => Ret x)) (seq 0 n)) (repeat (Some (gathered data 0 n)) n).
Proof.
  intros Hn HL. destruct (all_gather_ok n ag_append (fun l r x => x = gathered data l r)) with (limit := limit) (d := data) as (res & C & E); auto.
  - intros l m r a b H -> ->. cbn. rewrite (gathered_split data l m r) by lia. auto.
  - intros i _. symmetry. apply gathered_one.
  - replace (repeat (Some (gathered data 0 n)) n) with (map (fun i => Some (res i)) (seq 0 n)); auto.
    transitivity (map (fun _ => Some (gathered data 0 n)) (seq 0 n)).
    + apply map_ext_in. intros i Hi. apply in_seq in Hi. rewrite E by lia. auto.
    + generalize (Some (gathered data 0 n)). clear. generalize 0. induction n as [|n IH]; intros s x; cbn; auto. f_equal. apply IH.
Qed.

Example all_gather_concat_ex :
  completes 3 (map (fun i => all_gather ag_append 4 3 i (nth i [[1; 2]; []; [3]] []) (fun x => Ret x)) (seq 0 3)) (repeat (Some [1; 2; 3]) 3).
Proof.
  apply (all_gather_concat 4 3 (fun i => nth i [[1; 2]; []; [3]] [])); [lia|].
  intros i Hi. do 3 (destruct i as [|i]; [cbn; lia|]). lia.
Qed.

(** C26: the limit of the size is tested by each rank alone.  If only some ranks exceed it, they return and the others wait for ever. *)
Theorem all_gather_limit_refuted :
  ~ (forall limit n (data : nat -> list nat), 0 < n ->
       exists rs, completes n (map (fun i => all_gather ag_append limit n i (data i) (fun x => Ret x)) (seq 0 n)) rs).
Proof.
  intros H. destruct (H 1 2 (fun i => if i =? 0 then [5; 6] else []) ltac:(lia)) as (rs & _ & P & _).
  specialize (P _ (steps_refl _ _ _ _)). destruct P as [E|(s' & P)].
  - apply (f_equal w_procs) in E. cbn in E. destruct rs as [|a [|b rs]]; cbn in E; discriminate.
  - destruct P as [P|P]; [inversion P as [i j m k ps ch q Hi Hj E1 E2]|inversion P as [i j m k k' ps ch Hi Hj E1 E2 E3]]; subst.
    + apply nth_error_In in E2. cbn in E2. destruct E2 as [E2|[E2|[E2|[E2|[]]]]]; discriminate.
    + destruct i as [|[|i]]; [vm_compute in E1; discriminate|vm_compute in E1; discriminate|lia].
Qed.

(** C69: the sorted union of all contributions *)
Theorem unique_all_gather_union {T} (ltb eqb : T -> T -> bool) limit n (data : nat -> list T) :
  strict_total_order ltb eqb -> 0 < n -> (forall i, i < n -> length (data i) <= limit) -> (forall i, i < n -> strictly_sorted ltb (data i)) ->
  exists u, strictly_sorted ltb u /\ (forall x, In x u <-> exists i, i < n /\ In x (data i)) /\
    completes n (map (fun i => all_gather (fun _ a b => set_union ltb a b) limit n i (data i) (fun x => Ret x)) (seq 0 n)) (repeat (Some u) n).
Proof.
  intros STO Hn HL HS.
  destruct (all_gather_ok n (fun _ a b => set_union ltb a b)
    (fun l r x => r <= n -> strictly_sorted ltb x /\ forall y, In y x <-> exists i, l <= i < r /\ In y (data i))) with (limit := limit) (d := data)
    as (res & C & E); auto.
  - intros l m r a b H Ga Gb. assert (G : r <= n ->
      strictly_sorted ltb (set_union ltb a b) /\ (forall y, In y (set_union ltb a b) <-> exists i, l <= i < r /\ In y (data i)) /\
      strictly_sorted ltb (set_union ltb b a) /\ (forall y, In y (set_union ltb b a) <-> exists i, l <= i < r /\ In y (data i))).
    { intros Hr. destruct (Ga ltac:(lia)) as (Sa & Ia). destruct (Gb Hr) as (Sb & Ib).
      destruct (union_spec ltb eqb STO a b Sa Sb) as (S1 & I1). destruct (union_spec ltb eqb STO b a Sb Sa) as (S2 & I2).
      assert (J : forall y, In y a \/ In y b <-> exists i, l <= i < r /\ In y (data i)).
      { intros y. rewrite Ia, Ib. split.
        - intros [(i & Hi & Hy)|(i & Hi & Hy)]; exists i; split; auto; lia.
        - intros (i & Hi & Hy). destruct (Nat.lt_ge_cases i m); [left|right]; exists i; split; auto; lia. }
      split; auto. split. { intros y. rewrite I1. apply J. }
      split; auto. intros y. rewrite I2. rewrite or_comm. apply J. }
    split; intros Hr; destruct (G Hr) as (G1 & G2 & G3 & G4); auto.
  - intros i Hi _. split; auto. intros y. split.
    + intros Hy. exists i. split; auto. lia.
    + intros (j & Hj & Hy). replace j with i in Hy by lia. auto.
  - destruct (E 0 Hn (le_n _)) as (S0 & I0). exists (res 0). split; auto. split.
    { intros x. rewrite I0. split; intros (i & Hi & Hx); exists i; split; auto; lia. }
    replace (repeat (Some (res 0)) n) with (map (fun i => Some (res i)) (seq 0 n)); auto.
    transitivity (map (fun _ => Some (res 0)) (seq 0 n)).
    + apply map_ext_in. intros i Hi. apply in_seq in Hi. destruct (E i ltac:(lia) (le_n _)) as (Si & Ii).
      f_equal. apply (ssorted_unique ltb eqb STO); auto. intros x. rewrite Ii, I0. tauto.
    + clear. generalize (Some (res 0)). generalize 0. induction n as [|n IH]; intros s x; cbn; auto. f_equal. apply IH.
Qed.

Lemma nat_sto : strict_total_order Nat.ltb Nat.eqb.
Proof.
  split; [split| |]; unfold le_of.
  - intros x y H. rewrite Nat.ltb_lt in H. apply Nat.ltb_ge. lia.
  - intros x y z. rewrite !Nat.ltb_ge. lia.
  - intros x y. rewrite !Nat.ltb_ge. lia.
  - intros x y. apply Nat.eqb_eq.
Qed.

Example unique_all_gather_union_ex : exists u, u = [1; 3; 4; 7] /\
  completes 3 (map (fun i => all_gather (fun _ a b => set_union Nat.ltb a b) 4 3 i (nth i [[1; 7]; [3; 4]; [1; 3]] []) (fun x => Ret x)) (seq 0 3))
    (repeat (Some u) 3).
Proof.
  destruct (unique_all_gather_union Nat.ltb Nat.eqb 4 3 (fun i => nth i [[1; 7]; [3; 4]; [1; 3]] []) nat_sto) as (u & S & I & C); try lia.
  - intros i Hi. do 3 (destruct i as [|i]; [cbn; lia|]). lia.
  - intros i Hi. do 3 (destruct i as [|i]; [repeat constructor|]). lia.
  - exists u. split; auto. apply (ssorted_unique Nat.ltb Nat.eqb nat_sto); auto; [repeat constructor|].
    intros x. rewrite I. split.
    + intros (i & Hi & Hx). do 3 (destruct i as [|i]; [cbn in *; tauto|]). lia.
    + intros Hx. cbn in Hx. destruct Hx as [<-|[<-|[<-|[<-|[]]]]];
        [exists 0|exists 1|exists 1|exists 0]; (split; [lia|cbn; auto]).
Qed.

(** C68: each rank holds its data at its offset behind [base] of an array that is large enough; all ranks end with the concatenation there and
    the rest of the array unchanged *)
Theorem all_gather_inplace_at {T} n base total (part arr : nat -> list T) :
  0 < n -> base + offset part n <= total -> (forall i, i < n -> length (arr i) = total) ->
  (forall i, i < n -> slice (base + offset part i) (base + offset part (i + 1)) (arr i) = part i) ->
  completes n (map (fun i => all_gather_inplace n i (arr i) (base + offset part i) (length (part i)) (fun x => Ret x)) (seq 0 n))
              (map (fun i => firstn base (arr i) ++ gathered part 0 n ++ skipn (base + offset part n) (arr i)) (seq 0 n)).
Proof.
  intros Hn HT HL HP.
  destruct (levels_run n (agi_round (A := list T)) (agi_inv n part base total (fun i => firstn base (arr i)) (fun i => skipn (base + offset part n) (arr i))) (agi_round_ok n part base total _ _ HT)
    (rh_depth n) 0 n (fun i => (arr i, base + offset part i, length (part i)))) as (st1 & R & I1); try lia.
  - intros i Hi. rewrite depth_leaf by lia. cbn [fst snd]. red. split; auto. split. { rewrite gathered_one. auto. }
    split; [apply HL; lia|]. rewrite gathered_one. split; [apply HP; lia|]. split; [|reflexivity].
    unfold slice. rewrite <- (HL i) by lia. rewrite <- skipn_length. apply firstn_all.
  - pose proof (body_completes_all n _ st1 (fun _ st => fst (fst st)) R) as C. cbn beta in C.
    replace (map (fun i => firstn base (arr i) ++ gathered part 0 n ++ skipn (base + offset part n) (arr i)) (seq 0 n)) with (map (fun i => fst (fst (st1 i))) (seq 0 n)); [exact C|].
    apply map_ext_in. intros i Hi. apply in_seq in Hi. specialize (I1 i ltac:(lia)). destruct (st1 i) as ((a & o) & s).
    destruct I1 as (E1 & E2 & E3 & E4 & E5 & E6). cbn [fst]. rewrite <- E4, <- E5, <- E6. change (offset part 0) with 0. rewrite Nat.add_0_r.
    rewrite <- slice_app by lia. unfold slice. rewrite (firstn_all2 (n := total - base)) by (rewrite skipn_length; lia). symmetry. apply firstn_skipn.
Qed.

(** the array begins with the data *)
Theorem all_gather_inplace_concat {T} n total (part arr : nat -> list T) :
  0 < n -> offset part n <= total -> (forall i, i < n -> length (arr i) = total) ->
  (forall i, i < n -> slice (offset part i) (offset part (i + 1)) (arr i) = part i) ->
  completes n (map (fun i => all_gather_inplace n i (arr i) (offset part i) (length (part i)) (fun x => Ret x)) (seq 0 n))
              (map (fun i => gathered part 0 n ++ skipn (offset part n) (arr i)) (seq 0 n)).
Proof. intros Hn HT HL HP. exact (all_gather_inplace_at n 0 total part arr Hn HT HL HP). Qed.

Example all_gather_inplace_at_ex :
  completes 3 (map (fun i => all_gather_inplace 3 i (nth i [[7; 1; 2; 0; 0]; [6; 0; 0; 0; 8]; [5; 0; 0; 3; 9]] []) (1 + nth i [0; 2; 2] 0) (nth i [2; 0; 1] 0) (fun x => Ret x)) (seq 0 3))
    [[7; 1; 2; 3; 0]; [6; 1; 2; 3; 8]; [5; 1; 2; 3; 9]].
Proof.
  apply (all_gather_inplace_at 3 1 5 (fun i => nth i [[1; 2]; []; [3]] []) (fun i => nth i [[7; 1; 2; 0; 0]; [6; 0; 0; 0; 8]; [5; 0; 0; 3; 9]] []));
    [lia|cbn; lia| |]; intros i Hi; do 3 (destruct i as [|i]; [reflexivity|]); lia.
Qed.
Example all_gather_inplace_concat_ex :
  completes 3 (map (fun i => all_gather_inplace 3 i (nth i [[1; 2; 0; 0]; [0; 0; 0; 8]; [0; 0; 3; 9]] []) (nth i [0; 2; 2] 0) (nth i [2; 0; 1] 0) (fun x => Ret x)) (seq 0 3))
    [[1; 2; 3; 0]; [1; 2; 3; 8]; [1; 2; 3; 9]].
Proof.
  apply (all_gather_inplace_concat 3 4 (fun i => nth i [[1; 2]; []; [3]] []) (fun i => nth i [[1; 2; 0; 0]; [0; 0; 0; 8]; [0; 0; 3; 9]] []));
    [lia|cbn; lia| |]; intros i Hi; do 3 (destruct i as [|i]; [reflexivity|]); lia.
Qed.

(** C27: each rank appends to its receive buffer the messages addressed to it, each of them once *)
Theorem all_to_all_delivers n left right (sent : nat -> list message) (rbuf : nat -> list Z) :
  left < right <= n ->
  (forall i, left <= i < right -> StronglySorted (fun a b => m_target a <= m_target b) (sent i) /\
                                  Forall (fun m => left <= m_target m < right) (sent i)) ->
  exists received, (forall i, left <= i < right -> Permutation (received i) (addressed sent left right i)) /\
    completes n
      (map (fun i => if (left <=? i) && (i <? right) then all_to_all i left right (encodes (sent i)) (rbuf i) (fun x => Ret (Some x)) else Ret None) (seq 0 n))
      (map (fun i => if (left <=? i) && (i <? right) then Some (rbuf i ++ encodes (received i)) else None) (seq 0 n)).
Proof.
  intros H HS. destruct (all_to_all_run (A := option (list Z)) n left right sent rbuf) as (R & P & B); [lia|exact HS|].
  exists R. split; auto.
  exact (body_completes n _ _ (fun _ x => Some x) left right (fun _ => None) ltac:(lia) B).
Qed.

Example all_to_all_delivers_ex :
  let msg t d := {| m_target := t; m_data := d |} in
  let sent := fun i => nth i [[msg 0 [7%Z]; msg 2 [1%Z; 2%Z]]; [msg 2 []]; [msg 0 [5%Z]; msg 1 [4%Z]]] [] in
  exists received, (forall i, 0 <= i < 3 -> Permutation (received i) (addressed sent 0 3 i)) /\
    completes 3 (map (fun i => if (0 <=? i) && (i <? 3) then all_to_all i 0 3 (encodes (sent i)) [] (fun x => Ret (Some x)) else Ret None) (seq 0 3))
      (map (fun i => if (0 <=? i) && (i <? 3) then Some ([] ++ encodes (received i)) else None) (seq 0 3)).
Proof.
  intros msg sent. apply (all_to_all_delivers 3 0 3 sent (fun _ => [])); [lia|].
  intros i Hi. do 3 (destruct i as [|i]; [split; repeat constructor; cbn; lia|]). lia.
Qed.

(** the same case, executed *)
Example all_to_all_delivers_run :
  completes 3 (map (fun i => all_to_all i 0 3 (nth i [[3; 0; 7; 4; 2; 1; 2]; [2; 2]; [3; 0; 5; 3; 1; 4]]%Z []) [] (fun x => Ret x)) (seq 0 3))
    [[3; 0; 7; 3; 0; 5]; [3; 1; 4]; [4; 2; 1; 2; 2; 2]]%Z.
Proof. apply (exec_completes 3 30). vm_compute. reflexivity. Qed.

(** C31: every rank obtains the buffer of the lower (upper) rank; the first (last) rank keeps its receive buffer, resized *)
Theorem receive_lower_shifts {T} (dflt : T) n (sbuf rbuf : nat -> list T) :
  0 < n -> (forall i j, i < n -> j < n -> length (sbuf i) = length (sbuf j)) ->
  completes n (map (fun i => receive_lower dflt n i (sbuf i) (rbuf i) (fun x => Ret x)) (seq 0 n))
              (map (fun i => if i =? 0 then resize (length (sbuf 0)) (rbuf 0) dflt else sbuf (i - 1)) (seq 0 n)).
Proof.
  intros Hn HS. apply (frun_completes n). eapply frun_post; [|apply (lower_run dflt n sbuf rbuf HS Hn); auto].
  intros i Hi. cbn beta. destruct (inr_spec 0 n i); [auto|lia].
Qed.

Theorem receive_upper_shifts {T} (dflt : T) n (sbuf rbuf : nat -> list T) :
  0 < n -> (forall i j, i < n -> j < n -> length (sbuf i) = length (sbuf j)) ->
  completes n (map (fun i => receive_upper dflt n i (sbuf i) (rbuf i) (fun x => Ret x)) (seq 0 n))
              (map (fun i => if i + 1 =? n then resize (length (sbuf i)) (rbuf i) dflt else sbuf (i + 1)) (seq 0 n)).
Proof.
  intros Hn HS. apply (frun_completes n). eapply frun_post; [|apply (upper_run dflt n sbuf rbuf HS Hn); auto].
  intros i Hi. cbn beta. destruct (inr_spec 0 n i); [auto|lia].
Qed.

Example receive_shifts_ex :
  completes 3 (map (fun i => receive_lower 0 3 i [i; i] [] (fun x => Ret x)) (seq 0 3)) [[0; 0]; [0; 0]; [1; 1]] /\
  completes 3 (map (fun i => receive_upper 0 3 i [i; i] [] (fun x => Ret x)) (seq 0 3)) [[1; 1]; [2; 2]; [0; 0]].
Proof.
  split; [apply (receive_lower_shifts 0 3 (fun i => [i; i]) (fun _ => []))|apply (receive_upper_shifts 0 3 (fun i => [i; i]) (fun _ => []))]; auto; lia.
Qed.

(** C32: the communication patterns of the collectives, for arbitrary messages and arbitrary local computations *)
Section Patterns.
  Context {M St : Type}.
  Variable msg : nat -> nat -> nat -> St -> M.           (** what a rank sends *)
  Variable got : nat -> nat -> nat -> St -> M -> St.     (** what it does with a received message *)

  (** hpp:1165-1186, 1316-1463: exchange with the twin; the odd rank sends to [mid] *)
  Definition pattern_exchange {A} (rank l r : nat) (st : St) (k : St -> prog M A) : prog M A :=
    if rh_lower rank l r then
      if rh_odd rank l r then Snd (rh_mid l r) (msg rank l r st) (k st)
      else Snd (rh_twin rank l r) (msg rank l r st) (Rcv (rh_twin rank l r) (fun m => k (got rank l r st m)))
    else
      Rcv (rh_twin rank l r) (fun m => Snd (rh_twin rank l r) (msg rank l r st) (
        if rh_treatodd rank l r then Rcv (rh_mid l r - 1) (fun m' => k (got rank l r (got rank l r st m) m')) else k (got rank l r st m))).
  (** hpp:700-729, 784-804, 846-866: from the bottom; the odd rank receives from [mid] *)
  Definition pattern_collect {A} (rank l r : nat) (st : St) (k : St -> prog M A) : prog M A :=
    if rh_lower rank l r then
      if rh_odd rank l r then Rcv (rh_mid l r) (fun m => k (got rank l r st m))
      else Snd (rh_twin rank l r) (msg rank l r st) (Rcv (rh_twin rank l r) (fun m => k (got rank l r st m)))
    else
      Rcv (rh_twin rank l r) (fun m => Snd (rh_twin rank l r) (msg rank l r st) (
        if rh_treatodd rank l r then Snd (rh_mid l r - 1) (msg rank l r st) (k (got rank l r st m)) else k (got rank l r st m))).
  (** hpp:1205-1219, 1253-1270: the first rank of the interval sends to [mid] *)
  Definition pattern_spread {A} (rank l r : nat) (st : St) (k : St -> prog M A) : prog M A :=
    if l =? rank then Snd (rh_mid l r) (msg rank l r st) (k st)
    else if rh_mid l r =? rank then Rcv l (fun m => k (got rank l r st m)) else k st.
  (** hpp:628-645: the rank [mid] sends to the first rank of the interval *)
  Definition pattern_gather {A} (rank l r : nat) (st : St) (k : St -> prog M A) : prog M A :=
    if l =? rank then Rcv (rh_mid l r) (fun m => k (got rank l r st m))
    else if rh_mid l r =? rank then Snd l (msg rank l r st) (k st) else k st.

  Definition whole_exchange (n : nat) (st : nat -> St) : list (prog M St) :=
    map (fun i => rh_loop pattern_exchange n i 0 n (st i) (fun x => Ret x)) (seq 0 n).
  Definition whole_spread (n : nat) (st : nat -> St) : list (prog M St) :=
    map (fun i => rh_loop pattern_spread n i 0 n (st i) (fun x => Ret x)) (seq 0 n).
  Definition whole_collect (n : nat) (st : nat -> St) : list (prog M St) :=
    map (fun i => rh_levels pattern_collect (rh_depth n) i 0 n (st i) (fun x => Ret x)) (seq 0 n).
  Definition whole_gather (n : nat) (st : nat -> St) : list (prog M St) :=
    map (fun i => rh_levels pattern_gather (rh_depth n) i 0 n (st i) (fun x => Ret x)) (seq 0 n).

  Definition deterministic (n : nat) (ps : list (prog M St)) : Prop :=
    exists rs, completes n ps rs /\ forall rs', completes n ps rs' -> rs' = rs.

  Lemma det_down n (body : nat -> nat -> nat -> St -> (St -> prog M St) -> prog M St) (st : nat -> St) :
    (forall l r g, l + 1 < r -> r <= n -> exists g1, body_run n l r (fun i => body i l r (g i)) g1) ->
    deterministic n (map (fun i => rh_loop body n i 0 n (st i) (fun x => Ret x)) (seq 0 n)).
  Proof.
    intros H. destruct (td_ok n body St (fun _ x => x) (fun _ _ _ => True) (fun _ _ _ _ => True)) with (l := 0) (r := n) (g := st) as (gF & R & _); auto.
    { intros l r g Hl Hn _. destruct (H l r g Hl Hn) as (g1 & R). exists g1. auto. }
    pose proof (body_completes_all n _ gF (fun _ x => x) (R n ltac:(lia))) as C.
    exists (map (fun i => gF i) (seq 0 n)). split; [exact C|]. intros rs' C'. symmetry. exact (completes_unique n _ _ _ C C').
  Qed.
  Lemma det_up n (body : nat -> nat -> nat -> St -> (St -> prog M St) -> prog M St) (st : nat -> St) :
    (forall l r g, l + 1 < r -> r <= n -> exists g1, body_run n l r (fun i => body i l r (g i)) g1) ->
    deterministic n (map (fun i => rh_levels body (rh_depth n) i 0 n (st i) (fun x => Ret x)) (seq 0 n)).
  Proof.
    intros H. destruct (levels_run n body (fun _ _ _ _ => True)) with (L := rh_depth n) (l := 0) (r := n) (st := st) as (gF & R & _); auto; [|lia|].
    { intros l r g Hl Hn _ _. destruct (H l r g Hl Hn) as (g1 & R). exists g1. auto. }
    pose proof (body_completes_all n _ gF (fun _ x => x) R) as C.
    exists (map (fun i => gF i) (seq 0 n)). split; [exact C|]. intros rs' C'. symmetry. exact (completes_unique n _ _ _ C C').
  Qed.

  Theorem patterns_complete n (st : nat -> St) :
    deterministic n (whole_exchange n st) /\ deterministic n (whole_spread n st) /\
    deterministic n (whole_collect n st) /\ deterministic n (whole_gather n st).
  Proof.
    split; [|split; [|split]].
    - apply det_down. intros l r g H Hn. destruct (rh_mid_spec l r H) as (X & E & Y).
      set (f := fun i => msg i l r (g i)). set (h := rh_mid l r - l).
      exists (fun i => if i <? rh_mid l r then if rh_odd i l r then g i else got i l r (g i) (f (i + h))
                       else if rh_treatodd i l r then got i l r (got i l r (g i) (f (i - h))) (f (rh_mid l r - 1)) else got i l r (g i) (f (i - h))).
      apply round_up with (a := f) (b := f); auto.
      + intros i k Hi Ho. unfold pattern_exchange. rewrite lower_true, twin_lower, Ho by lia.
        eexists. split; [reflexivity|]. cbn beta. destruct (Nat.ltb_spec i (rh_mid l r)); [auto|lia].
      + intros i k Hi Ho. unfold pattern_exchange. rewrite lower_true, Ho by lia. destruct (Nat.ltb_spec i (rh_mid l r)); [auto|lia].
      + intros i k Hi. unfold pattern_exchange. rewrite lower_false, twin_upper by lia.
        eexists. eexists. split; [reflexivity|]. cbn beta. split; [reflexivity|]. destruct (Nat.ltb_spec i (rh_mid l r)); [lia|].
        destruct (rh_treatodd i l r); auto. eexists. split; [reflexivity|]. auto.
    - apply det_down. intros l r g H Hn. destruct (rh_mid_spec l r H) as (X & E & Y).
      exists (fun i => if i =? rh_mid l r then got i l r (g i) (msg l l r (g l)) else g i).
      apply (round_one n l r l (rh_mid l r) _ (msg l l r (g l))); auto; try lia.
      + intros k. unfold pattern_spread. rewrite Nat.eqb_refl. destruct (Nat.eqb_spec l (rh_mid l r)); [lia|auto].
      + intros k. unfold pattern_spread. destruct (Nat.eqb_spec l (rh_mid l r)); [lia|]. rewrite Nat.eqb_refl. eexists. split; reflexivity.
      + intros x k Hx N1 N2. unfold pattern_spread. destruct (Nat.eqb_spec l x); [lia|]. destruct (Nat.eqb_spec (rh_mid l r) x); [lia|].
        destruct (Nat.eqb_spec x (rh_mid l r)); [lia|auto].
    - apply det_up. intros l r g H Hn. destruct (rh_mid_spec l r H) as (X & E & Y).
      set (f := fun i => msg i l r (g i)). set (h := rh_mid l r - l).
      exists (fun i => if i <? rh_mid l r then got i l r (g i) (if rh_odd i l r then f (rh_mid l r) else f (i + h)) else got i l r (g i) (f (i - h))).
      apply round_down with (a := f) (b := f); auto.
      + intros i k Hi Ho. unfold pattern_collect. rewrite lower_true, twin_lower, Ho by lia.
        eexists. split; [reflexivity|]. cbn beta. destruct (Nat.ltb_spec i (rh_mid l r)); [auto|lia].
      + intros i k Hi Ho. unfold pattern_collect. rewrite lower_true, Ho by lia.
        eexists. split; [reflexivity|]. cbn beta. destruct (Nat.ltb_spec i (rh_mid l r)); [auto|lia].
      + intros i k Hi. unfold pattern_collect. rewrite lower_false, twin_upper by lia.
        eexists. eexists. split; [reflexivity|]. cbn beta. split; [reflexivity|]. destruct (Nat.ltb_spec i (rh_mid l r)); [lia|].
        destruct (rh_treatodd i l r); auto.
    - apply det_up. intros l r g H Hn. destruct (rh_mid_spec l r H) as (X & E & Y).
      exists (fun i => if i =? l then got i l r (g i) (msg (rh_mid l r) l r (g (rh_mid l r))) else g i).
      apply (round_one n l r (rh_mid l r) l _ (msg (rh_mid l r) l r (g (rh_mid l r)))); auto; try lia.
      + intros k. unfold pattern_gather. destruct (Nat.eqb_spec l (rh_mid l r)); [lia|]. rewrite Nat.eqb_refl.
        destruct (Nat.eqb_spec (rh_mid l r) l); [lia|auto].
      + intros k. unfold pattern_gather. rewrite Nat.eqb_refl. eexists. split; reflexivity.
      + intros x k Hx N1 N2. unfold pattern_gather. destruct (Nat.eqb_spec l x); [lia|]. destruct (Nat.eqb_spec (rh_mid l r) x); [lia|].
        destruct (Nat.eqb_spec x l); [lia|auto].
  Qed.
End Patterns.

(** five ranks counting the messages they receive *)
Example patterns_complete_ex :
  completes 5 (whole_exchange (fun _ _ _ _ => tt) (fun _ _ _ st _ => st + 1) 5 (fun _ => 0)) [3; 2; 2; 3; 2] /\
  completes 5 (whole_gather (fun _ _ _ _ => tt) (fun _ _ _ st _ => st + 1) 5 (fun _ => 0)) [3; 0; 0; 1; 0].
Proof. split; apply (exec_completes 5 30); vm_compute; reflexivity. Qed.

(** C34: the first rank gets the concatenation and all ranks the offsets *)
Theorem gather_unknown_concat {T} n (data rbuf : nat -> list T) :
  0 < n ->
  completes n (map (fun i => gather_unknown n i (map (fun r => length (data r)) (seq 0 n)) (data i) (rbuf i) (fun x => Ret x)) (seq 0 n))
              (map (fun i => (if i =? 0 then gathered data 0 n else rbuf i, map (offset data) (seq 0 (n + 1)))) (seq 0 n)).
Proof.
  intros Hn.
  destruct (levels_run n (ga_round (A := list T * list nat)) (ga_inv data) (ga_round_ok n data) (rh_depth n) 0 n (fun i => Some (data i))) as (st1 & R & I1); try lia.
  { intros i Hi. rewrite depth_leaf by lia. cbn [fst snd]. red. rewrite Nat.eqb_refl, gathered_one. auto. }
  pose proof (R (fun i st => match st with
    | Some recv => Ret (recv, ex_offsets (map (fun r => length (data r)) (seq 0 n) ++ [0]) 0)
    | None => Ret (rbuf i, ex_offsets (map (fun r => length (data r)) (seq 0 n) ++ [0]) 0) end)) as C.
  apply (frun_completes n). eapply frun_post; [|apply C; reflexivity].
  intros i Hi. cbn beta. destruct (inr_spec 0 n i); [|lia]. specialize (I1 i ltac:(lia)). red in I1. rewrite I1.
  assert (ex_offsets (map (fun r => length (data r)) (seq 0 n) ++ [0]) 0 = map (offset data) (seq 0 (n + 1))) as ->.
  { rewrite Nat.add_1_r. apply (ex_offsets_spec data n 0). }
  destruct (i =? 0); auto.
Qed.

Example gather_unknown_concat_ex :
  completes 3 (map (fun i => gather_unknown 3 i [2; 0; 1] (nth i [[1; 2]; []; [3]] []) [] (fun x => Ret x)) (seq 0 3))
    [([1; 2; 3], [0; 2; 2; 3]); ([], [0; 2; 2; 3]); ([], [0; 2; 2; 3])].
Proof. apply (gather_unknown_concat 3 (fun i => nth i [[1; 2]; []; [3]] []) (fun _ => [])). lia. Qed.

Lemma disp_mono n disp total : displacements n disp total -> forall i j, i <= j <= n -> nth i disp 0 <= nth j disp 0.
Proof.
  intros (_ & _ & M & _) i j H. remember (j - i) as d eqn:E. revert j H E. induction d as [|d IH]; intros j H E.
  - replace j with i by lia. auto.
  - specialize (IH (j - 1) ltac:(lia) ltac:(lia)). specialize (M (j - 1) ltac:(lia)). replace (j - 1 + 1) with j in M by lia. lia.
Qed.

(** C34: every rank gets its own part of the buffer of the first rank *)
Theorem scatterv_parts {T} (dflt : T) n disp (sbuf rbuf : nat -> list T) :
  0 < n -> displacements n disp (length (sbuf 0)) ->
  completes n (map (fun i => scatterv dflt n i disp (sbuf i) (rbuf i) (fun x => Ret x)) (seq 0 n))
              (map (fun i => slice (nth i disp 0) (nth (i + 1) disp 0) (sbuf 0)) (seq 0 n)).
Proof.
  intros Hn HD. pose proof (disp_mono _ _ _ HD) as Mono. destruct HD as (L & D0 & M & Dn).
  set (D := fun i => nth i disp 0).
  assert (At : forall i (k : nat -> prog (list T) (list T)), i <= n -> at_ disp i k = k (D i)).
  { intros i k Hi. unfold at_. rewrite (nth_error_nth' _ 0) by lia. auto. }
  destruct (sc_td dflt n (sbuf 0) D Mono D0 Dn (sv_round (A := list T) dflt disp)) with (l := 0) (r := n) (g := fun i => (sbuf i, rbuf i)) as (gF & R & Q); auto.
  { intros rank l r st k H Hr. destruct (rh_mid_spec l r H) as (X & _). unfold sv_round. rewrite !At by lia. reflexivity. }
  { red. cbn. auto. }
  pose proof (R n ltac:(lia) (fun i st => if i =? 0 then at_ disp 1 (fun d1 => range (fst st) 0 d1 (fun x => Ret x)) else Ret (snd st))) as C.
  apply (frun_completes n). eapply frun_post; [|apply C].
  - intros i Hi. cbn beta. destruct (inr_spec 0 n i); [|lia]. specialize (Q i ltac:(lia)). red in Q.
    destruct (Nat.eqb_spec i 0) as [E0|N].
    + rewrite E0 in *. rewrite At by lia. rewrite Q. unfold range. pose proof (Mono 1 n ltac:(lia)). unfold D.
      destruct (Nat.leb_spec (nth 1 disp 0) (length (sbuf 0))); [|lia]. cbn [andb Nat.leb]. rewrite D0. auto.
    + rewrite Q. auto.
  - intros i Hi. cbn beta. unfold scatterv. destruct (Nat.eqb_spec i 0); auto.
Qed.

Example scatterv_parts_ex :
  completes 3 (map (fun i => scatterv 0 3 i [0; 1; 1; 3] (if i =? 0 then [5; 6; 7; 8] else []) [] (fun x => Ret x)) (seq 0 3)) [[5]; []; [6; 7]].
Proof.
  apply (scatterv_parts 0 3 [0; 1; 1; 3] (fun i => if i =? 0 then [5; 6; 7; 8] else []) (fun _ => [])); [lia|].
  split; [auto|]. split; [auto|]. split; [|cbn; lia]. intros i Hi. do 3 (destruct i as [|i]; [cbn; lia|]). lia.
Qed.

(** C34: the same with parts of equal length *)
Theorem scatter_parts {T} (dflt : T) n size (sbuf rbuf : nat -> list T) :
  0 < n -> n * size <= length (sbuf 0) ->
  completes n (map (fun i => scatter dflt n i size (sbuf i) (rbuf i) (fun x => Ret x)) (seq 0 n))
              (map (fun i => slice (i * size) ((i + 1) * size) (sbuf 0)) (seq 0 n)).
Proof.
  intros Hn HL. set (D := fun i => i * size).
  destruct (sc_td (A := list T) dflt n (sbuf 0) D) with (body := sc_round (A := list T) dflt size) (l := 0) (r := n) (g := fun i => (sbuf i, rbuf i)) as (gF & R & Q); auto.
  { intros i j H. unfold D. apply Nat.mul_le_mono_r. lia. }
  { intros rank l r st k H Hr. destruct (rh_mid_spec l r H) as (X & _). unfold sc_round, sc_core, D.
    rewrite <- !Nat.mul_sub_distr_r. rewrite <- Nat.mul_add_distr_r. replace (rh_mid l r - l + (r - rh_mid l r)) with (r - l) by lia. auto. }
  { red. cbn. auto. }
  pose proof (R n ltac:(lia) (fun i st => if i =? 0 then range (fst st) 0 size (fun x => Ret x) else Ret (snd st))) as C.
  apply (frun_completes n). eapply frun_post; [|apply C].
  - intros i Hi. cbn beta. destruct (inr_spec 0 n i); [|lia]. specialize (Q i ltac:(lia)). red in Q.
    destruct (Nat.eqb_spec i 0) as [E0|N].
    + rewrite E0 in *. rewrite Q. unfold range. assert (size <= length (sbuf 0)) by (destruct n; [lia|]; cbn in HL; lia).
      destruct (Nat.leb_spec size (length (sbuf 0))); [|lia]. cbn. rewrite Nat.add_0_r. auto.
    + rewrite Q. auto.
  - intros i Hi. cbn beta. unfold scatter. destruct (Nat.eqb_spec i 0); auto.
Qed.

Example scatter_parts_ex :
  completes 3 (map (fun i => scatter 0 3 i 2 (if i =? 0 then [1; 2; 3; 4; 5; 6] else []) [] (fun x => Ret x)) (seq 0 3)) [[1; 2]; [3; 4]; [5; 6]].
Proof. apply (scatter_parts 0 3 2 (fun i => if i =? 0 then [1; 2; 3; 4; 5; 6] else []) (fun _ => [])); cbn; lia. Qed.

Print Assumptions all_reduce_total.
Print Assumptions all_reduce_equal_refuted.
Print Assumptions all_gather_concat.
Print Assumptions all_gather_limit_refuted.
Print Assumptions unique_all_gather_union.
Print Assumptions all_gather_inplace_at.
Print Assumptions all_gather_inplace_concat.
Print Assumptions all_to_all_delivers.
Print Assumptions receive_lower_shifts.
Print Assumptions receive_upper_shifts.
Print Assumptions patterns_complete.
Print Assumptions gather_unknown_concat.
Print Assumptions scatterv_parts.
Print Assumptions scatter_parts.
