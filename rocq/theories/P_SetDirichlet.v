(** * Prescribed values in the direct solvers: the same solutions, and a symmetric matrix (C139) *)
From Coq Require Import List Bool Arith ZArith Lia Ring_theory Ring.
From Verif Require Import Base M_SetDirichlet S_SetDirichlet.
Import ListNotations.
Local Open Scope out_scope.

Section SetDirichlet.
Context {T : Type}.
Variables (zero one : T) (add mul sub : T -> T -> T) (opp : T -> T).
Hypothesis Ring : ring_theory zero one add mul sub opp eq.
Add Ring TheRing : Ring.

Local Notation row := (@row T).
Local Notation prod_ := (product zero add mul).

(** ** One row *)
Definition without (cols : nat -> bool) (r : row) : row := map (fun e => (fst e, if cols (fst e) then zero else snd e)) r.
Definition moved (cols : nat -> bool) (val : nat -> T) (r : row) : T := prod_ (filter (fun e => cols (fst e)) r) val.
Definition unit_row (i : nat) (r : row) : row := map (fun e => (fst e, if fst e =? i then one else zero)) r.

Local Lemma eliminate_eq i v r : forall b,
  eliminate zero mul sub i v r b = (without (fun c => c =? i) r, sub b (moved (fun c => c =? i) (fun _ => v) r)).
Proof.
  unfold without, moved. induction r as [|[c a] r IH]; intros b; simpl; [f_equal; ring|].
  destruct (c =? i); rewrite IH; simpl; f_equal; auto. ring.
Qed.

Local Lemma without_fst cols r : map fst (without cols r) = map fst r.
Proof. unfold without. rewrite map_map. now apply map_ext. Qed.
Local Lemma unit_fst i r : map fst (unit_row i r) = map fst r.
Proof. unfold unit_row. rewrite map_map. now apply map_ext. Qed.

Local Lemma without_without p q r : without p (without q r) = without (fun c => p c || q c) r.
Proof. unfold without. rewrite map_map. apply map_ext. intros [c a]. simpl. destruct (p c), (q c); reflexivity. Qed.
Local Lemma without_ext p q r : (forall c, In c (map fst r) -> p c = q c) -> without p r = without q r.
Proof. intros E. unfold without. apply map_ext_in. intros [c a] I. simpl. rewrite E; auto. apply in_map_iff. exists (c, a). auto. Qed.
Local Lemma moved_ext p q v w r : (forall c, In c (map fst r) -> p c = q c) -> (forall c, p c = true -> v c = w c) -> moved p v r = moved q w r.
Proof.
  intros E F. unfold moved. induction r as [|[c a] r IH]; simpl; auto. rewrite <- E by (now left).
  specialize (IH (fun c I => E c (or_intror I))). destruct (p c) eqn:P; simpl; auto. rewrite IH, F; auto.
Qed.
(** a column that was not moved before *)
Local Lemma moved_one i q val r : q i = false ->
  moved (fun c => c =? i) (fun _ => val i) (without q r) = moved (fun c => c =? i) val r.
Proof.
  intros Q. unfold moved, without. induction r as [|[c a] r IH]; simpl; auto. destruct (Nat.eqb_spec c i) as [->|]; simpl; auto.
  now rewrite IH, Q.
Qed.
Local Lemma moved_or i q val r : q i = false ->
  moved (fun c => (c =? i) || q c) val r = add (moved q val r) (moved (fun c => c =? i) val r).
Proof.
  intros Q. unfold moved. induction r as [|[c a] r IH]; simpl; [ring|]. destruct (Nat.eqb_spec c i) as [->|]; simpl.
  - rewrite Q, IH. simpl. ring.
  - destruct (q c); simpl; rewrite IH; ring.
Qed.
Local Lemma product_split p x r : prod_ r x = add (prod_ (without p r) x) (moved p x r).
Proof.
  unfold without, moved. induction r as [|[c a] r IH]; simpl; [ring|]. destruct (p c); simpl; rewrite IH; ring.
Qed.
Local Lemma product_unit i x r : NoDup (map fst r) -> In i (map fst r) -> prod_ (unit_row i r) x = x i.
Proof.
  assert (Z : forall r, ~ In i (map fst r) -> prod_ (unit_row i r) x = zero).
  { intros r0. induction r0 as [|[c a] r0 IH]; intros N; simpl; auto. simpl in N. destruct (Nat.eqb_spec c i); [tauto|]. rewrite IH by tauto. ring. }
  induction r as [|[c a] r IH]; simpl; [tauto|]. intros ND I. inversion ND as [|? ? Nc ND']; subst. destruct (Nat.eqb_spec c i) as [->|N].
  - change (map _ r) with (unit_row i r). rewrite Z by auto. ring.
  - destruct I as [|I]; [congruence|]. change (map _ r) with (unit_row i r). rewrite IH by auto. ring.
Qed.

(** ** The loop over the entries of a prescribed row *)
Variable A0 : list row.
Variable b0 : list T.
Hypothesis Good : good_matrix A0.
Hypothesis Size : length b0 = length A0.
Variable indices : list nat.

Definition member (l : list nat) (c : nat) : bool := existsb (Nat.eqb c) l.
Local Lemma member_In l c : member l c = true <-> In c l.
Proof.
  unfold member. rewrite existsb_exists. split.
  - intros (x & I & E). apply Nat.eqb_eq in E. now subst.
  - intros I. exists c. now rewrite Nat.eqb_refl.
Qed.

Local Lemma set_entries i A b r : length A = length A0 -> length b = length A0 -> i < length A0 -> In i indices ->
  NoDup (map fst r) -> (forall c, In c (map fst r) -> c < length A0) ->
  exists A' b', foldM (set_entry zero one mul sub indices i) r (A, b, []) = Ok (A', b', unit_row i r) /\
    length A' = length A0 /\ length b' = length A0 /\
    forall k, k < length A0 ->
      if negb (member indices k) && member (map fst r) k then
        nth k A' [] = without (fun c => c =? i) (nth k A []) /\ nth k b' zero = sub (nth k b zero) (moved (fun c => c =? i) (fun _ => nth i b zero) (nth k A []))
      else nth k A' [] = nth k A [] /\ nth k b' zero = nth k b zero.
Proof.
  intros LA Lb Li Ii ND Below.
  destruct (foldM_inv (set_entry zero one mul sub indices i) (fun pre (s : list row * list T * row) =>
    let '(A', b', new) := s in new = unit_row i pre /\ length A' = length A0 /\ length b' = length A0 /\
    forall k, k < length A0 ->
      if negb (member indices k) && member (map fst pre) k then
        nth k A' [] = without (fun c => c =? i) (nth k A []) /\ nth k b' zero = sub (nth k b zero) (moved (fun c => c =? i) (fun _ => nth i b zero) (nth k A []))
      else nth k A' [] = nth k A [] /\ nth k b' zero = nth k b zero) r (A, b, [])) as ([[A' b'] new] & E & -> & LA' & Lb' & K).
  - split; [reflexivity|]. split; auto. split; auto. intros k Lk. simpl. rewrite andb_false_r. auto.
  - intros pre e post [[A' b'] new] Er (-> & LA' & Lb' & K). unfold set_entry.
    assert (Un : unit_row i (pre ++ [e]) = unit_row i pre ++ [(fst e, if fst e =? i then one else zero)]) by (unfold unit_row; now rewrite map_app).
    assert (Mem : forall k, member (map fst (pre ++ [e])) k = member (map fst pre) k || (k =? fst e)).
    { intros k. unfold member. rewrite map_app, existsb_app. simpl. now rewrite orb_false_r. }
    assert (Le : fst e < length A0) by (apply Below; rewrite Er, map_app; apply in_or_app; right; now left).
    assert (Ne : member (map fst pre) (fst e) = false).
    { apply not_true_is_false. rewrite member_In. rewrite Er, map_app in ND. simpl in ND. apply NoDup_remove_2 in ND.
      intros X. apply ND. apply in_or_app. now left. }
    destruct (Nat.eqb_spec (fst e) i) as [Ei|Ni].
    + eexists. split; [reflexivity|]. split; [now rewrite Un, Ei|]. split; auto. split; auto. intros k Lk. rewrite Mem. specialize (K k Lk).
      destruct (Nat.eqb_spec k (fst e)) as [->|]; [|now rewrite orb_false_r]. rewrite Ei in *. rewrite (proj2 (member_In indices i) Ii) in *. exact K.
    + rewrite LA'. destruct (Nat.ltb_spec (fst e) (length A0)); [|lia]. simpl.
      change (existsb (Nat.eqb (fst e)) indices) with (member indices (fst e)).
      destruct (member indices (fst e)) eqn:Me; simpl.
      * eexists. split; [reflexivity|]. split; [now rewrite Un|]. split; auto. split; auto. intros k Lk. rewrite Mem. specialize (K k Lk).
        destruct (Nat.eqb_spec k (fst e)) as [->|]; [|now rewrite orb_false_r]. rewrite Me in *. exact K.
      * pose proof (K (fst e) Le) as Ke. rewrite Me, Ne in Ke. simpl in Ke. destruct Ke as [Ka Kb].
        pose proof (K i Li) as Ki. rewrite (proj2 (member_In indices i) Ii) in Ki. simpl in Ki. destruct Ki as [_ Ki].
        rewrite (rd_ok A' (fst e) []) by lia. simpl. rewrite (rd_ok b' (fst e) zero) by lia. simpl. rewrite (rd_ok b' i zero) by lia. simpl.
        rewrite eliminate_eq, Ka, Kb, Ki. rewrite wr_ok by lia. simpl. rewrite wr_ok by lia. simpl.
        eexists. split; [reflexivity|]. split; [now rewrite Un|]. rewrite !upd_length. split; auto. split; auto. intros k Lk. rewrite Mem.
        destruct (Nat.eqb_spec k (fst e)) as [->|Nk].
        -- rewrite Me, orb_true_r. simpl. rewrite !nth_upd_eq by lia. auto.
        -- rewrite orb_false_r. rewrite !nth_upd_neq by auto. exact (K k Lk).
  - exists A', b'. auto.
Qed.

(** ** The loop over the prescribed values *)
Variable val : nat -> T.

Definition state (done : list nat) (A : list row) (b : list T) : Prop :=
  length A = length A0 /\ length b = length A0 /\
  forall r, r < length A0 ->
    if member indices r then
      if member done r then nth r A [] = unit_row r (nth r A0 []) /\ nth r b zero = val r
      else nth r A [] = nth r A0 [] /\ nth r b zero = nth r b0 zero
    else nth r A [] = without (member done) (nth r A0 []) /\ nth r b zero = sub (nth r b0 zero) (moved (member done) val (nth r A0 [])).

Local Lemma set_one_state done A b i : state done A b -> In i indices -> i < length A0 -> ~ In i done ->
  exists A' b', set_one zero one mul sub indices (A, b) (i, val i) = Ok (A', b') /\ state (i :: done) A' b'.
Proof.
  intros (LA & Lb & St) Ii Li Nd. unfold set_one. cbn [fst snd]. rewrite wr_ok by lia. simpl.
  assert (Mi : member indices i = true) by now apply member_In.
  assert (Md : member done i = false) by (apply not_true_is_false; rewrite member_In; auto).
  pose proof (St i Li) as Si. rewrite Mi, Md in Si. destruct Si as [Sa Sb].
  rewrite (rd_ok A i []) by lia. simpl. rewrite Sa. destruct (Good i Li) as (ND & Dg & Sym).
  destruct (set_entries i A (upd b i (val i)) (nth i A0 [])) as (A' & b' & E & LA' & Lb' & K); auto; [now rewrite upd_length|intros c Ic; now apply Sym|].
  rewrite E. simpl. rewrite wr_ok by lia. simpl. eexists. eexists. split; [reflexivity|].
  split; [now rewrite upd_length|]. split; auto. intros r Lr. specialize (K r Lr). specialize (St r Lr).
  assert (Mc : forall c, member (i :: done) c = (c =? i) || member done c) by reflexivity.
  destruct (Nat.eq_dec r i) as [->|Nr].
  - rewrite Mi in *. unfold member at 1. simpl existsb. rewrite Nat.eqb_refl. simpl in *. destruct K as [_ Kb]. rewrite nth_upd_eq by lia. split; auto.
    rewrite Kb. apply nth_upd_eq. lia.
  - rewrite nth_upd_neq by auto. rewrite (nth_upd_neq b) in K by auto. rewrite nth_upd_eq in K by lia.
    destruct (member indices r) eqn:Mr; simpl in *.
    + destruct (Nat.eqb_spec r i); [congruence|]. simpl. destruct K as [-> ->]. exact St.
    + destruct St as [Ea Eb]. rewrite Ea, Eb in K. destruct (member (map fst (nth i A0 [])) r) eqn:Mir.
      * destruct K as [-> ->]. split.
        -- rewrite without_without. reflexivity.
        -- rewrite moved_one by auto.
           transitivity (sub (nth r b0 zero) (moved (fun c => (c =? i) || member done c) val (nth r A0 []))); [|reflexivity].
           rewrite (moved_or i (member done) val (nth r A0 []) Md). ring.
      * (* column i is not stored in row r *)
        assert (Ns : ~ In i (map fst (nth r A0 []))).
        { intros S'. apply (proj2 (proj2 (Good r Lr))) in S'. destruct S' as [_ S']. unfold stored in S'. apply member_In in S'. exact (eq_true_false_abs _ S' Mir). }
        assert (Same : forall c, In c (map fst (nth r A0 [])) -> member done c = member (i :: done) c).
        { intros c Ic. transitivity ((c =? i) || member done c); [|reflexivity]. destruct (Nat.eqb_spec c i) as [->|]; [tauto|reflexivity]. }
        destruct K as [-> ->]. split; [now apply without_ext|]. f_equal. now apply moved_ext.
Qed.

Local Lemma set_all l : forall done A b, state done A b -> (forall i, In i l -> In i indices /\ i < length A0 /\ ~ In i done) -> NoDup l ->
  exists A' b', foldM (set_one zero one mul sub indices) (map (fun i => (i, val i)) l) (A, b) = Ok (A', b') /\ state (rev l ++ done) A' b'.
Proof.
  induction l as [|i l IH]; intros done A b St H ND; simpl; [eauto|]. inversion ND; subst.
  destruct (H i (or_introl eq_refl)) as (Ii & Li & Nd). destruct (set_one_state done A b i St Ii Li Nd) as (A1 & b1 & E & St1). rewrite E. simpl.
  destruct (IH (i :: done) A1 b1 St1) as (A2 & b2 & E2 & St2); auto.
  - intros j Ij. destruct (H j (or_intror Ij)) as (? & ? & ?). split; auto. split; auto. intros [->|]; auto.
  - exists A2, b2. split; auto. rewrite <- app_assoc. exact St2.
Qed.
End SetDirichlet.

Section Theorems.
Context {T : Type}.
Variables (zero one : T) (add mul sub : T -> T -> T) (opp : T -> T).
Hypothesis Ring : ring_theory zero one add mul sub opp eq.
Add Ring TheRing2 : Ring.

Local Notation row := (@row T).
Definition value_of (ds : list (nat * T)) (c : nat) : T := match find (fun d => fst d =? c) ds with Some d => snd d | None => zero end.
Local Lemma value_of_In ds i v : NoDup (map fst ds) -> In (i, v) ds -> value_of ds i = v.
Proof.
  unfold value_of. induction ds as [|[j w] ds IH]; simpl; [tauto|]. intros ND I. inversion ND; subst. destruct (Nat.eqb_spec j i) as [->|N].
  - destruct I as [I|I]; [now injection I|]. exfalso. apply H1. apply in_map_iff. exists (i, v). auto.
  - destruct I as [I|I]; [injection I; congruence|auto].
Qed.
Local Lemma as_values ds : NoDup (map fst ds) -> ds = map (fun i => (i, value_of ds i)) (map fst ds).
Proof.
  intros ND. rewrite map_map. rewrite <- (map_id ds) at 1. apply map_ext_in. intros [i v] I. simpl. now rewrite (value_of_In ds i v).
Qed.

Variable ds : list (nat * T).
Variable A : list row.
Variable b : list T.
Hypothesis Good : good_matrix A.
Hypothesis Size : length b = length A.
Hypothesis Distinct : NoDup (map fst ds).
Hypothesis Below : forall i, In i (map fst ds) -> i < length A.

Local Lemma final : exists A' b', set_dirichlet zero one mul sub ds A b = Ok (A', b') /\
  length A' = length A /\ length b' = length A /\
  (forall i, In i (map fst ds) -> nth i A' [] = unit_row zero one i (nth i A []) /\ nth i b' zero = value_of ds i) /\
  (forall r, r < length A -> ~ In r (map fst ds) -> nth r A' [] = without zero (member (map fst ds)) (nth r A []) /\
     nth r b' zero = sub (nth r b zero) (moved zero add mul (member (map fst ds)) (value_of ds) (nth r A []))).
Proof.
  unfold set_dirichlet.
  destruct (set_all zero one add mul sub opp Ring A b Good Size (map fst ds) (value_of ds) (map fst ds) [] A b) as (A' & b' & E & LA & Lb & St); auto.
  - split; auto. split; auto. intros r Lr. destruct (member (map fst ds) r); simpl; auto. split.
    + unfold without. rewrite <- (map_id (nth r A [])) at 1. apply map_ext. now intros [].
    + unfold moved. induction (nth r A []) as [|e l IH]; simpl in *; [ring|auto].
  - exists A', b'. rewrite <- (as_values ds Distinct) in E. split; auto. split; auto. split; auto.
    assert (Rev : forall c, member (rev (map fst ds) ++ []) c = member (map fst ds) c).
    { intros c. apply eq_true_iff_eq. rewrite !member_In, app_nil_r, <- in_rev. tauto. }
    split.
    + intros i Ii. specialize (St i (Below i Ii)). rewrite Rev in St. rewrite (proj2 (member_In _ i) Ii) in St. exact St.
    + intros r Lr Nr. specialize (St r Lr). destruct (member (map fst ds) r) eqn:M; [apply member_In in M; tauto|]. destruct St as [-> ->]. split.
      * apply without_ext. auto.
      * f_equal. apply moved_ext; auto.
Qed.

(** C139: the changed system has exactly the solutions with the prescribed values that satisfy the other equations of the original system *)
Theorem dirichlet_solutions : exists A' b', set_dirichlet zero one mul sub ds A b = Ok (A', b') /\
  length A' = length A /\ forall x, solves zero add mul A' b' x <-> solves_prescribed zero add mul ds A b x.
Proof.
  destruct final as (A' & b' & E & LA & Lb & Sp & Sn). exists A', b'. split; auto. split; auto. intros x. unfold solves, solves_prescribed, equation.
  assert (P : forall i, In i (map fst ds) -> (product zero add mul (nth i A' []) x = nth i b' zero <-> x i = value_of ds i)).
  { intros i Ii. destruct (Sp i Ii) as [-> ->]. destruct (Good i (Below i Ii)) as (ND & Dg & _).
    rewrite (product_unit zero one add mul sub opp Ring); auto. tauto. }
  assert (Q : (forall i, In i (map fst ds) -> x i = value_of ds i) -> forall r, r < length A -> ~ In r (map fst ds) ->
    (product zero add mul (nth r A' []) x = nth r b' zero <-> product zero add mul (nth r A []) x = nth r b zero)).
  { intros X r Lr Nr. destruct (Sn r Lr Nr) as [-> ->].
    rewrite (product_split zero one add mul sub opp Ring (member (map fst ds)) x (nth r A [])).
    rewrite <- (moved_ext zero add mul (member (map fst ds)) (member (map fst ds)) x (value_of ds) (nth r A [])); auto.
    2:{ intros c M. apply X. now apply member_In. }
    split; intros H.
    - rewrite H. ring.
    - rewrite <- H. ring. }
  split.
  - intros S'. assert (X : forall i, In i (map fst ds) -> x i = value_of ds i).
    { intros i Ii. apply P; auto. apply S'. apply (Nat.lt_le_trans _ (length A)); [auto|apply Nat.eq_le_incl; symmetry; exact LA]. }
    split.
    + intros i v I. rewrite X; [now apply value_of_In|]. apply in_map_iff. exists (i, v). auto.
    + intros r Lr Nr. apply Q; auto. apply S'. apply (Nat.lt_le_trans _ (length A)); [auto|apply Nat.eq_le_incl; symmetry; exact LA].
  - intros [S1 S2] r Lr'. assert (Lr : r < length A) by (apply (Nat.lt_le_trans _ (length A')); [exact Lr'|apply Nat.eq_le_incl; exact LA]).
    assert (X : forall i, In i (map fst ds) -> x i = value_of ds i).
    { intros i Ii. apply in_map_iff in Ii. destruct Ii as ([j v] & <- & I). simpl. rewrite (value_of_In ds j v) by auto. auto. }
    destruct (in_dec Nat.eq_dec r (map fst ds)) as [I|N]; [apply P; auto|apply Q; auto].
Qed.

(** C139: a symmetric matrix stays symmetric, with the rows and columns of the identity for the prescribed values *)
Theorem dirichlet_symmetric : symmetric A -> exists A' b', set_dirichlet zero one mul sub ds A b = Ok (A', b') /\ symmetric A' /\
  (forall i r a, In i (map fst ds) -> In (i, a) (nth r A' []) -> a = if r =? i then one else zero) /\
  (forall r c, stored A' r c <-> stored A r c) /\
  (forall r c a, ~ In r (map fst ds) -> ~ In c (map fst ds) -> (In (c, a) (nth r A' []) <-> In (c, a) (nth r A []))).
Proof.
  intros Sym. destruct final as (A' & b' & E & LA & Lb & Sp & Sn). exists A', b'. split; auto.
  assert (Out : forall r, length A <= r -> nth r A' [] = [] /\ nth r A [] = []) by (intros r Lr; split; apply nth_overflow; lia).
  assert (Pat : forall r, map fst (nth r A' []) = map fst (nth r A [])).
  { intros r. destruct (lt_dec r (length A)) as [Lr|Lr]; [|destruct (Out r) as [-> ->]; auto; lia].
    destruct (in_dec Nat.eq_dec r (map fst ds)) as [I|N]; [destruct (Sp r I) as [-> _]; apply unit_fst|destruct (Sn r Lr N) as [-> _]; apply without_fst]. }
  assert (InP : forall r c a, In (c, a) (nth r A' []) ->
    r < length A /\ c < length A /\ stored A c r /\ stored A r c).
  { intros r c a I. destruct (lt_dec r (length A)) as [Lr|Lr]; [|destruct (Out r) as [X _]; [lia|]; rewrite X in I; destruct I].
    assert (St : stored A r c) by (unfold stored; rewrite <- Pat; apply in_map_iff; exists (c, a); auto).
    destruct (Good r Lr) as (_ & _ & G). destruct (G c St). auto. }
  assert (Row : forall r c, In r (map fst ds) -> stored A r c -> In (c, if c =? r then one else zero) (nth r A' [])).
  { intros r c I St. destruct (Sp r I) as [-> _]. unfold stored in St. apply in_map_iff in St. destruct St as ([c' a] & <- & St).
    unfold unit_row. apply in_map_iff. exists (c', a). auto. }
  assert (Row' : forall r c a, In r (map fst ds) -> In (c, a) (nth r A' []) -> a = if c =? r then one else zero).
  { intros r c a I. destruct (Sp r I) as [-> _]. unfold unit_row. intros X. apply in_map_iff in X. destruct X as (e & X & _). injection X as <- <-. reflexivity. }
  assert (Col : forall r c, r < length A -> ~ In r (map fst ds) -> In c (map fst ds) -> stored A r c -> In (c, zero) (nth r A' [])).
  { intros r c Lr N I St. destruct (Sn r Lr N) as [-> _]. unfold stored in St. apply in_map_iff in St. destruct St as ([c' a] & <- & St).
    unfold without. apply in_map_iff. exists (c', a). simpl in *. rewrite (proj2 (member_In _ c') I). auto. }
  assert (Col' : forall r c a, r < length A -> ~ In r (map fst ds) -> In c (map fst ds) -> In (c, a) (nth r A' []) -> a = zero).
  { intros r c a Lr N I. destruct (Sn r Lr N) as [-> _]. unfold without. intros X. apply in_map_iff in X. destruct X as (e & X & _). injection X as <- <-.
    now rewrite (proj2 (member_In _ (fst e)) I). }
  assert (Rest : forall r c a, ~ In r (map fst ds) -> ~ In c (map fst ds) -> (In (c, a) (nth r A' []) <-> In (c, a) (nth r A []))).
  { intros r c a N Nc. destruct (lt_dec r (length A)) as [Lr|Lr]; [|destruct (Out r) as [-> ->]; tauto || lia].
    destruct (Sn r Lr N) as [-> _]. unfold without. split; intros X.
    - apply in_map_iff in X. destruct X as ([c' a'] & X & I). simpl in X. injection X as <- <-.
      destruct (member (map fst ds) c') eqn:M; [apply member_In in M; tauto|auto].
    - apply in_map_iff. exists (c, a). simpl. destruct (member (map fst ds) c) eqn:M; [apply member_In in M; tauto|auto]. }
  split; [|split; [|split]]; auto.
  - intros r c a I. destruct (InP r c a I) as (Lr & Lc & S1 & S2).
    destruct (in_dec Nat.eq_dec r (map fst ds)) as [Ir|Nr].
    + pose proof (Row' r c a Ir I) as Ea. destruct (Nat.eqb_spec c r) as [Ecr|N]; subst a.
      * rewrite Ecr. rewrite Ecr in S1. pose proof (Row r r Ir S1) as X. now rewrite Nat.eqb_refl in X.
      * destruct (in_dec Nat.eq_dec c (map fst ds)) as [Ic|Nc].
        -- pose proof (Row c r Ic S1) as X. destruct (Nat.eqb_spec r c); [congruence|exact X].
        -- now apply Col.
    + destruct (in_dec Nat.eq_dec c (map fst ds)) as [Ic|Nc].
      * pose proof (Col' r c a Lr Nr Ic I) as Ea. subst a. pose proof (Row c r Ic S1) as X. destruct (Nat.eqb_spec r c) as [Erc|]; [rewrite Erc in Nr; tauto|exact X].
      * apply Rest; auto. apply Sym. now apply Rest.
  - intros i r a Ii I. destruct (InP r i a I) as (Lr & _ & _ & _). destruct (in_dec Nat.eq_dec r (map fst ds)) as [Ir|Nr].
    + rewrite (Row' r i a Ir I). now rewrite Nat.eqb_sym.
    + rewrite (Col' r i a Lr Nr Ii I). destruct (Nat.eqb_spec r i) as [Eri|]; [rewrite Eri in Nr; tauto|reflexivity].
  - intros r c. unfold stored. now rewrite Pat.
Qed.
End Theorems.

(** the hypotheses are met: a chain of four DOFs with the first and the third prescribed *)
Definition chain : list (list (nat * Z)) :=
  [[(0%nat, 2); (1%nat, -1)]; [(0%nat, -1); (1%nat, 2); (2%nat, -1)]; [(1%nat, -1); (2%nat, 2); (3%nat, -1)]; [(2%nat, -1); (3%nat, 2)]]%Z.
Example chain_met :
  good_matrix chain /\ symmetric chain /\
  set_dirichlet 0%Z 1%Z Z.mul Z.sub [(0%nat, 5); (2%nat, 7)]%Z chain [10; 20; 30; 40]%Z =
    Ok ([[(0%nat, 1); (1%nat, 0)]; [(0%nat, 0); (1%nat, 2); (2%nat, 0)]; [(1%nat, 0); (2%nat, 1); (3%nat, 0)]; [(2%nat, 0); (3%nat, 2)]], [5; 32; 7; 47])%Z.
Proof.
  split; [|split].
  - intros r Lr. simpl in Lr. destruct r as [|[|[|[|]]]]; try lia; unfold stored; simpl;
      (split; [repeat constructor; simpl; intuition lia|]); (split; [tauto|]); intros c Hc; intuition (subst; simpl; auto; lia).
  - intros r c a I. destruct r as [|[|[|[|]]]]; simpl in I; repeat (destruct I as [I|I]; [injection I as <- <-; simpl; auto|]); try tauto.
    destruct n; destruct I.
  - reflexivity.
Qed.

Print Assumptions dirichlet_solutions.
Print Assumptions dirichlet_symmetric.
