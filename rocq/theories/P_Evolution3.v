(** * C87, C88: forbidden configurations and the leader of SOMAT3A *)
From Coq Require Import ZArith QArith List Bool Lia.
From Verif Require Import Base S_Order M_Evolution S_Evolution L_Evolution P_Evolution2.
Import ListNotations.
Local Open Scope Z_scope.

Section C87.
Variable A : arith.

Definition fits (x : num A) : Prop := int_min <= trunc A x <= int_max.

Lemma to_int_fits x : fits x -> to_int (trunc A x) = Ok (trunc A x).
Proof.
  intros [H1 H2]. unfold to_int.
  replace ((int_min <=? trunc A x) && (trunc A x <=? int_max)) with true; auto.
  symmetry; apply andb_true_intro; split; now apply Z.leb_le.
Qed.

Lemma values_equal_trunc p x y : p <> FLOAT -> fits x -> fits y -> values_equal A p x y = Ok (trunc A x =? trunc A y).
Proof.
  intros N Fx Fy. unfold values_equal. destruct p; try congruence;
    rewrite (to_int_fits x Fx), (to_int_fits y Fy); reflexivity.
Qed.

(** equal whole parts of all parameters *)
Definition same_ints (d : nat) (c f : list (num A)) : Prop :=
  forall i x y, (i < d)%nat -> nth_error c i = Some x -> nth_error f i = Some y -> trunc A x = trunc A y.

Lemma same_configuration_ok ps c f i :
  Forall (fun p => p <> FLOAT) ps -> Forall fits (firstn (i + length ps) c) -> Forall fits (firstn (i + length ps) f) ->
  (i + length ps <= length c)%nat -> (i + length ps <= length f)%nat ->
  exists b, same_configuration A ps c f i = Ok b /\
    (b = true <-> forall j x y, (i <= j < i + length ps)%nat -> nth_error c j = Some x -> nth_error f j = Some y ->
                    trunc A x = trunc A y).
Proof.
  revert i. induction ps as [|p ps IH]; intros i N Fc Ff Lc Lf; cbn [same_configuration].
  - exists true. split; auto. split; auto. simpl. intros; lia.
  - inversion N as [|? ? Np Nps]; subst. cbn [length] in *.
    destruct (nth_error c i) as [x|] eqn:Ex; [|apply nth_error_None in Ex; lia].
    destruct (nth_error f i) as [y|] eqn:Ey; [|apply nth_error_None in Ey; lia].
    rewrite (rd_some _ _ _ Ex), (rd_some _ _ _ Ey). cbn [obind].
    assert (K : forall l z, nth_error l i = Some z -> Forall fits (firstn (i + S (length ps)) l) -> fits z).
    { intros l z E F. eapply nth_error_Forall; [exact F|].
      rewrite <- E. rewrite <- (firstn_skipn (i + S (length ps)) l) at 2.
      rewrite nth_error_app1; auto. rewrite firstn_length. apply nth_lt in E. lia. }
    rewrite values_equal_trunc by eauto. cbn [obind].
    destruct (Z.eqb_spec (trunc A x) (trunc A y)) as [E|E].
    + destruct (IH (S i)) as (b & Eb & Hb); auto; try lia.
      { replace (S i + length ps)%nat with (i + S (length ps))%nat by lia. auto. }
      { replace (S i + length ps)%nat with (i + S (length ps))%nat by lia. auto. }
      exists b. split; auto. rewrite Hb. split.
      * intros H j x' y' L Ej Ej'. destruct (Nat.eq_dec j i) as [->|Nj]; [congruence|].
        eapply H; eauto. lia.
      * intros H j x' y' L. apply H. lia.
    + exists false. split; auto. split; [discriminate|]. intros H. exfalso. apply E. eapply H; eauto. lia.
Qed.

(** C87: a configuration is refused iff its whole parts equal those of a recorded configuration *)
Theorem forbidden_is_recognised ps forbiddens c :
  Forall (fun p => p <> FLOAT) ps ->
  Forall fits (firstn (length ps) c) -> (length ps <= length c)%nat ->
  Forall (fun f => Forall fits (firstn (length ps) f) /\ (length ps <= length f)%nat) forbiddens ->
  exists b, is_forbidden A ps forbiddens c = Ok b /\
    (b = true <-> exists f, In f forbiddens /\ same_ints (length ps) c f).
Proof.
  intros N Fc Lc. induction 1 as [|f fs [Ff Lf] _ (b & Eb & Hb)]; cbn [is_forbidden].
  - exists false. split; auto. split; [discriminate|]. intros (f & [] & _).
  - destruct (same_configuration_ok ps c f 0 N Fc Ff Lc Lf) as (e & Ee & He). rewrite Ee. cbn [obind].
    destruct e.
    + exists true. split; auto. split; auto. intros _. exists f. split; [simpl; auto|].
      intros j x y L. apply He; auto. lia.
    + exists b. split; auto. rewrite Hb. split.
      * intros (f' & I & S). exists f'. split; simpl; auto.
      * intros (f' & [<-|I] & S); [|eauto]. exfalso.
        assert (false = true) by (apply He; intros j x y L; apply S; lia). discriminate.
Qed.

(** C87, refuted: a failed configuration is never recorded; the rank that owns the search ignores it,
    the other ranks use an uninitialized pointer (as their destructor does) *)
Theorem forbidden_not_recorded_refuted {S} get evaluate max rank (a : S) :
  set_forbidden A get evaluate max (proxy_init A rank a) =
    (if Nat.eqb rank 0 then Ok (proxy_init A rank a) else UB) /\
  x_forbiddens A S (proxy_init A rank a) = [] /\
  proxy_delete A (proxy_init A rank a) = (if Nat.eqb rank 0 then Ok tt else UB).
Proof.
  unfold set_forbidden, proxy_delete, proxy_init. cbn [x_rank x_alg x_forbiddens].
  destruct (Nat.eqb rank 0); auto.
Qed.

(** C88: the leader of the tournament is the first drawn specimen, or a pointer to a destroyed
    variable; the latter happens exactly if a later drawn specimen is better *)
Theorem leader_is_first_or_dangling d specimens k ks :
  Forall (fun s => length s = Datatypes.S d) specimens ->
  Forall (fun i => (i < length specimens)%nat) (k :: ks) ->
  let value := fun i => nth d (nth i specimens []) (ofZ A 0) in
  ((forall i, In i ks -> lt A (value i) (value k) = false) ->
     produce_leader A d specimens k ks = Ok (Specimen k)) /\
  ((exists i, In i ks /\ lt A (value i) (value k) = true) ->
     produce_leader A d specimens k ks = UB \/ produce_leader A d specimens k ks = Ok Dangling).
Proof.
  intros FS FK value. inversion FK as [|? ? Hk Hks]; subst.
  assert (RD : forall i, (i < length specimens)%nat -> rd specimens i = Ok (nth i specimens []) /\
            rd (nth i specimens []) d = Ok (value i)).
  { intros i L. split; [now apply rd_ok|]. unfold value. apply rd_ok.
    rewrite Forall_forall in FS. rewrite (FS (nth i specimens [])); [lia|]. now apply nth_In. }
  assert (ST : forall i, (i < length specimens)%nat ->
            leader_step A d specimens (Specimen k) i = Ok (if lt A (value i) (value k) then Dangling else Specimen k)).
  { intros i L. unfold leader_step. destruct (RD i L) as [-> E]. cbn [obind]. rewrite E. cbn [obind deref].
    destruct (RD k Hk) as [-> E']. cbn [obind]. rewrite E'. reflexivity. }
  assert (DG : forall is, Forall (fun i => (i < length specimens)%nat) is ->
            foldM (leader_step A d specimens) is Dangling = UB \/
            foldM (leader_step A d specimens) is Dangling = Ok Dangling).
  { intros [|i is] F; cbn [foldM]; auto. left. inversion F; subst. unfold leader_step at 1.
    destruct (RD i) as [-> E]; auto. cbn [obind]. rewrite E. reflexivity. }
  unfold produce_leader. clear FK. induction Hks as [|i ks Hi Hks IH]; cbn [foldM].
  - split; auto. intros (i & [] & _).
  - rewrite ST by auto. cbn [obind]. split.
    + intros H. rewrite (H i) by (simpl; auto). apply IH. intros; apply H; simpl; auto.
    + intros (j & Ij & Lj). destruct (lt A (value i) (value k)) eqn:E; [now apply DG|].
      apply IH. destruct Ij as [<-|Ij]; [congruence|eauto].
Qed.

End C87.

Example forbidden_ex :
  is_forbidden QA [OPTION 3; BOOL] [[1; 0; 7]; [2; 1]]%Q [5#2; 1; 9]%Q = Ok true /\
  is_forbidden QA [OPTION 3; BOOL] [[1; 0; 7]; [2; 1]]%Q [5#2; 0; 9]%Q = Ok false /\
  Forall (fits QA) [5#2; 1; 9]%Q.
Proof.
  split; [reflexivity|]. split; [reflexivity|].
  repeat constructor; unfold int_min, int_max; vm_compute; discriminate.
Qed.

Example leader_ex :
  produce_leader QA 1 [[1; 3]; [1; 5]; [2; 4]]%Q 0 [1; 2; 2; 1]%nat = Ok (Specimen 0) /\
  produce_leader QA 1 [[1; 3]; [1; 5]; [2; 4]]%Q 1 [1; 2; 2; 0]%nat = UB /\
  produce_leader QA 1 [[1; 3]; [1; 5]; [2; 4]]%Q 2 [2; 2; 1; 0]%nat = Ok Dangling.
Proof. repeat split. Qed.

Print Assumptions forbidden_is_recognised.
Print Assumptions forbidden_not_recorded_refuted.
Print Assumptions leader_is_first_or_dangling.
