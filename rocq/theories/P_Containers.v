(** * Properties C13-C18, C63: threaded arrays and records *)
From Coq Require Import ZArith List Bool Arith Lia Permutation.
From Verif Require Import Base S_Order M_Utils M_Packing M_Containers M_Distribute S_Packing S_Containers
  L_Merge L_Utils L_Packing L_Balance L_Balance2 L_Tarray L_Sd L_Distribute.
Import ListNotations.

(** ** C63: contents of the arrays built by the constructors, whatever the order of the threads *)

(** std::align moves the start by less than the alignment, the extra space is enough for it *)
Definition align_contract {A} (esz : nat) (mem : memory A) (alignment : nat) : Prop :=
  shift mem <= (alignment - 1) / esz + 1.

Theorem tarray_from_vector_content : forall A esz (mem : memory A) sched d (data : list A) alignment,
  align_contract esz mem alignment -> distribution_of (length data) d -> parallel_order (length d - 1) sched ->
  exists a, ta_from_vector esz mem sched d data alignment = Ok a /\
    ta_list a = data /\ ta_size a = length data /\ ta_distribution a = d.
Proof. intros. now apply from_vector_ok. Qed.
Theorem tarray_from_parts_content : forall A esz (mem : memory A) sched (data : list (list A)) alignment,
  align_contract esz mem alignment -> data <> [] -> parallel_order (length data) sched ->
  exists a, ta_from_parts esz mem sched data alignment = Ok a /\
    ta_list a = concat data /\ ta_size a = length (concat data) /\
    length (ta_distribution a) = S (length data) /\
    (forall t, t < length data ->
       slice (nth t (ta_distribution a) 0) (nth (t + 1) (ta_distribution a) 0) (ta_list a) = nth t data []).
Proof.
  intros A esz mem sched data alignment H H1 H2.
  destruct (from_parts_ok esz mem sched data alignment H H1 H2) as (a & E & L & S & D).
  exists a. rewrite D, L. repeat split; auto; [apply parts_distribution_length|]. intros t Ht. now apply parts_slice.
Qed.
Theorem tarray_fill_content : forall A esz (mem : memory A) sched d n (init : A) alignment,
  align_contract esz mem alignment -> distribution_of n d -> parallel_order (length d - 1) sched ->
  exists a, ta_fill esz mem sched d n init alignment = Ok a /\
    ta_list a = repeat init n /\ ta_size a = n /\ ta_distribution a = d.
Proof. intros. now apply fill_ok. Qed.
Theorem tarray_duplicate_content : forall A esz (mem : memory A) sched d n k (init : A) alignment,
  align_contract esz mem alignment -> distribution_of n d -> parallel_order (length d - 1) sched ->
  exists a, ta_duplicate esz mem sched d k init alignment = Ok a /\
    ta_list a = repeat init (k * n) /\ ta_size a = k * n /\ ta_distribution a = map (fun x => x * k) d.
Proof.
  intros A esz mem sched d n k init alignment H Hd Hs. pose proof Hd as (H2 & Hm & H0 & Hl).
  unfold ta_duplicate. destruct d as [|d0 rest] eqn:Ed; [simpl in H2; lia|]. rewrite <- Ed in *.
  assert (D0 : d0 = 0) by (subst d; auto).
  assert (E : d0 :: map (fun x => x * k) rest = map (fun x => x * k) d) by (subst d d0; reflexivity).
  rewrite E, Hl.
  assert (N : forall i, nth i (map (fun x => x * k) d) 0 = nth i d 0 * k) by (intros i; exact (map_nth (fun x => x * k) d 0 i)).
  destruct (fill_ok esz mem sched (map (fun x => x * k) d) (k * n) init alignment H) as (a & Ea & L & S & D).
  - unfold distribution_of. rewrite map_length. repeat split; auto.
    + intros i j Hij. rewrite map_length in Hij. rewrite !N.
      apply Nat.mul_le_mono_r. now apply Hm.
    + subst d d0. reflexivity.
    + rewrite last_nth by (subst d; discriminate). rewrite map_length, N. rewrite <- last_nth by (subst d; discriminate). rewrite Hl. lia.
  - now rewrite map_length.
  - exists a. auto.
Qed.
Theorem tarray_copy_content : forall A esz (mem : memory A) sched (o : tarray A),
  align_contract esz mem (ta_alignment o) -> ta_off o + ta_size o <= length (ta_buf o) ->
  distribution_of (ta_size o) (ta_distribution o) -> parallel_order (length (ta_distribution o) - 1) sched ->
  exists a, ta_copy esz mem sched o = Ok a /\
    ta_list a = ta_list o /\ ta_size a = ta_size o /\ ta_distribution a = ta_distribution o.
Proof.
  intros A esz mem sched o H1 H2 H3 H4.
  destruct (copy_ok esz mem sched o) as (a & ? & ? & ? & ? & ?); auto. exists a. auto.
Qed.
Definition ex_mem : memory Z := mkMemory (fun i => Z.of_nat i) 2.
Example tarray_from_vector_ex :
  align_contract 8 ex_mem 64 /\ distribution_of 4 [0; 1; 3; 4] /\ parallel_order 3 [2; 0; 1] /\
  ta_from_vector 8 ex_mem [2; 0; 1] [0; 1; 3; 4] [5; 6; 7; 8]%Z 64 =
  Ok (mkTarray 4 64 [0; 1; 3; 4] [0; 1; 5; 6; 7; 8; 6; 7; 8; 9; 10; 11]%Z 2).
Proof.
  split; [unfold align_contract; simpl; lia|]. split.
  - repeat split; simpl; try lia. intros i j H. simpl in H.
    assert (i = 0 \/ i = 1 \/ i = 2 \/ i = 3) as [->|[->|[->| ->]]] by lia;
    assert (j = 0 \/ j = 1 \/ j = 2 \/ j = 3) as [->|[->|[->| ->]]] by lia; simpl; lia.
  - split; [|reflexivity]. unfold parallel_order. simpl.
    change [2; 0; 1] with ([2] ++ [0; 1]). change [0; 1; 2] with ([0; 1] ++ [2]). apply Permutation_app_comm.
Qed.
Example tarray_from_parts_ex :
  ta_from_parts 8 ex_mem [1; 0; 2] [[5]; []; [6; 7]]%Z 0 = Ok (mkTarray 3 0 [0; 1; 1; 3] [5; 6; 7]%Z 0).
Proof. reflexivity. Qed.
Example tarray_fill_ex :
  ta_fill 8 ex_mem [1; 0] [0; 2; 3] 3 9%Z 0 = Ok (mkTarray 3 0 [0; 2; 3] [9; 9; 9]%Z 0) /\
  ta_duplicate 8 ex_mem [1; 0] [0; 1; 3] 2 9%Z 0 = Ok (mkTarray 6 0 [0; 2; 6] [9; 9; 9; 9; 9; 9]%Z 0).
Proof. split; reflexivity. Qed.
Example tarray_copy_ex :
  ta_copy 8 ex_mem [1; 0] (mkTarray 3 64 [0; 2; 3] [0; 7; 8; 9; 0; 0; 0; 0; 0; 0; 0]%Z 1) =
  Ok (mkTarray 3 64 [0; 2; 3] [0; 1; 7; 8; 9; 5; 6; 7; 8; 9; 10]%Z 2).
Proof. reflexivity. Qed.

(** ** C13 *)

(** [rep] is the object representation of an element, [unrep] reads it back *)
Definition representation {A} (esz : nat) (rep : A -> list Z) (unrep : list Z -> A) (ok : A -> Prop) : Prop :=
  (forall a, ok a -> length (rep a) = esz) /\ (forall a, ok a -> unrep (rep a) = a).
(** an array without alignment, as all constructors build it with alignment 0 *)
Definition plain {A} (a : tarray A) (ok : A -> Prop) : Prop :=
  ta_off a = 0 /\ ta_size a <= length (ta_buf a) /\ Forall ok (ta_list a) /\
  ta_distribution a <> [] /\
  (Z.of_nat (ta_size a) < 2 ^ 64 /\ Z.of_nat (length (ta_distribution a)) < 2 ^ 64)%Z /\
  Forall (fun d => Z.of_nat d < 2 ^ 64)%Z (ta_distribution a).

Lemma plain_list {A} (a : tarray A) : ta_off a = 0 -> ta_list a = firstn (ta_size a) (ta_buf a).
Proof. intros H. unfold ta_list, slice. rewrite H. simpl. now rewrite Nat.sub_0_r. Qed.

Theorem tarray_pack_round_trip : forall A esz rep unrep (ok : A -> Prop) (a : tarray A) buf p,
  representation esz rep unrep ok -> plain a ok -> p + ta_packedSize esz a <= length buf ->
  exists msg, length msg = ta_packedSize esz a /\
    ta_pack rep a (buf, p) =
      Ok (firstn p buf ++ msg ++ skipn (p + ta_packedSize esz a) buf, p + ta_packedSize esz a) /\
    forall mem old before after, ta_alignment old = 0 ->
      exists a', ta_unpack esz unrep mem old (before ++ msg ++ after) (length before) =
          Ok (a', length before + ta_packedSize esz a) /\
        ta_size a' = ta_size a /\ ta_distribution a' = ta_distribution a /\ ta_list a' = ta_list a.
Proof.
  intros A esz rep unrep ok a buf p (R1 & R2) (P0 & P1 & P2 & P3 & (P4 & P5) & P6) H.
  rewrite plain_list in P2 by auto. set (n := ta_packedSize esz a) in *.
  assert (Lm : length (ta_message rep a) = n) by (eapply ta_message_length; eauto).
  exists (ta_message rep a). split; auto. split.
  - assert (Lf : length (firstn p buf) = p) by (rewrite firstn_length; lia).
    assert (E := ta_pack_mid rep a (firstn p buf) (slice p (p + n) buf) (skipn (p + n) buf) P1).
    rewrite slice_length in E by lia. specialize (E ltac:(lia)). rewrite app_length, Lm in E. rewrite Lf in E. rewrite <- E.
    do 2 f_equal. apply split_slice. lia.
  - intros mem old before after Ho.
    destruct (ta_unpack_mid esz rep unrep ok R1 R2 mem a old before after) as (a' & E & S & D & _ & C); auto.
    exists a'. rewrite E, app_length, Lm. repeat split; auto.
    destruct C as [C|(C1 & C2)].
    + unfold ta_list. rewrite S, C, !Nat.add_0_r, !slice_nil. auto.
    + rewrite !plain_list by auto. rewrite S, C2. apply firstn_all2. rewrite firstn_length. lia.
Qed.

Lemma le_representation k : representation k (fun v => le_bytes k v) of_le (fun v => 0 <= v < 256 ^ Z.of_nat k)%Z.
Proof. split; intros; [apply le_bytes_length|now apply of_le_bytes]. Qed.
Definition ex_tarray : tarray Z := mkTarray 3 0 [0; 2; 3] [300; 5; 70000]%Z 0.
Example tarray_pack_ex :
  plain ex_tarray (fun v => 0 <= v < 256 ^ 4)%Z /\ ta_packedSize 4 ex_tarray = 8 + 24 + 8 + 12 /\
  (x <- ta_pack (le_bytes 4) ex_tarray (repeat 7%Z 60, 3) ;;
   ta_unpack 4 of_le ex_mem (mkTarray 1 0 [0; 1] [9]%Z 0) (fst x) 3)%out =
  Ok (ex_tarray, 55).
Proof. split; [|split; vm_compute; reflexivity]. unfold plain. simpl. repeat (split; try lia; try discriminate); repeat constructor; lia. Qed.

(** the message of an aligned array is copied from the beginning of the allocation, not from the data *)
Theorem tarray_pack_aligned_refuted :
  exists (mem : memory Z) (a a' : tarray Z) buf p p',
    align_contract 4 mem 64 /\
    ta_from_vector 4 mem [0] [0; 2] [11; 22]%Z 64 = Ok a /\
    ta_pack (le_bytes 4) a (repeat 0%Z 100, 0) = Ok (buf, p) /\
    ta_unpack 4 of_le mem ta_empty buf 0 = Ok (a', p') /\
    ta_list a = [11; 22]%Z /\ ta_list a' = [0; 1]%Z.
Proof.
  exists ex_mem. do 5 eexists. split; [unfold align_contract; simpl; lia|].
  split; [vm_compute; reflexivity|]. split; [vm_compute; reflexivity|]. split; [vm_compute; reflexivity|].
  split; reflexivity.
Qed.

(** ** C14 *)
Lemma unrep_rep_int iz v : 0 < iz -> (- (256 ^ Z.of_nat iz / 2) <= v < 256 ^ Z.of_nat iz / 2)%Z -> unrep_int iz (rep_int iz v) = v.
Proof.
  intros Hi H. unfold unrep_int, rep_int.
  assert (P : (256 ^ Z.of_nat iz = 2 * (256 ^ Z.of_nat iz / 2))%Z).
  { replace (Z.of_nat iz) with (Z.succ (Z.of_nat (iz - 1))) by lia. rewrite Z.pow_succ_r by lia.
    replace (256 * 256 ^ Z.of_nat (iz - 1))%Z with ((128 * 256 ^ Z.of_nat (iz - 1)) * 2)%Z by lia. rewrite Z.div_mul by lia. lia. }
  set (M := (256 ^ Z.of_nat iz)%Z) in *. set (h := (M / 2)%Z) in *.
  assert (0 < M)%Z by (apply Z.pow_pos_nonneg; lia).
  rewrite of_le_bytes by (apply Z.mod_pos_bound; auto).
  destruct (Z.lt_ge_cases v 0).
  - rewrite <- (Z.mod_add v 1 M) by lia. rewrite Z.mod_small by lia. destruct (Z.ltb_spec (v + 1 * M) h); lia.
  - rewrite Z.mod_small by lia. destruct (Z.ltb_spec v h); lia.
Qed.
Definition int_range (iz : nat) (v : Z) : Prop := (- (256 ^ Z.of_nat iz / 2) <= v < 256 ^ Z.of_nat iz / 2)%Z.
Lemma int_representation iz : 0 < iz -> representation iz (rep_int iz) (unrep_int iz) (int_range iz).
Proof. intros H. split; intros; [apply le_bytes_length|now apply unrep_rep_int]. Qed.

(** a container produced by one of the constructors from arrays without alignment *)
Definition constructed {A} (iz : nat) (s : sd A) : Prop :=
  int_range iz (sd_edatasize s) /\
  (sd_edatasize s = (-1)%Z /\ sd_nonuniform (sd_eb s) (sd_ed s) = Ok s \/
   (0 < sd_edatasize s)%Z /\ sd_uniform (sd_edatasize s) (sd_ed s) = Ok s).

Lemma inititerators_same {A} (eb eb' : tarray Z) (ed ed' : tarray A) :
  ta_list eb' = ta_list eb -> ta_distribution eb' = ta_distribution eb -> ta_distribution ed' = ta_distribution ed ->
  inititerators eb' ed' = inititerators eb ed.
Proof. intros H1 H2 H3. unfold inititerators, ta_threads. now rewrite H1, H2, H3. Qed.
Lemma inititerators_uniform_same {A} es (ed ed' : tarray A) :
  ta_distribution ed' = ta_distribution ed -> inititerators_uniform es ed' = inititerators_uniform es ed.
Proof. intros H3. unfold inititerators_uniform, ta_threads. now rewrite H3. Qed.

(** [unpack] of a packed container is a container with the same layout in which every loop over every
    thread visits the same records *)
Definition same_records {A} (s s' : sd A) : Prop :=
  sd_edatasize s' = sd_edatasize s /\
  ta_distribution (sd_eb s') = ta_distribution (sd_eb s) /\ ta_distribution (sd_ed s') = ta_distribution (sd_ed s) /\
  ta_list (sd_eb s') = ta_list (sd_eb s) /\ ta_list (sd_ed s') = ta_list (sd_ed s) /\
  forall fuel t, sd_iterate fuel s' t = sd_iterate fuel s t.

Definition sd_image {A} iz (rep : A -> list Z) (s : sd A) : list Z :=
  rep_int iz (sd_edatasize s) ++ ta_message (rep_int iz) (sd_eb s) ++ ta_message rep (sd_ed s).

Lemma sd_pack_mid A iz esz rep unrep (ok : A -> Prop) (s : sd A) pre mid post :
  0 < iz -> representation esz rep unrep ok -> plain (sd_eb s) (int_range iz) -> plain (sd_ed s) ok ->
  length mid = sd_packedSize iz esz s ->
  length (sd_image iz rep s) = sd_packedSize iz esz s /\
  sd_pack iz rep s (pre ++ mid ++ post, length pre) = Ok (pre ++ sd_image iz rep s ++ post, length (pre ++ sd_image iz rep s)).
Proof.
  intros Hz (R1 & R2) (E0 & E1 & E2 & E3 & (E4 & E5) & E6) (P0 & P1 & P2 & P3 & (P4 & P5) & P6) Lmid.
  destruct (int_representation iz Hz) as (I1 & I2).
  rewrite plain_list in E2 by auto. rewrite plain_list in P2 by auto.
  assert (L1 : length (rep_int iz (sd_edatasize s)) = iz) by apply le_bytes_length.
  assert (L2 : length (ta_message (rep_int iz) (sd_eb s)) = ta_packedSize iz (sd_eb s)) by (eapply ta_message_length; eauto).
  assert (L3 : length (ta_message rep (sd_ed s)) = ta_packedSize esz (sd_ed s)) by (eapply ta_message_length; eauto).
  assert (LI : length (sd_image iz rep s) = sd_packedSize iz esz s) by (unfold sd_image, sd_packedSize; rewrite !app_length; lia).
  split; auto.
  unfold sd_pack. rewrite store_head by (unfold sd_packedSize in Lmid; lia). cbn [obind].
  set (r1 := skipn _ mid). assert (Lr1 : length r1 = ta_packedSize iz (sd_eb s) + ta_packedSize esz (sd_ed s)).
  { unfold r1. rewrite skipn_length. unfold sd_packedSize in Lmid. lia. }
  rewrite <- (firstn_skipn (ta_packedSize iz (sd_eb s)) r1), <- (app_assoc (firstn _ r1)).
  rewrite ta_pack_mid by (auto; rewrite firstn_length; lia). cbn [obind].
  rewrite (app_assoc (pre ++ _)). rewrite ta_pack_mid by (auto; rewrite skipn_length; lia).
  unfold sd_image. now rewrite <- !app_assoc.
Qed.

Lemma sd_unpack_mid A iz esz rep unrep (ok : A -> Prop) (s : sd A) memb memd old before after :
  0 < iz -> representation esz rep unrep ok -> plain (sd_eb s) (int_range iz) -> plain (sd_ed s) ok ->
  constructed iz s -> ta_alignment (sd_eb old) = 0 -> ta_alignment (sd_ed old) = 0 ->
  exists s', sd_unpack iz esz unrep memb memd old (before ++ sd_image iz rep s ++ after) (length before) =
      Ok (s', length (before ++ sd_image iz rep s)) /\ same_records s s'.
Proof.
  intros Hz (R1 & R2) (E0 & E1 & E2 & E3 & (E4 & E5) & E6) (P0 & P1 & P2 & P3 & (P4 & P5) & P6) (C0 & C) O1 O2.
  destruct (int_representation iz Hz) as (I1 & I2).
  rewrite plain_list in E2 by auto. rewrite plain_list in P2 by auto.
  assert (L1 : length (rep_int iz (sd_edatasize s)) = iz) by apply le_bytes_length.
  unfold sd_unpack, sd_image. rewrite <- !app_assoc. rewrite load_mid by auto. cbn [obind].
  rewrite I2 by auto. rewrite (app_assoc before).
  destruct (ta_unpack_mid iz (rep_int iz) (unrep_int iz) (int_range iz) I1 I2 memb (sd_eb s) (sd_eb old)
     (before ++ rep_int iz (sd_edatasize s)) (ta_message rep (sd_ed s) ++ after)) as (eb & Eb & Sb & Db & _ & Cb); auto.
  rewrite Eb. cbn [obind]. rewrite (app_assoc (before ++ _)).
  destruct (ta_unpack_mid esz rep unrep ok R1 R2 memd (sd_ed s) (sd_ed old)
     ((before ++ rep_int iz (sd_edatasize s)) ++ ta_message (rep_int iz) (sd_eb s)) after) as (ed & Ed & Sd & Dd & _ & Cd); auto.
  rewrite Ed. cbn [obind].
  assert (Lb : ta_list eb = ta_list (sd_eb s)).
  { destruct Cb as [Cb|(Q1 & Q2)]; [unfold ta_list; rewrite Sb, Cb, !Nat.add_0_r, !slice_nil; auto|].
    rewrite !plain_list by auto. rewrite Sb, Q2. apply firstn_all2. rewrite firstn_length. lia. }
  assert (Ld : ta_list ed = ta_list (sd_ed s)).
  { destruct Cd as [Cd|(Q1 & Q2)]; [unfold ta_list; rewrite Sd, Cd, !Nat.add_0_r, !slice_nil; auto|].
    rewrite !plain_list by auto. rewrite Sd, Q2. apply firstn_all2. rewrite firstn_length. lia. }
  assert (Ei : (if (sd_edatasize s =? -1)%Z then inititerators eb ed else inititerators_uniform (sd_edatasize s) ed) = Ok (sd_iter s)).
  { destruct C as [(Ce & Cs)|(Ce & Cs)].
    - rewrite Ce. rewrite Z.eqb_refl. rewrite (inititerators_same (sd_eb s) eb (sd_ed s) ed) by auto.
      unfold sd_nonuniform in Cs. destruct (inititerators (sd_eb s) (sd_ed s)); cbn [obind] in Cs; try discriminate.
      inversion Cs as [Q]. rewrite <- Q. reflexivity.
    - rewrite (proj2 (Z.eqb_neq _ _)) by lia. rewrite (inititerators_uniform_same _ (sd_ed s) ed) by auto.
      unfold sd_uniform in Cs. destruct (inititerators_uniform (sd_edatasize s) (sd_ed s)); cbn [obind] in Cs; try discriminate.
      inversion Cs as [Q]. rewrite <- Q. reflexivity. }
  rewrite Ei. cbn [obind]. eexists. split; [rewrite <- !app_assoc; reflexivity|].
  unfold same_records. cbn [sd_edatasize sd_eb sd_ed]. repeat split; auto.
  intros fuel t. unfold sd_iterate. cbn [sd_iter sd_eb sd_ed]. now rewrite Lb, Ld.
Qed.

Theorem serializededata_pack_round_trip : forall A iz esz rep unrep (ok : A -> Prop) (s : sd A) buf p,
  0 < iz -> representation esz rep unrep ok -> plain (sd_eb s) (int_range iz) -> plain (sd_ed s) ok ->
  constructed iz s -> p + sd_packedSize iz esz s <= length buf ->
  exists msg, length msg = sd_packedSize iz esz s /\
    sd_pack iz rep s (buf, p) =
      Ok (firstn p buf ++ msg ++ skipn (p + sd_packedSize iz esz s) buf, p + sd_packedSize iz esz s) /\
    forall memb memd old before after, ta_alignment (sd_eb old) = 0 -> ta_alignment (sd_ed old) = 0 ->
      exists s', sd_unpack iz esz unrep memb memd old (before ++ msg ++ after) (length before) =
          Ok (s', length before + sd_packedSize iz esz s) /\ same_records s s'.
Proof.
  intros A iz esz rep unrep ok s buf p Hz R Pe Pd C H. set (n := sd_packedSize iz esz s) in *.
  destruct (sd_pack_mid A iz esz rep unrep ok s (firstn p buf) (slice p (p + n) buf) (skipn (p + n) buf)) as (LI & E); auto.
  { rewrite slice_length; lia. }
  exists (sd_image iz rep s). split; auto. split.
  - assert (Lf : length (firstn p buf) = p) by (rewrite firstn_length; lia).
    rewrite app_length, LI, Lf in E. fold n in E. rewrite <- E. do 2 f_equal. apply split_slice. lia.
  - intros memb memd old before after O1 O2.
    destruct (sd_unpack_mid A iz esz rep unrep ok s memb memd old before after) as (s' & E' & SR); auto.
    exists s'. rewrite E', app_length, LI. auto.
Qed.

(** pointers: a null pointer is one zero byte and is read back as null *)
Theorem serializededata_pointer_round_trip : forall A iz esz rep unrep (ok : A -> Prop) (s : option (sd A)) buf p,
  0 < iz -> representation esz rep unrep ok ->
  (forall x, s = Some x -> plain (sd_eb x) (int_range iz) /\ plain (sd_ed x) ok /\ constructed iz x) ->
  p + ptr_packedSize iz esz s <= length buf ->
  exists msg, length msg = ptr_packedSize iz esz s /\
    ptr_pack iz rep s (buf, p) =
      Ok (firstn p buf ++ msg ++ skipn (p + ptr_packedSize iz esz s) buf, p + ptr_packedSize iz esz s) /\
    forall memb memd old before after,
      exists s', ptr_unpack iz esz unrep memb memd old (before ++ msg ++ after) (length before) =
          Ok (s', length before + ptr_packedSize iz esz s) /\
        match s, s' with
        | None, None => True
        | Some x, Some x' => same_records x x'
        | _, _ => False
        end.
Proof.
  intros A iz esz rep unrep ok s buf p Hz R Hs H. set (n := ptr_packedSize iz esz s) in *.
  assert (Lf : length (firstn p buf) = p) by (rewrite firstn_length; lia).
  assert (Eb : buf = firstn p buf ++ slice p (p + n) buf ++ skipn (p + n) buf) by (apply split_slice; lia).
  assert (EP : (buf, p) = (firstn p buf ++ slice p (p + n) buf ++ skipn (p + n) buf, length (firstn p buf))) by (rewrite Lf, <- Eb; reflexivity).
  destruct s as [x|].
  - destruct (Hs x eq_refl) as (Pe & Pd & C). cbn [ptr_packedSize] in n. 
    set (mid := slice p (p + n) buf) in *. assert (Lm : length mid = n) by (unfold mid; rewrite slice_length; lia).
    destruct (sd_pack_mid A iz esz rep unrep ok x (firstn p buf ++ [1%Z]) (skipn 1 mid) (skipn (p + n) buf)) as (LI & E); auto.
    { rewrite skipn_length. unfold n in *. lia. }
    exists (1%Z :: sd_image iz rep x). split; [simpl; unfold n; lia|]. split.
    + cbn [ptr_pack]. rewrite EP. rewrite store_head by (cbn [length]; unfold n in *; lia). cbn [obind length].
      rewrite E. rewrite <- !app_assoc. cbn [app]. rewrite !app_length. cbn [length]. rewrite LI, Lf. do 2 f_equal; unfold n; lia.
    + intros memb memd old before after. cbn [ptr_unpack]. unfold ptr_unpack. cbn [app].
      change (before ++ 1%Z :: sd_image iz rep x ++ after) with (before ++ [1%Z] ++ sd_image iz rep x ++ after).
      rewrite load_mid by reflexivity. cbn [obind]. cbn [of_le]. change (1 + 256 * 0 =? 0)%Z with false. cbn [negb].
      rewrite (app_assoc before).
      destruct (sd_unpack_mid A iz esz rep unrep ok x memb memd (mkSd ta_empty ta_empty (-1)%Z []) (before ++ [1%Z]) after) as (s' & E' & SR); auto.
      rewrite E'. cbn [obind]. exists (Some s'). split; [|exact SR]. rewrite !app_length, LI. cbn [length]. do 2 f_equal; unfold n; lia.
  - exists [0%Z]. cbn [ptr_packedSize] in n. split; [reflexivity|]. split.
    + cbn [ptr_pack]. rewrite EP. rewrite store_mid by (rewrite slice_length; simpl; unfold n; lia).
      rewrite app_length, Lf. reflexivity.
    + intros. exists None. split; [|exact I]. unfold ptr_unpack. rewrite load_mid by reflexivity. cbn [obind of_le].
      change (0 + 256 * 0 =? 0)%Z with true. cbn. rewrite app_length. reflexivity.
Qed.

Definition ex_records : list (list Z) := [[1; 2]; []; [3]; [4; 5; 6]]%Z.
Definition ex_eb : tarray Z := mkTarray 5 0 [0; 2; 4; 5] (boundaries ex_records) 0.
Definition ex_ed : tarray Z := mkTarray 6 0 [0; 2; 3; 6] [1; 2; 3; 4; 5; 6]%Z 0.
Definition ex_sd : sd Z :=
  match sd_nonuniform ex_eb ex_ed with Ok s => s | _ => mkSd ta_empty ta_empty 0%Z [] end.
Definition ex_usd : sd Z :=
  match sd_uniform 2 (mkTarray 6 0 [0; 2; 6] [1; 2; 3; 4; 5; 6]%Z 0) with Ok s => s | _ => mkSd ta_empty ta_empty 0%Z [] end.
Example serializededata_pack_ex :
  plain (sd_eb ex_sd) (int_range 4) /\ plain (sd_ed ex_sd) (fun v => 0 <= v < 256 ^ 4)%Z /\ constructed 4 ex_sd /\
  plain (sd_eb ex_usd) (int_range 4) /\ constructed 4 ex_usd /\
  (x <- sd_pack 4 (le_bytes 4) ex_sd (repeat 7%Z 200, 3) ;;
   sd_unpack 4 4 of_le ex_mem ex_mem ex_usd (fst x) 3)%out =
  Ok (mkSd ex_eb ex_ed (-1) (sd_iter ex_sd), 3 + sd_packedSize 4 4 ex_sd).
Proof.
  split; [|split; [|split; [|split; [|split]]]].
  1,2,4: unfold plain, int_range; simpl; repeat (split; try lia; try discriminate); repeat constructor; try lia; simpl; try lia; try (vm_compute; congruence).
  - split; [unfold int_range; vm_compute; split; congruence|]. left. split; reflexivity.
  - split; [unfold int_range; vm_compute; split; congruence|]. right. split; [simpl; lia|reflexivity].
  - vm_compute. reflexivity.
Qed.

(** moving a container of fixed-size records initialises the iterators from the (empty) boundaries *)
Theorem serializededata_move_uniform_refuted :
  exists s : sd Z, constructed 4 s /\ sd_edatasize s = 2%Z /\ sd_iterate 10 s 0 = Ok [[1; 2]]%Z /\ sd_move s = UB.
Proof.
  exists ex_usd. split; [|split; [|split]]; try (vm_compute; reflexivity).
  split; [unfold int_range; vm_compute; split; congruence|]. right. split; [simpl; lia|reflexivity].
Qed.

(** ** C15 *)
Local Open Scope Z_scope.
Theorem distribute_balanced : forall (threads : nat) (size : Z),
  (0 < threads)%nat -> Z.of_nat threads < 2 ^ 31 -> 0 <= size < 2 ^ 53 ->
  exists d, distribute (Unsigned 64) threads size 0 = Ok d /\ length d = (threads + 1)%nat /\
    nth 0 d 0 = 0 /\ nth threads d 0 = size /\
    forall t, (t < threads)%nat ->
      nth t d 0 <= nth (t + 1) d 0 /\
      (nth (t + 1) d 0 - nth t d 0 - 1) * Z.of_nat threads < size.
Proof.
  intros threads size Ht Ht31 Hs.
  set (c := - ((- size) / Z.of_nat threads)).
  assert (Hc : 0 <= c /\ (c - 1) * Z.of_nat threads < size <= c * Z.of_nat threads).
  { unfold c. pose proof (Z.div_mod (- size) (Z.of_nat threads) ltac:(lia)). pose proof (Z.mod_pos_bound (- size) (Z.of_nat threads) ltac:(lia)). nia. }
  destruct (distribute_ok (Unsigned 64) threads size 0) as (d & E & L & D & Dl); auto; try lia.
  { simpl. assert (2 ^ 53 < 2 ^ 64) by reflexivity. lia. }
  { fold c. rewrite Z.max_l by lia. simpl. split; [nia|]. assert (2 ^ 53 + 2 ^ 31 < 2 ^ 64) by reflexivity. nia. }
  fold c in D. rewrite Z.max_l in D by lia.
  exists d. split; auto. split; auto. split; [rewrite D by lia; lia|]. split; auto.
  intros t Hlt. rewrite (D t) by lia.
  assert (Q : nth (t + 1) d 0 = Z.min (Z.of_nat (t + 1) * c) size).
  { destruct (Nat.eq_dec (t + 1) threads) as [Et|]; [|apply D; lia]. rewrite Et, Dl. nia. }
  rewrite Q. split; [nia|]. destruct (Z.min_spec (Z.of_nat (t + 1) * c) size); destruct (Z.min_spec (Z.of_nat t * c) size); nia.
Qed.
(** the general form, for all integer types and with a minimal chunk, when the multiplication does not overflow *)
Theorem distribute_minchunk : forall ty (threads : nat) (size minchunk : Z),
  (0 < threads)%nat -> 0 <= size < 2 ^ 53 -> 0 <= minchunk -> representable ty size ->
  let chunk := Z.max (- ((- size) / Z.of_nat threads)) minchunk in
  representable ty ((Z.of_nat threads - 1) * chunk) ->
  exists d, distribute ty threads size minchunk = Ok d /\ length d = (threads + 1)%nat /\
    (forall t, (t < threads)%nat -> nth t d 0 = Z.min (Z.of_nat t * chunk) size) /\ nth threads d 0 = size.
Proof. exact distribute_ok. Qed.
Example distribute_ex : distribute (Unsigned 64) 4 10 0 = Ok [0; 3; 6; 9; 10] /\ distribute (Unsigned 64) 4 2 0 = Ok [0; 1; 2; 2; 2] /\
  distribute (Signed 32) 3 10 5 = Ok [0; 5; 10; 10] /\ distribute (Unsigned 64) 3 0 0 = Ok [0; 0; 0; 0].
Proof. repeat split; vm_compute; reflexivity. Qed.
Example distribute_minchunk_ex : representable (Signed 32) 10 /\ representable (Signed 32) ((3 - 1) * Z.max (- ((- 10) / 3)) 5).
Proof. split; vm_compute; split; congruence. Qed.
(** with 32-bit indices and very many parts the product of the last part overflows *)
Lemma distribute_loop_fits ty chunk size l : forall d d', foldM (distribute_step ty chunk size) l d = Ok d' ->
  forall t, In t l -> exists v, fit ty (Z.of_nat t * chunk) = Ok v.
Proof.
  induction l as [|a l IH]; intros d d' H t Hin; [destruct Hin|]. cbn [foldM] in H.
  destruct (distribute_step ty chunk size d a) as [d1| |] eqn:E; cbn [obind] in H; try discriminate.
  destruct Hin as [->|Hin]; [|eapply IH; eauto].
  unfold distribute_step in E. destruct (fit ty (Z.of_nat t * chunk)) as [v| |]; cbn [obind] in E; try discriminate. eauto.
Qed.
Lemma distribute_signed_overflow (threads : nat) : Z.of_nat threads = 200000 ->
  forall d, distribute (Signed 32) threads (2 ^ 31 - 1) 0 <> Ok d.
Proof.
  intros HT d H. unfold distribute in H.
  destruct (Nat.eqb_spec threads 0); [lia|]. rewrite HT in H.
  replace (of_float (Signed 32) (fceil (fdiv (of_int (2 ^ 31 - 1)) 200000))) with (Ok 10738) in H by (vm_compute; reflexivity).
  cbn [obind] in H. change (Z.max 10738 0) with 10738 in H.
  destruct (foldM _ _ _) as [d1| |] eqn:E in H; cbn [obind] in H; try discriminate.
  apply distribute_loop_fits with (t := (threads - 1)%nat) in E.
  - destruct E as (v & E). replace (Z.of_nat (threads - 1)) with 199999 in E by lia. vm_compute in E. discriminate.
  - apply in_seq. lia.
Qed.
Theorem distribute_signed_overflow_refuted :
  exists threads, (0 < threads)%nat /\ forall d, distribute (Signed 32) threads (2 ^ 31 - 1) 0 <> Ok d.
Proof.
  assert (H : exists n, Z.of_nat n = 200000) by (exists (Z.to_nat 200000); apply Z2Nat.id; discriminate).
  destruct H as (n & H). exists n. split; [lia|]. now apply distribute_signed_overflow.
Qed.
Local Close Scope Z_scope.

(** ** C16 *)
Theorem balance_fixed_keeps_records : forall A (esize : nat) (dist : list nat) (data : list (list A)),
  length dist = length data + 1 -> mono_list dist ->
  length (concat data) = esize * (last dist 0 - hd 0 dist) ->
  exists data', balance_fixed esize data dist = Ok data' /\
    length data' = length data /\ concat data' = concat data /\
    (forall t, t < length data -> length (nth t data' []) = esize * (nth (t + 1) dist 0 - nth t dist 0)).
Proof. intros A esize dist data. apply balance_fixed_ok. Qed.
(** records of various sizes; [parts[t]] are the records of thread [t] *)
Theorem balance_various_keeps_records : forall A (dist : list nat) (parts : list (list (list A))),
  length dist = length parts + 1 -> parts <> [] -> mono_list dist ->
  length (concat parts) = last dist 0 - hd 0 dist ->
  (forall t, 0 < t < length parts -> nth t dist 0 = nth (t + 1) dist 0 -> nth (t + 1) dist 0 = last dist 0) ->
  exists parts', balance_various (thread_boundaries parts) (map (@concat A) parts) dist =
      Ok (thread_boundaries parts', map (@concat A) parts') /\
    length parts' = length parts /\ concat parts' = concat parts /\
    (forall t, t < length parts -> length (nth t parts' []) = nth (t + 1) dist 0 - nth t dist 0).
Proof. intros A dist parts. apply balance_various_ok. Qed.
Example balance_fixed_ex :
  balance_fixed 2 [[]; [1; 2; 3; 4; 5; 6]; []; [7; 8]]%Z [0; 2; 2; 3; 4] = Ok [[1; 2; 3; 4]; []; [5; 6]; [7; 8]]%Z.
Proof. vm_compute. reflexivity. Qed.
Definition ex_parts : list (list (list Z)) := [[[1; 2]]; [[]; [3]; [4; 5; 6]]; [[7]]]%Z.
Example balance_various_ex :
  balance_various (thread_boundaries ex_parts) (map (@concat Z) ex_parts) [0; 2; 4; 5] =
  Ok (thread_boundaries [[[1; 2]; []]; [[3]; [4; 5; 6]]; [[7]]]%Z, [[1; 2]; [3; 4; 5; 6]; [7]]%Z).
Proof. vm_compute. reflexivity. Qed.
(** a thread in the middle that should become empty: the element before the first one is read *)
Theorem balance_various_empty_target_refuted :
  exists (parts : list (list (list Z))) dist,
    length dist = length parts + 1 /\ mono_list dist /\ length (concat parts) = last dist 0 - hd 0 dist /\
    balance_various (thread_boundaries parts) (map (@concat Z) parts) dist = UB.
Proof.
  exists [[[1]]; [[2]]; []]%Z, [0; 1; 1; 2]. repeat split; try (vm_compute; reflexivity).
  intros i j H. simpl in H.
  assert (i = 0 \/ i = 1 \/ i = 2 \/ i = 3) as [->|[->|[->| ->]]] by lia;
  assert (j = 0 \/ j = 1 \/ j = 2 \/ j = 3) as [->|[->|[->| ->]]] by lia; simpl; lia.
Qed.
(** records of more than one element without a given distribution: the target counts elements, not records *)
Theorem balance_default_distribution_refuted :
  exists (data : list (list Z)), length (concat data) = 2 * 2 /\
    balance_fixed 2 data [0; 2; 4] = UB.
Proof. exists [[1; 2]; [3; 4]]%Z. split; vm_compute; reflexivity. Qed.

(** ** C17 *)
Theorem iteration_variable : forall A (eb : tarray Z) (ed : tarray A) (records : list (list A)),
  holds_variable eb ed records ->
  exists s, sd_nonuniform eb ed = Ok s /\
    visits s (split_by (record_distribution (ta_distribution eb)) records) /\
    concat (split_by (record_distribution (ta_distribution eb)) records) = records.
Proof.
  intros A eb ed records H. destruct (holds_variable_visits eb ed records H) as (its & E & V).
  unfold sd_nonuniform. rewrite E. cbn [obind]. eexists. split; [reflexivity|]. split; [apply V|].
  destruct H as (_ & _ & _ & _ & D & _).
  rewrite (split_by_concat _ _ _ (record_distribution_ok _ _ D)). apply firstn_all.
Qed.
Theorem iteration_uniform : forall A (es : nat) (ed : tarray A) (d : list nat) (records : list (list A)),
  holds_uniform es ed d records ->
  exists s, sd_uniform (Z.of_nat es) ed = Ok s /\
    visits s (split_by d records) /\ concat (split_by d records) = records.
Proof.
  intros A es ed d records H. destruct (holds_uniform_visits es ed d records H) as (its & E & V).
  unfold sd_uniform. rewrite E. cbn [obind]. eexists. split; [reflexivity|]. split; [apply V|].
  destruct H as (_ & _ & _ & D & _). rewrite (split_by_concat _ _ _ D). apply firstn_all.
Qed.
Lemma mono_small (d : list nat) : (forallb (fun i => nth i d 0 <=? nth (S i) d 0) (seq 0 (length d - 1)) = true) -> mono_list d.
Proof.
  intros H i j Hij. destruct Hij as (Hij & Hj). induction Hij; [lia|].
  rewrite forallb_forall in H. assert (Q := H m ltac:(apply in_seq; lia)). apply Nat.leb_le in Q.
  specialize (IHHij ltac:(lia)). lia.
Qed.
Example iteration_variable_ex :
  holds_variable ex_eb ex_ed ex_records /\
  split_by (record_distribution (ta_distribution ex_eb)) ex_records = [[[1; 2]]; [[]; [3]]; [[4; 5; 6]]]%Z /\
  map (sd_iterate 10 ex_sd) [0; 1; 2] = [Ok [[1; 2]]; Ok [[]; [3]]; Ok [[4; 5; 6]]]%Z.
Proof.
  split; [|split; vm_compute; reflexivity].
  unfold holds_variable. repeat split; simpl; try lia. apply mono_small. reflexivity.
Qed.
Example iteration_uniform_ex :
  holds_uniform 2 (mkTarray 6 0 [0; 2; 6] [1; 2; 3; 4; 5; 6]%Z 0) [0; 1; 3] [[1; 2]; [3; 4]; [5; 6]]%Z /\
  map (sd_iterate 10 ex_usd) [0; 1] = [Ok [[1; 2]]; Ok [[3; 4]; [5; 6]]]%Z.
Proof.
  split; [|vm_compute; reflexivity].
  unfold holds_uniform. repeat split; simpl; try lia. - repeat constructor. - apply mono_small. reflexivity.
Qed.
(** the first thread must hold the first boundary *)
Theorem iteration_empty_first_thread_refuted :
  sd_nonuniform (mkTarray 3 0 [0; 0; 3] (boundaries [[1]; [2]]%Z) 0) (mkTarray 2 0 [0; 0; 2] [1; 2]%Z 0) = UB.
Proof. vm_compute. reflexivity. Qed.

(** ** C18 *)
Theorem permute_variable : forall A esz memb memd schedb schedd (s : sd A) records permutation d n,
  align_contract 8 memb 0 -> align_contract esz memd 0 ->
  holds_variable (sd_eb s) (sd_ed s) records -> valid_indices records permutation ->
  distribution_of n d -> n <= length records -> n <= length permutation ->
  parallel_order (length d - 1) schedb -> parallel_order (length d - 1) schedd ->
  exists s', sd_permute esz memb memd schedb schedd s permutation d = Ok s' /\
    holds_variable (sd_eb s') (sd_ed s') (firstn n (selected records permutation)) /\
    visits s' (split_by d (selected records permutation)).
Proof.
  intros A esz memb memd schedb schedd s records permutation d n G1 G2 H. intros.
  unfold sd_permute. replace (ta_size (sd_eb s) =? 0) with false.
  - now apply permuteNonUniform_ok.
  - destruct H as (_ & _ & H & _). rewrite H. reflexivity.
Qed.
Theorem permute_variable_boundary_distribution : forall A esz memb memd schedb schedd (s : sd A) records permutation d n,
  align_contract 8 memb 0 -> align_contract esz memd 0 ->
  holds_variable (sd_eb s) (sd_ed s) records -> valid_indices records permutation ->
  distribution_of (S n) d -> 1 <= nth 1 d 0 -> length records <= n -> n <= length permutation ->
  parallel_order (length d - 1) schedb -> parallel_order (length d - 1) schedd ->
  exists s', sd_permute esz memb memd schedb schedd s permutation d = Ok s' /\
    holds_variable (sd_eb s') (sd_ed s') (firstn n (selected records permutation)) /\
    visits s' (split_by (record_distribution d) (selected records permutation)).
Proof.
  intros A esz memb memd schedb schedd s records permutation d n G1 G2 H. intros.
  unfold sd_permute. replace (ta_size (sd_eb s) =? 0) with false.
  - now apply permuteNonUniform_boundary_ok.
  - destruct H as (_ & _ & H & _). rewrite H. reflexivity.
Qed.
Theorem permute_uniform : forall A esz memb memd schedb schedd (s : sd A) es d0 records permutation d n,
  align_contract esz memd 0 -> sd_eb s = ta_empty -> sd_edatasize s = Z.of_nat es ->
  holds_uniform es (sd_ed s) d0 records -> valid_indices records permutation ->
  distribution_of n d -> n <= length permutation -> parallel_order (length d - 1) schedd ->
  exists s', sd_permute esz memb memd schedb schedd s permutation d = Ok s' /\
    sd_eb s' = ta_empty /\ sd_edatasize s' = Z.of_nat es /\
    holds_uniform es (sd_ed s') d (firstn n (selected records permutation)) /\
    visits s' (split_by d (selected records permutation)).
Proof.
  intros A esz memb memd schedb schedd s es d0 records permutation d n G E. intros.
  unfold sd_permute. rewrite E. cbn [ta_empty ta_size Nat.eqb]. eapply permuteUniform_ok; eauto.
Qed.
Definition permuted {A} (r : outcome (sd A)) (threads : list nat) : outcome (list (list (list A))) :=
  (s <- r ;; map_out (sd_iterate 100 s) threads)%out.
Example permute_ex :
  valid_indices ex_records [3; 1; 0; 2]%Z /\ distribution_of 4 [0; 1; 4] /\ distribution_of 5 [0; 2; 5] /\
  permuted (sd_permute 8 ex_mem ex_mem [1; 0] [0; 1] ex_sd [3; 1; 0; 2]%Z [0; 1; 4]) [0; 1] =
    Ok [[[4; 5; 6]]; [[]; [1; 2]; [3]]]%Z /\
  permuted (sd_permute 8 ex_mem ex_mem [1; 0] [0; 1] ex_sd [3; 1; 0; 2]%Z [0; 2; 5]) [0; 1] =
    Ok [[[4; 5; 6]]; [[]; [1; 2]; [3]]]%Z /\
  permuted (sd_permute 8 ex_mem ex_mem [1; 0] [0; 1; 2] ex_usd [2; 0; 1]%Z [0; 1; 1; 3]) [0; 1; 2] =
    Ok [[[5; 6]]; []; [[1; 2]; [3; 4]]]%Z.
Proof.
  repeat split; try (vm_compute; reflexivity); try (apply mono_small; reflexivity); simpl; try lia.
  unfold valid_indices. repeat constructor; simpl; lia.
Qed.

Print Assumptions tarray_from_vector_content.
Print Assumptions tarray_from_parts_content.
Print Assumptions tarray_fill_content.
Print Assumptions tarray_duplicate_content.
Print Assumptions tarray_copy_content.
Print Assumptions tarray_pack_round_trip.
Print Assumptions tarray_pack_aligned_refuted.
Print Assumptions serializededata_pack_round_trip.
Print Assumptions serializededata_pointer_round_trip.
Print Assumptions serializededata_move_uniform_refuted.
Print Assumptions distribute_balanced.
Print Assumptions distribute_minchunk.
Print Assumptions distribute_signed_overflow_refuted.
Print Assumptions balance_fixed_keeps_records.
Print Assumptions balance_various_keeps_records.
Print Assumptions balance_various_empty_target_refuted.
Print Assumptions balance_default_distribution_refuted.
Print Assumptions iteration_variable.
Print Assumptions iteration_uniform.
Print Assumptions iteration_empty_first_thread_refuted.
Print Assumptions permute_variable.
Print Assumptions permute_variable_boundary_distribution.
Print Assumptions permute_uniform.
