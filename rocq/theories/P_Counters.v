(** * Properties of the numbers of elements: C132 and C133 *)
From Coq Require Import List Arith ZArith Bool Lia.
From Verif Require Import Base M_Utils M_Distribute M_Exchange M_Scan S_Scan P_Scan L_Sd L_Utils M_Counters S_Counters L_Counters.
Import ListNotations.
Local Open Scope Z_scope.

Definition no_distribution : distribution := {| process := zero_info; code := [] |}.

Section Elements.
  Variables (ty : ity) (N : Z) (u : list Z) (u1 : Z) (epointers : list (list nat)).
  Hypothesis HN : representable ty N.
  Hypothesis Hu : harmless ty N u.
  Hypothesis Hu1 : harmless ty N [u1].
  Hypothesis Hcodes : forall r c, In c (nth r epointers []) -> (c < 16)%nat.
  Hypothesis Hall : Z.of_nat (length (concat epointers)) <= N.
  Local Notation n := (length epointers).
  Local Notation E r := (nth r epointers []).

  Lemma lengths_total : sum_below (map (fun r => Z.of_nat (length (E r))) (seq 0 n)) n = Z.of_nat (length (concat epointers)).
  Proof. rewrite <- sum_lengths. f_equal. transitivity (map (fun x => Z.of_nat (length x)) (map (fun r => E r) (seq 0 n))); [now rewrite map_map|]. f_equal. symmetry. apply as_map. Qed.
  Lemma length_le r : (r < n)%nat -> Z.of_nat (length (E r)) <= N.
  Proof.
    intros Hr. apply (V_le N n unit (fun r _ => Z.of_nat (length (E r))) [tt]) with (k := tt) (r := r); auto; [intros; lia| |now left]. intros k _. rewrite lengths_total. lia.
  Qed.
  Lemma code_total c : sum_below (map (fun r => having c (E r)) (seq 0 n)) n <= N.
  Proof. etransitivity; [|exact Hall]. rewrite <- lengths_total. apply sum_below_le; [|lia]. intros r _. apply having_le. Qed.
  Lemma by_rank {B} (f : list nat -> B) : map f epointers = map (fun r => f (E r)) (seq 0 n).
  Proof. rewrite (as_map epointers []) at 1. now rewrite map_map. Qed.

  (** C132: after computeElementDistribution every rank knows for every code, and for all codes together, how many elements it has, how many there
      are on lower ranks and on all ranks, and its elements have the numbers from [offset] to [next] *)
  Theorem element_distribution_exact : exists ds, element_distribution ty u u1 epointers = Ok ds /\ length ds = n /\
    forall r, (r < n)%nat -> distributes epointers r (nth r ds no_distribution) /\ i_next (process (nth r ds no_distribution)) = i_offset (process (nth r ds no_distribution)) + i_size (process (nth r ds no_distribution)).
  Proof.
    unfold element_distribution. rewrite (map_out_nth _ counted_of).
    2: { intros e Ie. apply (In_nth _ _ []) in Ie as (r & Hr & <-). rewrite counted_nil, (count_ok ty N); auto; [|cbn [length]; apply length_le; auto]. apply Forall_forall. intros c. apply Hcodes. }
    cbn [obind]. rewrite (map_out_nth _ (fun e => Z.of_nat (length e))).
    2: { intros e Ie. apply (In_nth _ _ []) in Ie as (r & Hr & <-). rewrite (fit_in ty N); auto. pose proof (length_le r Hr). lia. }
    cbn [obind]. rewrite !by_rank.
    replace (map (map i_size) (map (fun r => counted_of (E r)) (seq 0 n))) with (map (fun r => map (fun c => having c (E r)) (seq 0 16)) (seq 0 n)) by (rewrite map_map; apply map_ext; intros r; unfold counted_of; now rewrite map_map).
    pose proof (exscan_keys ty N HN n u nat (fun r c => having c (E r)) (seq 0 16) Hu ltac:(intros; apply having_le) ltac:(intros; apply code_total)) as XV. rewrite seq_length in XV. unfold code_size at 1. rewrite XV. clear XV. cbn [obind].
    assert (XS : exscan ty u1 (map (fun r => Z.of_nat (length (E r))) (seq 0 n)) = Ok (map (fun r => (sum_below (map (fun r => Z.of_nat (length (E r))) (seq 0 n)) r, sum_below (map (fun r => Z.of_nat (length (E r))) (seq 0 n)) n)) (seq 0 n))).
    { rewrite exscan_sums.
      - now rewrite map_length, seq_length.
      - rewrite map_length, seq_length. intros i Hi. apply (rep ty N HN). apply (below_mono N n unit (fun r _ => Z.of_nat (length (E r))) [tt]) with (k := tt); [intros; lia|intros k _; rewrite lengths_total; lia|auto|now left].
      - rewrite map_length, seq_length. intros Hn. rewrite nth_maps by lia. apply (Hu1 0%nat). pose proof (length_le 0 ltac:(lia)). lia. }
    rewrite XS. cbn [obind]. rewrite !combine_maps, map_out_map.
    set (D := fun r => {| process := {| i_offset := sum_below (map (fun r => Z.of_nat (length (E r))) (seq 0 n)) r; i_size := Z.of_nat (length (E r)); i_total := sum_below (map (fun r => Z.of_nat (length (E r))) (seq 0 n)) n; i_next := sum_below (map (fun r => Z.of_nat (length (E r))) (seq 0 n)) r + Z.of_nat (length (E r)) |};
      code := map (fun c => {| i_offset := sum_below (map (fun r => having c (E r)) (seq 0 n)) r; i_size := having c (E r); i_total := sum_below (map (fun r => having c (E r)) (seq 0 n)) n; i_next := 0 |}) (seq 0 16) |}).
    rewrite (map_out_nth _ D).
    - exists (map D (seq 0 n)). split; [reflexivity|]. rewrite map_length, seq_length. split; [reflexivity|]. intros r Hr. rewrite nth_maps by auto. split; [|reflexivity].
      unfold distributes, numbers, D. cbn [process code i_offset i_size i_total i_next]. rewrite map_length, seq_length. split; [reflexivity|]. split.
      + intros c Hc. rewrite nth_maps by auto. cbn [i_offset i_size i_total]. rewrite by_rank, map_length, seq_length, nth_maps by auto. auto.
      + rewrite by_rank, map_length, seq_length, nth_maps by auto. auto.
    - intros r Hr. apply in_seq in Hr. unfold finish_elements.
      rewrite (map_out_nth _ (fun c => {| i_offset := sum_below (map (fun r => having c (E r)) (seq 0 n)) r; i_size := having c (E r); i_total := sum_below (map (fun r => having c (E r)) (seq 0 n)) n; i_next := 0 |})).
      + cbn [obind]. rewrite (fit_in ty N); auto. pose proof (below_mono N n unit (fun r _ => Z.of_nat (length (E r))) [tt]) as B. cbn beta in B.
        specialize (B ltac:(intros; lia) ltac:(intros; rewrite lengths_total; lia) tt (S r) ltac:(lia) (or_introl eq_refl)) as B1. rewrite sum_below_S in B1 by (rewrite map_length, seq_length; lia). rewrite nth_maps in B1 by lia.
        specialize (B ltac:(intros; lia) ltac:(intros; rewrite lengths_total; lia) tt r ltac:(lia) (or_introl eq_refl)). lia.
      + intros c Hc. apply in_seq in Hc. unfold code_size in Hc. unfold counted_of. rewrite rd_maps by (unfold code_size; lia). cbn [obind]. rewrite rd_maps by lia. cbn [obind]. rewrite rd_maps by lia. reflexivity.
  Qed.

  (** *** Regions *)
  Variables (regions : list (list (list nat))) (G : nat) (u2 : list Z).
  Hypothesis Hu2 : harmless ty N u2.
  Hypothesis Hlen : length regions = n.
  Hypothesis HG : forall r, (r < n)%nat -> length (nth r regions []) = G.
  Hypothesis Hin : forall r g e, In e (nth g (nth r regions []) []) -> (e < length (E r))%nat.
  (** the codes of the elements of region [g] on rank [r] *)
  Definition codes_of (g r : nat) : list nat := map (fun e => nth e (E r) 0%nat) (nth g (nth r regions []) []).
  Hypothesis Htotal : forall g, Z.of_nat (length (concat (map (codes_of g) (seq 0 n)))) <= N.

  Definition Vr (r : nat) (k : nat * option nat) : Z := match k with (g, Some c) => having c (codes_of g r) | (g, None) => Z.of_nat (length (codes_of g r)) end.
  Lemma region_total k : sum_below (map (fun r => Vr r k) (seq 0 n)) n <= N.
  Proof.
    destruct k as (g & k). etransitivity; [|exact (Htotal g)]. rewrite <- sum_lengths, map_length, seq_length, map_map. apply sum_below_le; [|lia]. intros r _. destruct k as [c|]; cbn [Vr]; [apply having_le|lia].
  Qed.
  Lemma Vr_nonneg r k : 0 <= Vr r k.
  Proof. destruct k as (g & [c|]); cbn [Vr]; [apply having_le|lia]. Qed.
  Lemma codes_below g r c : (r < n)%nat -> In c (codes_of g r) -> (c < 16)%nat /\ 0 < sum_below (map (fun r => having c (E r)) (seq 0 n)) n.
  Proof.
    intros Hr Ic. unfold codes_of in Ic. apply in_map_iff in Ic as (e & <- & Ie). pose proof (Hin r g e Ie) as He. assert (I : In (nth e (E r) 0%nat) (E r)) by now apply nth_In. split; [now apply (Hcodes r)|].
    set (c := nth e (E r) 0%nat) in *. destruct (Z.lt_ge_cases 0 (sum_below (map (fun r => having c (E r)) (seq 0 n)) n)) as [|L]; auto. exfalso.
    pose proof (sum_zero (fun r => having c (E r)) n (fun r _ => proj1 (having_le c (E r))) L r Hr) as Q. unfold having in Q. apply (count_occ_In Nat.eq_dec) in I. lia.
  Qed.

  (** C132: the same for every region of elements, after computeRegionsElementDistribution *)
  Theorem region_distribution_exact ds : element_distribution ty u u1 epointers = Ok ds ->
    exists out, region_distribution ty u2 (combine (combine (map (fun d => map i_total (code d)) ds) epointers) regions) = Ok out /\ length out = n /\
    forall r, (r < n)%nat -> length (nth r out []) = G /\ forall g, (g < G)%nat ->
      distributes (map (codes_of g) (seq 0 n)) r (nth g (nth r out []) no_distribution) /\
      i_next (process (nth g (nth r out []) no_distribution)) = i_offset (process (nth g (nth r out []) no_distribution)) + i_size (process (nth g (nth r out []) no_distribution)).
  Proof.
    intros HD. destruct element_distribution_exact as (ds' & E1 & E2 & E3). rewrite HD in E1. injection E1 as <-.
    set (totals := map (fun c => sum_below (map (fun r => having c (E r)) (seq 0 n)) n) (seq 0 16)).
    assert (TT : map (fun d => map i_total (code d)) ds = map (fun _ => totals) (seq 0 n)).
    { rewrite (as_map_n ds no_distribution n E2) at 1. rewrite map_map. apply map_ext_in. intros r Hr. apply in_seq in Hr. destruct (E3 r ltac:(lia)) as ((L & C & _) & _). rewrite (as_map_n (code (nth r ds no_distribution)) zero_info 16 L). rewrite map_map. apply map_ext_in. intros c Hc. apply in_seq in Hc.
      destruct (C c ltac:(lia)) as (_ & _ & C3). rewrite C3, by_rank, map_length, seq_length. reflexivity. }
    assert (TR : combine (combine (map (fun d => map i_total (code d)) ds) epointers) regions = map (fun r => (totals, E r, nth r regions [])) (seq 0 n)).
    { rewrite <- (combine_maps (fun r => (totals, E r)) (fun r => nth r regions [])), <- (combine_maps (fun _ => totals) (fun r => E r)), TT. f_equal; [f_equal; apply as_map|now apply as_map_n]. }
    rewrite TR. unfold region_distribution. rewrite map_out_map.
    set (us := fun c => negb (nth c totals 0 =? 0)).
    assert (US : forall i, In i (seq 0 code_size) -> used_total totals i = Ok (us i)). { intros i Hi. apply in_seq in Hi. unfold code_size in Hi. unfold used_total, us, totals. rewrite rd_maps by lia. cbn [obind]. rewrite nth_maps by lia. reflexivity. }
    set (keys := fun _ : nat => map Some (filter us (seq 0 16)) ++ [None]).
    set (gat := fun r g => (counted_of (codes_of g r), {| i_offset := Z.of_nat (length (codes_of g r)); i_size := Z.of_nat (length (codes_of g r)); i_total := 0; i_next := Z.of_nat (length (codes_of g r)) |}, map (fun k => Vr r (g, k)) (keys g))).
    assert (LE : forall r g, (r < n)%nat -> Z.of_nat (length (codes_of g r)) <= N).
    { intros r g Hr. apply (V_le N n (nat * option nat) Vr [(g, None)]) with (k := (g, None)) (r := r); auto; [intros; apply Vr_nonneg|intros; apply region_total|now left]. }
    assert (SU : forall r g, (r < n)%nat -> sum_of (fun i => having i (codes_of g r)) (filter us (seq 0 16)) = Z.of_nat (length (codes_of g r))).
    { intros r g Hr. apply sum_having. apply Forall_forall. intros c Ic. destruct (codes_below g r c Hr Ic) as (C1 & C2). split; auto. unfold us, totals. rewrite nth_maps by auto. destruct (Z.eqb_spec (sum_below (map (fun r => having c (E r)) (seq 0 n)) n) 0); [lia|reflexivity]. }
    assert (GA : forall r g, (r < n)%nat -> (g < G)%nat -> gather_region ty totals (E r) (nth g (nth r regions []) []) = Ok (gat r g)).
    { intros r g Hr Hg. unfold gather_region. rewrite counted_nil, (count_via ty N HN _ (fun e => nth e (E r) 0%nat)).
      - cbn [app obind]. fold (codes_of g r). rewrite (gather_ok ty N HN _ us (fun i => having i (codes_of g r)) _ _ US); cbn [zero_info i_size i_next i_offset i_total]; try lia.
        + cbn [obind i_size i_total i_next app]. unfold code_size. rewrite !SU by auto. cbn [Z.add]. unfold gat, keys. rewrite map_app, map_map. reflexivity.
        + intros i Hi. apply in_seq in Hi. unfold counted_of. rewrite rd_maps by lia. eexists. split; reflexivity.
        + intros i. apply having_le.
        + unfold code_size. rewrite SU by auto. specialize (LE r g Hr). lia.
        + unfold code_size. rewrite SU by auto. specialize (LE r g Hr). lia.
      - intros e Ie. pose proof (Hin r g e Ie) as He. unfold rd. rewrite (nth_error_nth' _ 0%nat) by auto. split; [reflexivity|]. apply (Hcodes r). now apply nth_In.
      - specialize (LE r g Hr). unfold codes_of in LE. rewrite map_length in LE. cbn [length]. lia. }
    rewrite (map_out_nth _ (fun r => map (gat r) (seq 0 G))).
    2: { intros r Hr. apply in_seq in Hr. rewrite (as_map_n (nth r regions []) [] G (HG r ltac:(lia))). rewrite map_out_map. rewrite (map_out_nth _ (gat r)); [reflexivity|]. intros g Hg. apply in_seq in Hg. apply GA; lia. }
    cbn [obind]. rewrite map_map.
    assert (VC : forall r, concat (map snd (map (gat r) (seq 0 G))) = map (Vr r) (flat_keys keys (seq 0 G))). { intros r. rewrite map_map. cbn [gat snd]. apply (flat_values keys (Vr r)). }
    rewrite (map_ext _ _ VC). rewrite (scan_keys ty N HN n u2 _ Vr (flat_keys keys (seq 0 G)) Hu2); [|intros; apply Vr_nonneg|intros; apply region_total]. cbn [obind].
    rewrite !combine_maps, map_out_map.
    set (OF := fun r k => sum_below (map (fun r' => Vr r' k) (seq 0 n)) r).
    match goal with |- exists out, map_out ?F _ = _ /\ _ => assert (RR : forall r, In r (seq 0 n) -> exists out, F r = Ok out /\ length out = G /\ forall g, (g < G)%nat ->
      distributes (map (codes_of g) (seq 0 n)) r (nth g out no_distribution) /\ i_next (process (nth g out no_distribution)) = i_offset (process (nth g out no_distribution)) + i_size (process (nth g out no_distribution))) end.
    { intros r Hr. apply in_seq in Hr. cbv zeta beta.
      set (Q := fun g d => distributes (map (codes_of g) (seq 0 n)) r d /\ i_next (process d) = i_offset (process d) + i_size (process d)).
      destruct (scatter_fold (scatter_region ty totals (map (OF r) (flat_keys keys (seq 0 G))) (map (OF n) (flat_keys keys (seq 0 G)))) keys (OF r) (OF n) (map (OF r) (flat_keys keys (seq 0 G))) (map (OF n) (flat_keys keys (seq 0 G))) (gat r) Q (seq 0 G)) with (pre := @nil Z) (post := @nil Z) (pre' := @nil Z) (post' := @nil Z) (ds := @nil distribution) as (j & out & F1 & F2).
      - intros g pre post pre' post' dd Hg P1 P2 PL. apply in_seq in Hg. change (keys g) with (map Some (filter us (seq 0 16)) ++ [@None nat]) in P1, P2. rewrite map_app, map_map, <- app_assoc in P1, P2. cbn [map app] in P1, P2.
        destruct (scatter_ok (used_total totals) us (fun c => OF r (g, Some c)) (fun c => OF n (g, Some c)) (map (OF r) (flat_keys keys (seq 0 G))) (map (OF n) (flat_keys keys (seq 0 G))) (seq 0 code_size) US (seq_NoDup _ _) pre _ pre' _ (counted_of (codes_of g r)) P1 P2 PL) as (d' & S1 & S2 & S3).
        { intros i Hi. apply in_seq in Hi. unfold counted_of. rewrite map_length, seq_length. lia. }
        assert (LC : length (counted_of (codes_of g r)) = 16%nat) by (unfold counted_of; now rewrite map_length, seq_length).
        unfold scatter_region, gat. rewrite S1. cbn [obind].
        assert (J : (length pre + length (filter us (seq 0 code_size)))%nat = length (pre ++ map (fun c => OF r (g, Some c)) (filter us (seq 0 16)))) by now rewrite app_length, map_length.
        assert (J' : (length pre + length (filter us (seq 0 code_size)))%nat = length (pre' ++ map (fun c => OF n (g, Some c)) (filter us (seq 0 16)))) by now rewrite app_length, map_length, PL.
        assert (RO : rd (map (OF r) (flat_keys keys (seq 0 G))) (length pre + length (filter us (seq 0 code_size))) = Ok (OF r (g, None))). { rewrite P1, app_assoc, J. apply rd_app_mid. }
        assert (RT : rd (map (OF n) (flat_keys keys (seq 0 G))) (length pre + length (filter us (seq 0 code_size))) = Ok (OF n (g, None))). { rewrite P2, app_assoc, J'. apply rd_app_mid. }
        rewrite RO. cbn [obind]. rewrite RT. cbn [obind i_next i_size].
        assert (BM : forall i, (i <= n)%nat -> 0 <= OF i (g, None) <= N). { intros i Hi. apply (below_mono N n (nat * option nat) Vr [(g, None)]); auto; [intros; apply Vr_nonneg|intros; apply region_total|now left]. }
        pose proof (BM (S r) ltac:(lia)) as BS. unfold OF in BS. rewrite sum_below_S in BS by (rewrite map_length, seq_length; lia). rewrite nth_maps in BS by lia. cbn [Vr] in BS. pose proof (BM r ltac:(lia)) as B0.
        rewrite (fit_in ty N HN) by (unfold OF in B0 |- *; cbn [Vr] in *; lia). cbn [obind]. eexists. split; [unfold keys; rewrite app_length, map_length; cbn [length]; f_equal; f_equal; unfold code_size; lia|].
        unfold Q, distributes, numbers. cbn [process code i_offset i_size i_total i_next]. split; [|lia]. rewrite S2, LC. split; [reflexivity|]. split.
        + intros c Hc. rewrite S3 by lia. unfold counted_of. rewrite nth_maps by exact Hc. cbn [i_size i_next]. assert (EB : existsb (Nat.eqb c) (seq 0 code_size) = true). { apply existsb_exists. exists c. split; [apply in_seq; unfold code_size; lia|apply Nat.eqb_refl]. } rewrite EB, andb_true_r.
          rewrite !map_map, map_length, seq_length, nth_maps by lia. destruct (us c) eqn:Uc; [cbn [i_offset i_size i_total]; auto|]. cbn [i_offset i_size i_total].
          assert (Z0 : forall r', (r' < n)%nat -> having c (codes_of g r') = 0).
          { intros r' Hr'. destruct (in_dec Nat.eq_dec c (codes_of g r')) as [I|NI]; [|unfold having; apply (count_occ_not_In Nat.eq_dec) in NI; lia]. exfalso. destruct (codes_below g r' c Hr' I) as (_ & C2). unfold us, totals in Uc. rewrite nth_maps in Uc by auto. destruct (Z.eqb_spec (sum_below (map (fun r => having c (E r)) (seq 0 n)) n) 0); [lia|discriminate]. }
          assert (SZ : forall i, (i <= n)%nat -> sum_below (map (fun x => having c (codes_of g x)) (seq 0 n)) i = 0). { induction i as [|i IH]; intros Hi; [apply sum_below_0|]. rewrite sum_below_S by (rewrite map_length, seq_length; lia). rewrite nth_maps, IH, Z0 by lia. reflexivity. }
          rewrite !SZ by lia. auto.
        + rewrite !map_map, map_length, seq_length, nth_maps by lia. auto.
      - cbn [app]. now rewrite app_nil_r.
      - cbn [app]. now rewrite app_nil_r.
      - reflexivity.
      - cbn [length app] in F1. exists out. split; [|now apply (Forall2_seq Q no_distribution) in F2]. fold (OF r) (OF n). unfold OF in F1 |- *. rewrite F1. reflexivity. }
    apply (map_out_ok _ _ (seq 0 n)) in RR as (out & R1 & R2). exists out. split; [exact R1|]. apply (Forall2_seq _ [] n 0) in R2 as (R2 & R3). split; [exact R2|]. intros r Hr. exact (R3 r Hr).
  Qed.
End Elements.

(** ** Masks of codes *)
Lemma land_bit m i : 0 <= i -> (Z.land m (Z.shiftl 1 i) =? 0) = negb (Z.testbit m i).
Proof.
  intros Hi. assert (Q : Z.testbit (Z.land m (Z.shiftl 1 i)) i = Z.testbit m i). { rewrite Z.land_spec, Z.shiftl_spec, Z.sub_diag by lia. cbn. now rewrite andb_true_r. }
  destruct (Z.eqb_spec (Z.land m (Z.shiftl 1 i)) 0) as [E|E].
  - rewrite E, Z.bits_0 in Q. now rewrite <- Q.
  - destruct (Z.testbit m i) eqn:T; [reflexivity|]. exfalso. apply E. apply Z.bits_inj'. intros k Hk. rewrite Z.land_spec, Z.shiftl_1_l, Z.pow2_bits_eqb, Z.bits_0 by lia. destruct (Z.eqb_spec i k) as [<-|]; [rewrite T; reflexivity|apply andb_false_r].
Qed.
Lemma used_mask_bit m i : used_mask m i = Ok (Z.testbit m (Z.of_nat i)).
Proof. unfold used_mask. rewrite land_bit by lia. now rewrite negb_involutive. Qed.
Lemma mask_fold codes l : forall m, (forall c, In c l -> (c < 16)%nat) -> exists m', foldM (fun m c => x <- rd (counted_of codes) c ;; Ok (if i_size x =? 0 then m else Z.lor m (Z.shiftl 1 (Z.of_nat c))))%out l m = Ok m' /\
  forall c, Z.testbit m' (Z.of_nat c) = Z.testbit m (Z.of_nat c) || (existsb (Nat.eqb c) l && negb (having c codes =? 0)).
Proof.
  induction l as [|k l IH]; intros m Hl; cbn [foldM existsb]; [exists m; split; [reflexivity|intros; cbn; now rewrite orb_false_r]|]. pose proof (Hl k (or_introl eq_refl)) as Hk. unfold counted_of at 1. rewrite rd_maps by exact Hk. cbn [obind i_size].
  destruct (IH (if having k codes =? 0 then m else Z.lor m (Z.shiftl 1 (Z.of_nat k))) (fun c Hc => Hl c (or_intror Hc))) as (m' & F & T). exists m'. split; [exact F|]. intros c. rewrite T. destruct (Nat.eqb_spec c k) as [->|Ne].
  - cbn [orb andb]. destruct (having k codes =? 0) eqn:Z0; cbn [negb]; [rewrite !andb_false_r; reflexivity|]. rewrite Z.lor_spec, Z.shiftl_spec, Z.sub_diag by lia. change (Z.testbit 1 0) with true. rewrite !orb_true_r. reflexivity.
  - cbn [orb]. destruct (having k codes =? 0); [reflexivity|]. rewrite Z.lor_spec, Z.shiftl_1_l, Z.pow2_bits_eqb by lia. destruct (Z.eqb_spec (Z.of_nat k) (Z.of_nat c)); [lia|]. now rewrite orb_false_r.
Qed.
Lemma or_masks_bit (masks : list (list Z)) g i : Z.testbit (or_masks masks g) i = existsb (fun m => Z.testbit (nth g m 0) i) masks.
Proof. unfold or_masks. induction masks as [|m ms IH]; cbn [map fold_right existsb]; [apply Z.bits_0|]. now rewrite Z.lor_spec, IH. Qed.

Definition no_bregion : bregion := {| b_dimension := false; b_codes := []; b_nodes := [] |}.

Section Boundary.
  Variables (ty : ity) (N : Z) (u : list Z) (ranks : list (list (list nat) * list bregion)) (G : nat) (dim : nat -> bool).
  Hypothesis HN : representable ty N.
  Hypothesis Hu : harmless ty N u.
  Local Notation n := (length ranks).
  Definition nranks (r : nat) : list (list nat) := fst (nth r ranks ([], [])).
  Definition bregions (r : nat) : list bregion := snd (nth r ranks ([], [])).
  Definition breg (g r : nat) : bregion := nth g (bregions r) no_bregion.
  Hypothesis HG : forall r, (r < n)%nat -> length (bregions r) = G.
  Hypothesis Hdim : forall r g, (r < n)%nat -> (g < G)%nat -> b_dimension (breg g r) = dim g.
  Hypothesis Hcodes : forall r g c, (r < n)%nat -> (g < G)%nat -> In c (b_codes (breg g r)) -> (c < 16)%nat.
  Hypothesis Hnodes : forall r g x, (r < n)%nat -> (g < G)%nat -> In x (b_nodes (breg g r)) -> (x < length (nranks r))%nat /\ nth x (nranks r) [] <> [].
  Hypothesis Htotal : forall g, (g < G)%nat -> Z.of_nat (length (concat (map (fun r => b_codes (breg g r)) (seq 0 n)))) <= N.
  Hypothesis Htotal' : forall g, (g < G)%nat -> Z.of_nat (length (concat (map (fun r => b_nodes (breg g r)) (seq 0 n)))) <= N.

  Definition bcodes (g r : nat) : list nat := if dim g then b_codes (breg g r) else repeat 0%nat (Z.to_nat (owned (nranks r) r (b_nodes (breg g r)))).
  Definition Vb (r : nat) (k : nat * option nat) : Z := match k with (g, Some c) => having c (bcodes g r) | (g, None) => if dim g then Z.of_nat (length (bcodes g r)) else 0 end.
  Lemma owned_le nr r l : 0 <= owned nr r l <= Z.of_nat (length l).
  Proof. unfold owned. split; [lia|]. apply inj_le. induction l as [|k l IH]; [apply le_n|]. cbn [filter]. destruct (nth 0 (nth k nr []) r =? r)%nat; cbn [length]; lia. Qed.
  Lemma Vb_nonneg r k : 0 <= Vb r k.
  Proof. destruct k as (g & [c|]); cbn [Vb]; [apply having_le|destruct (dim g); lia]. Qed.
  Lemma bcodes_total g : (g < G)%nat -> sum_below (map (fun r => Z.of_nat (length (bcodes g r))) (seq 0 n)) n <= N.
  Proof.
    intros Hg. destruct (dim g) eqn:D.
    - etransitivity; [|exact (Htotal g Hg)]. rewrite <- sum_lengths, map_length, seq_length, map_map. apply sum_below_le; [|lia]. intros r Hr. unfold bcodes. rewrite D. lia.
    - etransitivity; [|exact (Htotal' g Hg)]. rewrite <- sum_lengths, map_length, seq_length, map_map. apply sum_below_le; [|lia]. intros r Hr. unfold bcodes. rewrite D, repeat_length. pose proof (owned_le (nranks r) r (b_nodes (breg g r))). lia.
  Qed.
  Lemma Vb_total k : (fst k < G)%nat -> sum_below (map (fun r => Vb r k) (seq 0 n)) n <= N.
  Proof.
    destruct k as (g & k). cbn [fst]. intros Hg. etransitivity; [|exact (bcodes_total g Hg)]. apply sum_below_le; [|lia]. intros r _. destruct k as [c|]; cbn [Vb]; [apply having_le|destruct (dim g); lia].
  Qed.
  Lemma bcodes_len g r : (r < n)%nat -> (g < G)%nat -> Z.of_nat (length (bcodes g r)) <= N.
  Proof.
    intros Hr Hg. apply (V_le N n unit (fun r _ => Z.of_nat (length (bcodes g r))) [tt]) with (k := tt) (r := r); auto; [intros; lia| |now left]. intros k _. now apply bcodes_total.
  Qed.
  Lemma count_nodes nr r l : forall pre, (forall x, In x l -> (x < length nr)%nat /\ nth x nr [] <> []) -> Z.of_nat (length pre + length l) <= N ->
    foldM (fun d x => q <- rd nr x ;; front <- rd q 0 ;; if (front =? r)%nat then bump ty d 0 else Ok d)%out l (counted_of pre) = Ok (counted_of (pre ++ repeat 0%nat (Z.to_nat (owned nr r l)))).
  Proof.
    induction l as [|x l IH]; intros pre Hl HB; cbn [foldM]; [cbn; now rewrite app_nil_r|]. destruct (Hl x (or_introl eq_refl)) as (X1 & X2). cbn [length] in HB. unfold rd at 1. rewrite (nth_error_nth' nr [] X1). cbn [obind]. destruct (nth x nr []) as [|f fs] eqn:E; [easy|]. cbn [rd nth_error obind].
    unfold owned. cbn [filter]. rewrite E. cbn [nth]. destruct (f =? r)%nat.
    - rewrite (bump_ok ty N HN) by lia. cbn [obind]. rewrite IH; [|intros y Hy; apply Hl; now right|rewrite app_length; cbn [length]; lia]. rewrite <- app_assoc. cbn [length]. rewrite !Nat2Z.id. unfold owned. rewrite Nat2Z.id. reflexivity.
    - cbn [obind]. rewrite IH; [|intros y Hy; apply Hl; now right|lia]. reflexivity.
  Qed.

  (** the mask of the codes of a region on all ranks *)
  Definition used_code (g c : nat) : bool := existsb (fun r => negb (having c (bcodes g r) =? 0)) (seq 0 n).
  Lemma counting r : (r < n)%nat -> exists cs, map_out (count_bregion ty r (nranks r)) (bregions r) = Ok cs /\ length cs = G /\
    forall g, (g < G)%nat -> exists m, nth g cs ([], 0) = (counted_of (bcodes g r), m) /\ (dim g = true -> forall c, (c < 16)%nat -> Z.testbit m (Z.of_nat c) = negb (having c (bcodes g r) =? 0)).
  Proof.
    intros Hr. rewrite (as_map_n (bregions r) no_bregion G (HG r Hr)), map_out_map.
    destruct (map_out_ok (fun g => count_bregion ty r (nranks r) (nth g (bregions r) no_bregion)) (fun g x => exists m, x = (counted_of (bcodes g r), m) /\ (dim g = true -> forall c, (c < 16)%nat -> Z.testbit m (Z.of_nat c) = negb (having c (bcodes g r) =? 0))) (seq 0 G)) as (cs & C1 & C2).
    - intros g Hg. apply in_seq in Hg. fold (breg g r). unfold count_bregion. rewrite Hdim by lia. unfold bcodes. pose proof (bcodes_len g r Hr ltac:(lia)) as BL. unfold bcodes in BL. destruct (dim g) eqn:D.
      + rewrite counted_nil, (count_ok ty N HN); [|apply Forall_forall; intros c Hc; apply (Hcodes r g); auto; lia|cbn [length]; lia]. cbn [app obind]. destruct (mask_fold (b_codes (breg g r)) (seq 0 code_size) 0) as (m & M1 & M2); [intros c Hc; apply in_seq in Hc; unfold code_size in Hc; lia|].
        rewrite M1. cbn [obind]. eexists. split; [reflexivity|]. exists m. split; [reflexivity|]. intros _ c Hc. rewrite M2, Z.bits_0. cbn [orb]. assert (EB : existsb (Nat.eqb c) (seq 0 code_size) = true). { apply existsb_exists. exists c. split; [apply in_seq; unfold code_size; lia|apply Nat.eqb_refl]. } now rewrite EB.
      + rewrite counted_nil, count_nodes.
        * cbn [app obind]. eexists. split; [reflexivity|]. exists 0. split; [reflexivity|discriminate].
        * intros x Hx. apply (Hnodes r g); auto; lia.
        * cbn [length]. etransitivity; [|exact (Htotal' g ltac:(lia))]. rewrite <- sum_lengths, map_length, seq_length, map_map. 
          assert (Q : 0 <= Z.of_nat (length (b_nodes (breg g r))) <= sum_below (map (fun x => Z.of_nat (length (b_nodes (breg g x)))) (seq 0 n)) n).
          { apply (V_le _ n unit (fun x _ => Z.of_nat (length (b_nodes (breg g x)))) [tt]) with (k := tt); auto; [intros; lia|intros; lia|now left]. }
          lia.
    - exists cs. split; [exact C1|]. apply (Forall2_seq _ ([], 0) G 0) in C2. exact C2.
  Qed.

  (** C132: for every region of the boundary with a dimension the same numbers for codes and for all elements together (but see
      [boundary_next_refuted]); for a region of nodes the numbers of nodes that belong to the rank, under the code of points *)
  Theorem boundary_distribution_exact : exists out, boundary_distribution ty u ranks = Ok out /\ length out = n /\
    forall r, (r < n)%nat -> length (nth r out []) = G /\ forall g, (g < G)%nat -> let d := nth g (nth r out []) no_distribution in
      if dim g then distributes (map (fun r => b_codes (breg g r)) (seq 0 n)) r d /\ i_next (process d) = i_size (process d)
      else process d = zero_info /\ length (code d) = 16%nat /\ numbers (map (fun r => owned (nranks r) r (b_nodes (breg g r))) (seq 0 n)) r (nth 0 (code d) zero_info) /\
           forall c, (0 < c < 16)%nat -> nth c (code d) zero_info = zero_info.
  Proof.
    unfold boundary_distribution.
    assert (RK : combine (seq 0 n) ranks = map (fun r => (r, (nranks r, bregions r))) (seq 0 n)).
    { rewrite <- (combine_maps (fun r => r)). rewrite map_id. f_equal. rewrite (as_map ranks ([], [])) at 1. apply map_ext. intros r. unfold nranks, bregions. now destruct (nth r ranks ([], [])). }
    rewrite RK, map_out_map. clear RK.
    destruct (map_out_ok (fun r => map_out (count_bregion ty r (nranks r)) (bregions r)) (fun r cs => length cs = G /\ forall g, (g < G)%nat -> exists m, nth g cs ([], 0) = (counted_of (bcodes g r), m) /\ (dim g = true -> forall c, (c < 16)%nat -> Z.testbit m (Z.of_nat c) = negb (having c (bcodes g r) =? 0))) (seq 0 n)) as (counted & C1 & C2).
    { intros r Hr. apply in_seq in Hr. apply counting. lia. }
    rewrite C1. cbn [obind]. apply (Forall2_seq _ [] n 0) in C2 as (CL & C2). cbn [Nat.add] in C2.
    set (mask := or_masks (map (map snd) counted)). cbv zeta.
    assert (MK : forall g c, (g < G)%nat -> dim g = true -> (c < 16)%nat -> Z.testbit (mask g) (Z.of_nat c) = used_code g c).
    { intros g c Hg D Hc. unfold mask. rewrite or_masks_bit. rewrite (as_map_n counted [] n CL), map_map. unfold used_code.
      assert (X : forall l, (forall r, In r l -> (r < n)%nat) -> existsb (fun m => Z.testbit (nth g m 0) (Z.of_nat c)) (map (fun x => map snd (nth x counted [])) l) = existsb (fun r => negb (having c (bcodes g r) =? 0)) l).
      { induction l as [|r l IH]; intros Hl; [reflexivity|]. cbn [map existsb]. rewrite IH by (intros; apply Hl; now right). f_equal. destruct (C2 r (Hl r (or_introl eq_refl))) as (_ & C3). destruct (C3 g Hg) as (m & M1 & M2). rewrite <- (M2 D c Hc). f_equal. change 0 with (snd (@nil info, 0)). rewrite map_nth, M1. reflexivity. }
      apply X. intros r Hr. apply in_seq in Hr. lia. }
    set (keys := fun g => if dim g then map Some (filter (used_code g) (seq 0 16)) ++ [None] else [Some 0%nat; None]).
    set (gat := fun r g => let s := if dim g then Z.of_nat (length (bcodes g r)) else 0 in (breg g r, mask g, counted_of (bcodes g r), {| i_offset := s; i_size := s; i_total := 0; i_next := s |}, map (fun k => Vb r (g, k)) (keys g))).
    assert (US : forall g i, (g < G)%nat -> dim g = true -> In i (seq 0 code_size) -> used_mask (mask g) i = Ok (used_code g i)). { intros g i Hg D Hi. apply in_seq in Hi. rewrite used_mask_bit, MK; auto. unfold code_size in Hi. lia. }
    assert (SU : forall r g, (r < n)%nat -> (g < G)%nat -> dim g = true -> sum_of (fun i => having i (bcodes g r)) (filter (used_code g) (seq 0 16)) = Z.of_nat (length (bcodes g r))).
    { intros r g Hr Hg D. apply sum_having. apply Forall_forall. intros c Ic. split; [unfold bcodes in Ic; rewrite D in Ic; now apply (Hcodes r g)|]. unfold used_code. apply existsb_exists. exists r. split; [apply in_seq; lia|]. unfold having. apply (count_occ_In Nat.eq_dec) in Ic. destruct (Z.eqb_spec (Z.of_nat (count_occ Nat.eq_dec (bcodes g r) c)) 0); [lia|reflexivity]. }
    assert (GA : forall r g, (r < n)%nat -> (g < G)%nat -> gather_bregion ty (breg g r, (counted_of (bcodes g r), mask g)) = Ok (gat r g)).
    { intros r g Hr Hg. unfold gather_bregion, gat, keys. rewrite Hdim by auto. pose proof (bcodes_len g r Hr Hg) as BL. destruct (dim g) eqn:D.
      - rewrite (gather_ok ty N HN _ (used_code g) (fun i => having i (bcodes g r)) _ _ (fun i => US g i Hg D)); cbn [zero_info i_size i_next i_offset i_total]; try lia.
        + cbn [obind i_size i_total i_next app]. unfold code_size. rewrite !SU by auto. cbn [Z.add]. rewrite map_app, map_map. cbn [map Vb]. rewrite D. reflexivity.
        + intros i Hi. apply in_seq in Hi. unfold counted_of. rewrite rd_maps by lia. eexists. split; reflexivity.
        + intros i. apply having_le.
        + unfold code_size. rewrite SU by auto. lia.
        + unfold code_size. rewrite SU by auto. lia.
      - unfold counted_of at 1. rewrite rd_maps by (unfold code_size; lia). cbn [obind zero_info i_size i_next i_offset i_total app map Vb]. rewrite D. reflexivity. }
    assert (CM : combine ranks counted = map (fun r => ((nranks r, bregions r), nth r counted [])) (seq 0 n)).
    { rewrite <- (combine_maps (fun r => (nranks r, bregions r)) (fun r => nth r counted [])). f_equal; [|now apply as_map_n]. rewrite (as_map ranks ([], [])) at 1. apply map_ext. intros r. unfold nranks, bregions. now destruct (nth r ranks ([], [])). }
    rewrite CM, map_out_map. clear CM.
    rewrite (map_out_nth _ (fun r => map (gat r) (seq 0 G))).
    2: { intros r Hr. apply in_seq in Hr. destruct (C2 r ltac:(lia)) as (LC & C3).
      assert (CB : combine (bregions r) (map (fun '(r0, x) => (fst x, mask r0)) (combine (seq 0 (length (nth r counted []))) (nth r counted []))) = map (fun g => (breg g r, (counted_of (bcodes g r), mask g))) (seq 0 G)).
      { rewrite LC. rewrite <- (combine_maps (fun g => breg g r)). f_equal; [apply as_map_n; apply HG; lia|].
        transitivity (map (fun '(r0, x) => (fst x, mask r0)) (map (fun g => (g, nth g (nth r counted []) ([], 0))) (seq 0 G))).
        - f_equal. rewrite <- (combine_maps (fun g => g)), map_id. f_equal. now apply as_map_n.
        - rewrite map_map. apply map_ext_in. intros g Hg. apply in_seq in Hg. destruct (C3 g ltac:(lia)) as (m & M1 & _). now rewrite M1. }
      rewrite CB, map_out_map. apply map_out_nth. intros g Hg. apply in_seq in Hg. apply GA; lia. }
    cbn [obind]. rewrite map_map.
    assert (VC : forall r, concat (map snd (map (gat r) (seq 0 G))) = map (Vb r) (flat_keys keys (seq 0 G))). { intros r. rewrite map_map. cbn [gat snd]. apply (flat_values keys (Vb r)). }
    rewrite (map_ext _ _ VC).
    assert (FK : forall k, In k (flat_keys keys (seq 0 G)) -> (fst k < G)%nat). { intros k Ik. unfold flat_keys in Ik. apply in_flat_map in Ik as (g & Hg & Ik). apply in_map_iff in Ik as (o & <- & _). apply in_seq in Hg. cbn [fst]. lia. }
    rewrite (scan_keys ty N HN n u _ Vb (flat_keys keys (seq 0 G)) Hu); [|intros; apply Vb_nonneg|intros; apply Vb_total; auto]. cbn [obind].
    rewrite !combine_maps, map_out_map.
    set (OF := fun r k => sum_below (map (fun r' => Vb r' k) (seq 0 n)) r).
    set (Q := fun r g d => if dim g then distributes (map (fun r => b_codes (breg g r)) (seq 0 n)) r d /\ i_next (process d) = i_size (process d)
      else process d = zero_info /\ length (code d) = 16%nat /\ numbers (map (fun r => owned (nranks r) r (b_nodes (breg g r))) (seq 0 n)) r (nth 0 (code d) zero_info) /\ forall c, (0 < c < 16)%nat -> nth c (code d) zero_info = zero_info).
    match goal with |- exists out, map_out ?F _ = _ /\ _ => assert (RR : forall r, In r (seq 0 n) -> exists out, F r = Ok out /\ length out = G /\ forall g, (g < G)%nat -> Q r g (nth g out no_distribution)) end.
    { intros r Hr. apply in_seq in Hr. cbv zeta beta.
      destruct (scatter_fold (scatter_bregion (map (OF r) (flat_keys keys (seq 0 G))) (map (OF n) (flat_keys keys (seq 0 G)))) keys (OF r) (OF n) (map (OF r) (flat_keys keys (seq 0 G))) (map (OF n) (flat_keys keys (seq 0 G))) (gat r) (Q r) (seq 0 G)) with (pre := @nil Z) (post := @nil Z) (pre' := @nil Z) (post' := @nil Z) (ds := @nil distribution) as (j & out & F1 & F2).
      - intros g pre post pre' post' dd Hg P1 P2 PL. apply in_seq in Hg. destruct (dim g) eqn:D.
        + replace (keys g) with (map Some (filter (used_code g) (seq 0 16)) ++ [@None nat]) in * by (unfold keys; now rewrite D). rewrite map_app, map_map, <- app_assoc in P1, P2. cbn [map app] in P1, P2.
          destruct (scatter_ok (used_mask (mask g)) (used_code g) (fun c => OF r (g, Some c)) (fun c => OF n (g, Some c)) (map (OF r) (flat_keys keys (seq 0 G))) (map (OF n) (flat_keys keys (seq 0 G))) (seq 0 code_size) (fun i => US g i ltac:(lia) D) (seq_NoDup _ _) pre _ pre' _ (counted_of (bcodes g r)) P1 P2 PL) as (d' & S1 & S2 & S3).
          { intros i Hi. apply in_seq in Hi. unfold counted_of. rewrite map_length, seq_length. lia. }
          assert (LC : length (counted_of (bcodes g r)) = 16%nat) by (unfold counted_of; now rewrite map_length, seq_length).
          unfold scatter_bregion, gat. rewrite Hdim, D by lia. rewrite S1. cbn [obind].
          assert (J : (length pre + length (filter (used_code g) (seq 0 code_size)))%nat = length (pre ++ map (fun c => OF r (g, Some c)) (filter (used_code g) (seq 0 16)))) by now rewrite app_length, map_length.
          assert (J' : (length pre + length (filter (used_code g) (seq 0 code_size)))%nat = length (pre' ++ map (fun c => OF n (g, Some c)) (filter (used_code g) (seq 0 16)))) by now rewrite app_length, map_length, PL.
          assert (RO : rd (map (OF r) (flat_keys keys (seq 0 G))) (length pre + length (filter (used_code g) (seq 0 code_size))) = Ok (OF r (g, None))). { rewrite P1, app_assoc, J. apply rd_app_mid. }
          assert (RT : rd (map (OF n) (flat_keys keys (seq 0 G))) (length pre + length (filter (used_code g) (seq 0 code_size))) = Ok (OF n (g, None))). { rewrite P2, app_assoc, J'. apply rd_app_mid. }
          rewrite RO. cbn [obind]. rewrite RT. cbn [obind i_next i_size]. eexists. split; [rewrite app_length, map_length; cbn [length]; f_equal; f_equal; unfold code_size; lia|].
          unfold Q. rewrite D. unfold distributes, numbers. cbn [process code i_offset i_size i_total i_next]. split; [|reflexivity]. rewrite S2, LC. split; [reflexivity|].
          assert (BC : forall x, b_codes (breg g x) = bcodes g x) by (intros x; unfold bcodes; now rewrite D).
          rewrite !map_map, !map_length, seq_length. split.
          * intros c Hc. rewrite S3 by lia. unfold counted_of. rewrite nth_maps by exact Hc. cbn [i_size i_next]. assert (EB : existsb (Nat.eqb c) (seq 0 code_size) = true). { apply existsb_exists. exists c. split; [apply in_seq; unfold code_size; lia|apply Nat.eqb_refl]. } rewrite EB, andb_true_r.
            rewrite !map_map, map_length, seq_length. rewrite (map_ext (fun x => having c (b_codes (breg g x))) (fun x => having c (bcodes g x))) by (intros x; now rewrite BC). rewrite nth_maps by lia. destruct (used_code g c) eqn:Uc; [cbn [i_offset i_size i_total]; auto|]. cbn [i_offset i_size i_total].
            assert (Z0 : forall r', (r' < n)%nat -> having c (bcodes g r') = 0).
            { intros r' Hr'. destruct (Z.eqb_spec (having c (bcodes g r')) 0) as [|Ne]; auto. exfalso. assert (T : used_code g c = true). { unfold used_code. apply existsb_exists. exists r'. split; [apply in_seq; lia|]. destruct (Z.eqb_spec (having c (bcodes g r')) 0); [easy|reflexivity]. } congruence. }
            assert (SZ : forall i, (i <= n)%nat -> sum_below (map (fun x => having c (bcodes g x)) (seq 0 n)) i = 0). { induction i as [|i IH]; intros Hi; [apply sum_below_0|]. rewrite sum_below_S by (rewrite map_length, seq_length; lia). rewrite nth_maps, IH, Z0 by lia. reflexivity. }
            rewrite !SZ by lia. auto.
          * rewrite (map_ext (fun x => Z.of_nat (length (b_codes (breg g x)))) (fun x => Z.of_nat (length (bcodes g x)))) by (intros x; now rewrite BC). rewrite nth_maps by lia. unfold OF. cbn [Vb]. rewrite D. auto.
        + replace (keys g) with [Some 0%nat; @None nat] in * by (unfold keys; now rewrite D). cbn [map app] in P1, P2.
          unfold scatter_bregion, gat. rewrite Hdim, D by lia. unfold scatter_code. cbn [obind].
          assert (RO : rd (map (OF r) (flat_keys keys (seq 0 G))) (length pre) = Ok (OF r (g, Some 0%nat))) by (rewrite P1; apply rd_app_mid).
          assert (RT : rd (map (OF n) (flat_keys keys (seq 0 G))) (length pre) = Ok (OF n (g, Some 0%nat))) by (rewrite P2, PL; apply rd_app_mid).
          assert (RO' : rd (map (OF r) (flat_keys keys (seq 0 G))) (S (length pre)) = Ok (OF r (g, None))). { rewrite P1. change (OF r (g, Some 0%nat) :: OF r (g, None) :: post) with ([OF r (g, Some 0%nat)] ++ OF r (g, None) :: post). rewrite app_assoc. replace (S (length pre)) with (length (pre ++ [OF r (g, Some 0%nat)])) by (rewrite app_length; cbn; lia). apply rd_app_mid. }
          assert (RT' : rd (map (OF n) (flat_keys keys (seq 0 G))) (S (length pre)) = Ok (OF n (g, None))). { rewrite P2, PL. change (OF n (g, Some 0%nat) :: OF n (g, None) :: post') with ([OF n (g, Some 0%nat)] ++ OF n (g, None) :: post'). rewrite app_assoc. replace (S (length pre')) with (length (pre' ++ [OF n (g, Some 0%nat)])) by (rewrite app_length; cbn; lia). apply rd_app_mid. }
          rewrite RO, RT. cbn [obind]. unfold counted_of. rewrite rd_maps by (unfold code_size; lia). cbn [obind i_size i_next]. unfold wr. rewrite map_length, seq_length. cbn [Nat.ltb Nat.leb code_size obind]. rewrite RO', RT'. cbn [obind i_size i_next]. eexists. split; [cbn [length]; f_equal; f_equal; lia|].
          assert (SZ : forall i, (i <= n)%nat -> OF i (g, None) = 0). { unfold OF. induction i as [|i IH]; intros Hi; [apply sum_below_0|]. rewrite sum_below_S by (rewrite map_length, seq_length; lia). rewrite nth_maps, IH by lia. cbn [Vb]. now rewrite D. }
          unfold Q. rewrite D. cbn [process code]. rewrite !SZ by lia. split; [reflexivity|]. rewrite upd_length, map_length, seq_length. split; [reflexivity|].
          assert (HO : forall x, having 0 (bcodes g x) = owned (nranks x) x (b_nodes (breg g x))). { intros x. unfold bcodes. rewrite D. unfold having. rewrite count_occ_repeat_eq by reflexivity. pose proof (owned_le (nranks x) x (b_nodes (breg g x))). lia. }
          split.
          * rewrite (upd_maps _ 0 code_size) by (unfold code_size; lia). rewrite nth_maps by (unfold code_size; lia). cbn [Nat.eqb]. unfold numbers. cbn [i_offset i_size i_total]. rewrite map_length, seq_length, nth_maps by lia. unfold OF. cbn [Vb]. rewrite (map_ext _ _ HO), HO. auto.
          * intros c Hc. rewrite (upd_maps _ 0 code_size) by (unfold code_size; lia). rewrite nth_maps by (unfold code_size; lia). destruct (Nat.eqb_spec c 0); [lia|]. unfold bcodes. rewrite D. unfold having. rewrite count_occ_repeat_neq by lia. reflexivity.
      - cbn [app]. now rewrite app_nil_r.
      - cbn [app]. now rewrite app_nil_r.
      - reflexivity.
      - cbn [length app] in F1. exists out. split; [|now apply (Forall2_seq (Q r) no_distribution) in F2]. unfold OF in F1 |- *. rewrite F1. reflexivity. }
    apply (map_out_ok _ _ (seq 0 n)) in RR as (out & R1 & R2). exists out. split; [exact R1|]. apply (Forall2_seq _ [] n 0) in R2 as (R2 & R3). split; [exact R2|]. intros r Hr. exact (R3 r Hr).
  Qed.
End Boundary.

(** the last number of the elements of a boundary region on a rank: the difference from [region_distribution_exact] *)
Definition two_ranks : list (list (list nat) * list bregion) :=
  [([[0]; [0; 1]]%nat, [{| b_dimension := true; b_codes := [1]%nat; b_nodes := [] |}; {| b_dimension := false; b_codes := []; b_nodes := [0; 1]%nat |}]);
   ([[0; 1]; [1]; [1]]%nat, [{| b_dimension := true; b_codes := [2; 1]%nat; b_nodes := [] |}; {| b_dimension := false; b_codes := []; b_nodes := [0; 1; 2]%nat |}])].
Theorem boundary_next_refuted : exists ty u ranks out r g, boundary_distribution ty u ranks = Ok out /\
  let d := nth g (nth r out []) no_distribution in i_next (process d) <> i_offset (process d) + i_size (process d).
Proof. exists (Signed 32), [], two_ranks. eexists. exists 1%nat, 0%nat. split; [vm_compute; reflexivity|]. vm_compute. discriminate. Qed.

(** ** MESIO *)
Lemma mesio_reads codes r ds region etype : distributes codes r (nth region ds no_distribution) -> (region < length ds)%nat -> (etype < 16)%nat ->
  mesio_region_counters ds region etype = Ok (sum_below (map (having etype) codes) r, sum_below (map (having etype) codes) (length codes)).
Proof.
  intros (L & C & _) Hr He. unfold mesio_region_counters, rd. rewrite (nth_error_nth' ds no_distribution Hr). cbn [obind]. rewrite (nth_error_nth' _ zero_info) by lia. cbn [obind]. destruct (C etype He) as (C1 & _ & C3). rewrite C1, C3, map_length. reflexivity.
Qed.

(** C133: MESIOElementsRegionCounters gives the number of elements of the given type in the given region on lower ranks and on all ranks;
    MESIOElementsCounters gives it for all elements *)
Theorem mesio_counters_exact ty N u u1 epointers regions G u2 ds : representable ty N -> harmless ty N u -> harmless ty N [u1] -> harmless ty N u2 ->
  (forall r c, In c (nth r epointers []) -> (c < 16)%nat) -> Z.of_nat (length (concat epointers)) <= N ->
  length regions = length epointers -> (forall r, (r < length epointers)%nat -> length (nth r regions []) = G) ->
  (forall r g e, In e (nth g (nth r regions []) []) -> (e < length (nth r epointers []))%nat) ->
  (forall g, Z.of_nat (length (concat (map (codes_of epointers regions g) (seq 0 (length epointers))))) <= N) ->
  element_distribution ty u u1 epointers = Ok ds ->
  exists out, region_distribution ty u2 (combine (combine (map (fun d => map i_total (code d)) ds) epointers) regions) = Ok out /\
  forall r c, (r < length epointers)%nat -> (c < 16)%nat ->
    (forall g, (g < G)%nat -> let amounts := map (fun q => having c (map (fun e => nth e (nth q epointers []) 0%nat) (nth g (nth q regions []) []))) (seq 0 (length epointers)) in
       mesio_region_counters (nth r out []) g c = Ok (sum_below amounts r, sum_below amounts (length epointers))) /\
    ((0 < G)%nat -> (forall q, (q < length epointers)%nat -> nth 0 (nth q regions []) [] = seq 0 (length (nth q epointers []))) ->
       mesio_counters (nth r out []) c = Ok (sum_below (map (having c) epointers) r, sum_below (map (having c) epointers) (length epointers))).
Proof.
  intros HN Hu Hu1 Hu2 Hc Ha Hl HG Hi Ht HD. destruct (region_distribution_exact ty N u u1 epointers HN Hu Hu1 Hc Ha regions G u2 Hu2 Hl HG Hi Ht ds HD) as (out & O1 & O2 & O3).
  exists out. split; [exact O1|]. intros r c Hr Hcc. destruct (O3 r Hr) as (L & O4).
  assert (A : forall g, (g < G)%nat -> mesio_region_counters (nth r out []) g c = Ok (sum_below (map (fun q => having c (codes_of epointers regions g q)) (seq 0 (length epointers))) r, sum_below (map (fun q => having c (codes_of epointers regions g q)) (seq 0 (length epointers))) (length epointers))).
  { intros g Hg. destruct (O4 g Hg) as (O5 & _). rewrite (mesio_reads _ _ _ _ _ O5) by (auto; lia). now rewrite map_map, map_length, seq_length. }
  split; [exact A|]. intros G0 H0. unfold mesio_counters. rewrite (A 0%nat G0).
  assert (E : map (fun q => having c (codes_of epointers regions 0 q)) (seq 0 (length epointers)) = map (having c) epointers).
  { transitivity (map (fun q => having c (nth q epointers [])) (seq 0 (length epointers))); [|rewrite <- map_map; f_equal; symmetry; apply as_map]. apply map_ext_in. intros q Hq. apply in_seq in Hq. unfold codes_of. rewrite H0 by lia. now rewrite <- as_map. }
  now rewrite E.
Qed.

(** C133: MESIOElements gives the first number, the number and the total number of elements *)
Theorem mesio_elements_exact ty N u u1 epointers : representable ty N -> harmless ty N u -> harmless ty N [u1] -> (forall r c, In c (nth r epointers []) -> (c < 16)%nat) -> Z.of_nat (length (concat epointers)) <= N ->
  exists ds, element_distribution ty u u1 epointers = Ok ds /\ forall r, (r < length epointers)%nat ->
    mesio_elements (nth r ds no_distribution) = (Z.of_nat (length (concat (firstn r epointers))), Z.of_nat (length (nth r epointers [])), Z.of_nat (length (concat epointers))).
Proof.
  intros HN Hu Hu1 Hc Ha. destruct (element_distribution_exact ty N u u1 epointers HN Hu Hu1 Hc Ha) as (ds & E1 & E2 & E3). exists ds. split; [exact E1|]. intros r Hr. destruct (E3 r Hr) as ((_ & _ & (P1 & P2 & P3)) & _). unfold mesio_elements. rewrite P1, P2, P3.
  assert (F : forall (l : list (list nat)) k, (k <= length l)%nat -> sum_below (map (fun x => Z.of_nat (length x)) l) k = Z.of_nat (length (concat (firstn k l)))).
  { induction l as [|x l IH]; intros [|k] Hk; cbn [length] in Hk; try lia; [reflexivity|now rewrite sum_below_0|]. cbn [map firstn concat]. rewrite sum_below_cons, IH, app_length by lia. lia. }
  rewrite map_length, !F by lia. rewrite firstn_all. rewrite (nth_indep _ 0 (Z.of_nat (length (@nil nat)))) by (rewrite map_length; auto). rewrite (map_nth (fun x => Z.of_nat (length x))). reflexivity.
Qed.

(** C133: the domains of the elements: element [e] has the number of the domain in which it lies *)
Theorem mesio_domains_exact offset elements : elements <> [] -> nth 0 elements 0%nat = 0%nat -> (forall i, (S i < length elements)%nat -> (nth i elements 0 <= nth (S i) elements 0)%nat) ->
  exists d, mesio_domains offset elements = Ok d /\ length d = nth (length elements - 1) elements 0%nat /\
  forall i e, (S i < length elements)%nat -> (nth i elements 0 <= e < nth (S i) elements 0)%nat -> nth e d 0 = offset + Z.of_nat i.
Proof.
  intros HE H0 HM. set (m := (length elements - 1)%nat). assert (LM : length elements = S m) by (destruct elements; [easy|cbn in *; lia]).
  assert (X : forall k, (k <= m)%nat -> exists d, foldM (fun d i => e <- rd elements i ;; Ok (resize e d (offset + Z.of_nat i - 1)))%out (seq 1 k) [] = Ok d /\ length d = nth k elements 0%nat /\
    forall i e, (i < k)%nat -> (nth i elements 0 <= e < nth (S i) elements 0)%nat -> nth e d 0 = offset + Z.of_nat i).
  { induction k as [|k IH]; intros Hk; [exists []; cbn; rewrite H0; split; [reflexivity|split; [reflexivity|intros; lia]]|]. destruct (IH ltac:(lia)) as (d & D1 & D2 & D3). rewrite seq_S, foldM_app, D1. cbn [obind foldM Nat.add]. unfold rd. rewrite (nth_error_nth' elements 0%nat) by lia. cbn [obind].
    pose proof (HM k ltac:(lia)) as Hle. eexists. split; [reflexivity|]. unfold resize. rewrite firstn_all2 by lia. split; [rewrite app_length, repeat_length; lia|]. intros i e Hi He. destruct (Nat.eq_dec i k) as [->|Ne].
    - rewrite app_nth2 by lia. rewrite (nth_indep _ 0 (offset + Z.of_nat (S k) - 1)) by (rewrite repeat_length; lia). rewrite nth_repeat. lia.
    - rewrite app_nth1; [apply D3; auto; lia|]. assert (Mo : forall j, (S i + j <= k)%nat -> (nth (S i) elements 0 <= nth (S i + j) elements 0)%nat). { induction j as [|j IHj]; intros Hj; [rewrite Nat.add_0_r; lia|]. specialize (IHj ltac:(lia)). pose proof (HM (S i + j)%nat ltac:(lia)). rewrite Nat.add_succ_r. lia. } specialize (Mo (k - S i)%nat ltac:(lia)). replace (S i + (k - S i))%nat with k in Mo by lia. lia. }
  unfold mesio_domains. destruct (X m (le_n _)) as (d & D1 & D2 & D3). exists d. split; [exact D1|]. split; [exact D2|]. intros i e Hi He. apply D3; auto. lia.
Qed.

(** ** Examples *)
Definition ex_epointers : list (list nat) := [[5; 5; 7]; []; [7; 5; 9; 9]]%nat.
Definition ex_regions : list (list (list nat)) := [[[0; 1; 2]; [1]]; [[]; []]; [[0; 1; 2; 3]; [0; 3]]]%nat.
Example ex_element_distribution : exists ds, element_distribution (Signed 32) (repeat 0 16) 0 ex_epointers = Ok ds /\
  map mesio_elements ds = [(0, 3, 7); (3, 0, 7); (3, 4, 7)] /\ map (fun d => nth 5 (code d) zero_info) ds = [{| i_offset := 0; i_size := 2; i_total := 3; i_next := 0 |}; {| i_offset := 2; i_size := 0; i_total := 3; i_next := 0 |}; {| i_offset := 2; i_size := 1; i_total := 3; i_next := 0 |}].
Proof. eexists. split; [vm_compute; reflexivity|]. vm_compute. auto. Qed.
Example ex_harmless : harmless (Signed 32) 100 (repeat 0 16).
Proof. intros c x Hx. assert (E : nth c (repeat 0 16) 0 = 0) by (do 17 (destruct c as [|c]; [reflexivity|]); reflexivity). rewrite E. cbn. lia. Qed.
Example ex_regions_hypotheses : (forall r c, In c (nth r ex_epointers []) -> (c < 16)%nat) /\ length ex_regions = length ex_epointers /\ (forall r, (r < 3)%nat -> length (nth r ex_regions []) = 2%nat) /\
  (forall r g e, In e (nth g (nth r ex_regions []) []) -> (e < length (nth r ex_epointers []))%nat) /\ forall q, (q < 3)%nat -> nth 0 (nth q ex_regions []) [] = seq 0 (length (nth q ex_epointers [])).
Proof.
  split; [|split; [reflexivity|split; [|split]]].
  - intros [|[|[|[|r]]]] c H; cbn in H; repeat destruct H as [<-|H]; try lia; try easy.
  - intros [|[|[|r]]] H; try reflexivity; lia.
  - intros [|[|[|[|r]]]] [|[|[|g]]] e H; cbn in H; repeat destruct H as [<-|H]; cbn; try lia; try easy.
  - intros [|[|[|r]]] H; try reflexivity; lia.
Qed.
Example ex_mesio : exists ds out, element_distribution (Signed 32) (repeat 0 16) 0 ex_epointers = Ok ds /\ region_distribution (Signed 32) (repeat 0 16) (combine (combine (map (fun d => map i_total (code d)) ds) ex_epointers) ex_regions) = Ok out /\
  map (fun d => mesio_counters d 9) out = [Ok (0, 2); Ok (0, 2); Ok (0, 2)] /\ map (fun d => mesio_region_counters d 1 7) out = [Ok (0, 1); Ok (0, 1); Ok (0, 1)] /\ map (fun d => mesio_region_counters d 1 9) out = [Ok (0, 1); Ok (0, 1); Ok (0, 1)].
Proof. do 2 eexists. split; [vm_compute; reflexivity|]. split; [vm_compute; reflexivity|]. vm_compute. auto. Qed.
Example ex_boundary : exists out, boundary_distribution (Signed 32) (repeat 0 16) two_ranks = Ok out /\
  map (map (fun d => (mesio_elements d, nth 0 (code d) zero_info))) out =
    [[((0, 1, 3), zero_info); ((0, 0, 0), {| i_offset := 0; i_size := 2; i_total := 4; i_next := 0 |})]; [((1, 2, 3), zero_info); ((0, 0, 0), {| i_offset := 2; i_size := 2; i_total := 4; i_next := 0 |})]].
Proof. eexists. split; [vm_compute; reflexivity|]. vm_compute. reflexivity. Qed.
Example ex_domains : mesio_domains 10 [0; 2; 3; 5]%nat = Ok [10; 10; 11; 12; 12].
Proof. reflexivity. Qed.

Print Assumptions element_distribution_exact.
Print Assumptions region_distribution_exact.
Print Assumptions boundary_distribution_exact.
Print Assumptions boundary_next_refuted.
Print Assumptions mesio_counters_exact.
Print Assumptions mesio_elements_exact.
Print Assumptions mesio_domains_exact.
