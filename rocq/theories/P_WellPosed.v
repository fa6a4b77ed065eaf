(** * Properties of the whole Total FETI solution with the set-up of the projector: C131 *)
From Coq Require Import List Arith ZArith Bool Permutation Sorted Reals Lia Lra.
From Verif Require Import Base S_Order M_Nb S_Nb S_Comm M_Exchange M_Mpi M_Distribute M_Scan S_Scan M_Dual S_Dual P_Dual S_Equality M_Equality L_Equality4 L_Equality6 L_Equality7 P_Equality M_TotalFeti S_Feti L_TotalFeti L_TotalFeti2 P_TotalFeti L_Sort.
From Verif Require Import M_Projector S_Projector L_Projector L_Projector2 L_Projector3 M_ProjectorRanks S_ProjectorRanks P_Projector M_Reconstruct S_Reconstruct P_Reconstruct.
From Verif Require Import M_Precond S_Precond P_Precond M_DualVector M_Mprgp M_SolverInfo S_Mprgp M_PcpgRanks S_PcpgRanks L_PcpgRanks L_PcpgRanks2 P_PcpgRanks M_Assembled S_Assembled L_Assembled P_Assembled S_WellPosed L_WellPosed.
From Verif Require M_Pcpg S_Pcpg M_ProjectorUpdate S_ProjectorUpdate P_ProjectorUpdate S_ProjectorInverse S_DualGraph P_DualGraph S_ProjectorGGt.
Import ListNotations.
Local Open Scope R_scope.

Section WellPosed.
  (* the mesh, the constraints and the kernels *)
  Variables (n limit : nat) (first : nat -> nat) (N : nat) (copies : nat -> list nat) (fixed : nat -> bool) (index : nat -> nat -> nat -> nat).
  Hypothesis M : mesh n first N copies.
  Variable nb : nat -> list nat.
  Variable glued : list (nat * nat).
  Hypothesis Hg : ordered N copies fixed glued.
  Variable sort : (nat * nat -> nat * nat -> bool) -> list (nat * nat) -> list (nat * nat).
  Hypothesis Hsort : forall lt, strict_weak_order lt -> sort_contract lt (sort lt).
  Variables (ix : nat -> nat -> nat) (len : nat -> nat).
  Hypothesis HN : numbered N copies ix len.
  Hypothesis HC : covered n first N copies ix len.
  Hypothesis Hix : forall r d g, (r < n)%nat -> In d (own_domains first r) -> (g < N)%nat -> In d (copies g) -> index r d g = ix d g.
  Local Notation ms := (multipliers n first N copies fixed glued).
  Local Notation L := (map (domains_of copies) ms).
  Local Notation row := (equality_row n first N copies fixed glued ix).
  Local Notation all := (everything n first).
  Local Notation own := (own first).
  Variable E : nat -> constraints R.
  Hypothesis HE : forall r, (r < n)%nat ->
    equality_set 0 1 low diag sort (decomposed first nb r) (dmap_of first N copies index r) (fixed_of first N copies fixed r) = Ok (E r).
  Local Notation F := (fun r => feti_of (E r) (map len (own r))).
  Hypothesis Hn : (0 < n)%nat.
  Hypothesis Hnb : neighbourhood n nb.
  Hypothesis Hme : forall r, (r < n)%nat -> ~ In r (nb r).
  Hypothesis Hsh : knows_sharing n first L nb.
  Variables (ksize : nat -> nat) (Rk : nat -> nat -> nat -> R) (K kplus : nat -> nat -> nat -> R).
  Hypothesis HK : semidefinite n first len K.
  Hypothesis HR : kernels_of n first len ksize Rk K.
  Hypothesis HR' : spans_kernel n first len ksize Rk K.
  Hypothesis HRi : kernels_independent n first len ksize Rk.
  Hypothesis HW : well_posed N copies fixed ix K.
  Variables (f : nat -> nat -> R) (value : nat -> R).

  (** C131: the coarse problem is regular *)
  Theorem coarse_problem_regular : S_ProjectorInverse.independent n first L len row ksize Rk.
  Proof. exact (G_independent n first N copies fixed M glued Hg ix len HN K ksize Rk HC HR HRi HW). Qed.

  (* the projector *)
  Definition system : S_ProjectorUpdate.problem :=
    {| S_ProjectorUpdate.p_L := L; S_ProjectorUpdate.p_cmap := fun r => e_cmap (E r); S_ProjectorUpdate.p_ksize := ksize; S_ProjectorUpdate.p_len := len; S_ProjectorUpdate.p_row := row;
       S_ProjectorUpdate.p_Rk := Rk; S_ProjectorUpdate.p_f := f |}.
  Variables (chunk nthreads : nat) (sortG : list nat -> list nat) (u1 u2 u3 : Z) (allocG allocGGt : nat -> nat -> nat -> list nat * list nat * list R) (fresh : nat -> nat -> list R).
  Variables (csolve cforward cbackward : list nat -> list nat -> list R -> list R -> list R).
  Hypothesis Hc : (0 < chunk)%nat.
  Hypothesis Ht : (0 < nthreads)%nat.
  Hypothesis HsG : sort_contract Nat.ltb sortG.
  Hypothesis HaG : forall r nr nz, let '(rows, cols, vals) := allocG r nr nz in length rows = (nr + 1)%nat /\ length cols = nz /\ length vals = nz.
  Hypothesis HaGGt : forall r nr nz, let '(rows, cols, vals) := allocGGt r nr nz in length rows = (nr + 1)%nat /\ length cols = nz /\ length vals = nz.
  Hypothesis Hf : forall r k, length (fresh r k) = k.
  (* sizes in the range of int, messages not too long, the direct solver of the coarse problem *)
  Hypothesis Hlimit : forall r q, (r < n)%nat -> In q (nb r) -> (length (common first L r q) <= limit)%nat.
  Hypothesis Hlimit3 : forall r, (r < n)%nat -> (3 * (first (r + 1) - first r) <= limit)%nat.
  Hypothesis HlimitG : forall r, (r < n)%nat -> (length (concat (G_stored first L len row ksize Rk r)) <= limit)%nat.
  Hypothesis Hkernels : (Z.of_nat (S_DualGraph.first_kernel first ksize (first n)) < 2 ^ 31)%Z.
  Hypothesis Hnonzeros : (Z.of_nat (length (S_ProjectorGGt.upper_pairs n first L ksize)) < 2 ^ 31 - 1)%Z.
  Hypothesis Hexscan : (1 < n)%nat -> defined_sum (Signed 32) u1 (Z.of_nat (list_sum (map ksize (own 0)))) /\ defined_sum (Signed 32) u2 (Z.of_nat (list_sum (map ksize (own 0)))).
  Hypothesis Hcoarse : let k := length (S_ProjectorGGt.kernel_list n first ksize) in let A := S_ProjectorGGt.GGt_of n first L len row ksize Rk in
    forall rows cols vals, S_ProjectorGGt.upper_csr k A rows cols vals -> S_ProjectorInverse.solves k A (csolve rows cols vals) /\ S_ProjectorInverse.factorizes k A (cforward rows cols vals) (cbackward rows cols vals).
  Local Notation update := (M_ProjectorUpdate.run_update 0 1 Rplus Rminus Rmult Ropp sortG n limit chunk nthreads (decomposed first nb) u1 u2 u3 allocG allocGGt fresh csolve cforward cbackward).

  Lemma system_posed : S_ProjectorUpdate.posed n limit first nb u1 u2 csolve cforward cbackward system.
  Proof.
    split; cbn [system S_ProjectorUpdate.p_L S_ProjectorUpdate.p_cmap S_ProjectorUpdate.p_ksize S_ProjectorUpdate.p_len S_ProjectorUpdate.p_row S_ProjectorUpdate.p_Rk]; try assumption.
    - exact (constraints_consistent 0 1 low diag n first N copies fixed index M nb glued Hg sort Hsort E HE Hnb Hme Hsh).
    - exact (multiplier_nodup n first N copies fixed M glued Hg).
    - exact (proj1 (equality_rows_ok n first N copies fixed M glued Hg ix len HN)).
    - exact coarse_problem_regular.
  Qed.

  (** C131: what the projector gets on every rank are the matrices of the constraints *)
  Theorem system_input r : (r < n)%nat -> S_ProjectorUpdate.input_of first system r =
    {| M_ProjectorUpdate.in_R1 := R_stored first len ksize Rk r; M_ProjectorUpdate.in_B1 := B1 (F r); M_ProjectorUpdate.in_lambdas := e_size (E r); M_ProjectorUpdate.in_cmap := e_cmap (E r);
       M_ProjectorUpdate.in_f := map (dense len f) (own r) |}.
  Proof.
    intros Hr. unfold S_ProjectorUpdate.input_of, system. cbn [S_ProjectorUpdate.p_L S_ProjectorUpdate.p_cmap S_ProjectorUpdate.p_ksize S_ProjectorUpdate.p_len S_ProjectorUpdate.p_row S_ProjectorUpdate.p_Rk S_ProjectorUpdate.p_f].
    pose proof (feti_stored n first N copies fixed index M nb glued Hg sort Hsort ix len Hix E HE r Hr) as Q. f_equal; [exact (eq_sym (f_equal (@B1 R) Q))|exact (eq_sym (f_equal (@lambdas R) Q))].
  Qed.

  (** C131: constraints, projector and PCPG together: the update of a new projector ends on all ranks; with its result PCPG and the
      reconstruction end, and unless a stopping criterion was met before, the vectors of the domains are the restrictions of the only solution
      of the assembled problem *)
  Theorem total_feti_well_posed type s0 : (first 0 < first n)%nat -> type = GGT \/ type = LU ->
    (forall r, (r < n)%nat -> M_ProjectorUpdate.s_sizes (s0 r) = [] /\ M_ProjectorUpdate.s_dist (s0 r) = [0; 0]%nat /\ M_ProjectorUpdate.s_type (s0 r) = type) ->
    exists (s : nat -> M_ProjectorUpdate.pstate R) type', update true (S_ProjectorUpdate.input_of first system) s0 s /\ (forall r, (r < n)%nat -> M_ProjectorUpdate.s_type (s r) = type') /\
    forall dm send recv mid,
      (forall r, (r < n)%nat -> dual_map_set (decomposed first nb r) (e_size (E r)) [e_interval (E r)] (e_cmap (E r)) = Ok (dm r)) ->
      (forall r, (r < n)%nat -> buffers (dm r) (send r)) -> (forall r, (r < n)%nat -> buffers (dm r) (recv r)) -> (forall r, (r < n)%nat -> length (mid r : list R) = kernels ksize all) ->
    let p := fun r => S_ProjectorUpdate.projector_of nthreads (s r) (R_stored first len ksize Rk r) (decomposed first nb r) (dm r) (send r) (recv r) (mid r) in
    forall h isnan infinity (C : config (exact h)) cs arrFx arrL arrW arrY solve Sg (runS : (nat -> list R) -> (nat -> list R) -> Prop) arrE arrRa,
      (forall r, (r < n)%nat -> equality_update 0 (decomposed first nb r) (E r) (dmap_of first N copies index r) (dirichlet_of first N copies fixed value r) = Ok (cs r)) ->
      (forall r, (r < n)%nat -> length (arrFx r) = e_size (E r)) -> (forall r, (r < n)%nat -> length (arrL r) = e_size (E r)) -> (forall r, (r < n)%nat -> length (arrW r) = e_size (E r)) -> (forall r, (r < n)%nat -> length (arrY r) = e_size (E r)) ->
      generalized_inverse n first len ksize Rk K kplus -> (forall d i j, In d all -> (i < len d)%nat -> (j < len d)%nat -> kplus d i j = kplus d j i) ->
      (forall r, (r < n)%nat -> solves first len kplus r (solve r)) ->
      is_preconditioner n first L len row K Sg -> (forall z, runS (S_Feti.dual first L z) (S_Feti.dual first L (Sg z))) ->
      (forall r, (r < n)%nat -> length (arrE r) = kernels ksize all) -> (forall r, (r < n)%nat -> map (@length R) (arrRa r) = map len (own r)) ->
      (0 < max_stagnation (exact h) C)%nat -> (0 < print_iteration (exact h) C)%nat ->
    exists k t u btl, (k <= length ms)%nat /\
      run_solve (exact h) isnan infinity S_Pcpg.quotient C n limit type' p F solve runS arrFx arrL arrW arrY arrE arrRa k (fun r => map (dense len f) (own r)) cs t (fun r => map (dense len u) (own r)) btl /\
      (converged (exact h) (pstatus (exact h) t) = true \/
       exists U, restricts N copies ix U u /\ solves_assembled N copies fixed ix K f value U /\ forall U', solves_assembled N copies fixed ix K f value U' -> same_values N copies U U').
  Proof.
    intros HD HT H0. destruct (P_ProjectorUpdate.projector_updates_exact n limit chunk nthreads first nb sortG u1 u2 u3 allocG allocGGt fresh csolve cforward cbackward Hn Hc Ht HsG Hlimit3 HaG HaGGt Hf type s0 system [] HD HT H0 system_posed (Forall_nil _) I) as (s & S1 & (J & type' & HJ & S2) & _).
    exists s, type'. split; [exact S1|]. split; [intros r Hr; now apply S2|]. intros dm send recv mid D1 D2 D3 D4 p h isnan infinity C cs arrFx arrL arrW arrY solve Sg runS arrE arrRa Hcs A1 A2 A3 A4 HG Hsym Hsolve HS HrunS LE LRa M0 P0.
    assert (HP : forall r, (r < n)%nat -> keeps n first L nb (fun r => e_cmap (E r)) (fun r => e_size (E r)) (fun r => [e_interval (E r)]) [length L] len row ksize Rk J type' r (p r)).
    { intros r Hr. destruct (S2 r Hr) as (_ & _ & Q).
      destruct (constraints_set 0 1 low diag n first N copies fixed index M nb glued Hg sort Hsort r Hr) as (E' & E1 & _ & _ & E4 & _). rewrite HE in E1 by exact Hr. injection E1 as <-.
      exact (Q (fun r => e_size (E r)) (fun r => [e_interval (E r)]) [length L] (dm r) (send r) (recv r) (mid r) (D1 r Hr) E4 (D2 r Hr) (D3 r Hr) (D4 r Hr)). }
    destruct (total_feti_assembled n limit first N copies fixed index M nb glued Hg sort Hsort ix len HN Hix E HE value cs Hcs Hn Hnb Hme Hsh Hlimit h isnan infinity C ksize Rk J type' p HP arrFx arrL arrW arrY A1 A2 A3 A4 K kplus solve Hsolve HK HR HR' HG Hsym HJ Sg runS HS HrunS f arrE arrRa LE LRa HC M0 P0)
      as (k & t & u & btl & T1 & T2 & _ & T4). exists k, t, u, btl. split; [exact T1|]. split; [exact T2|]. destruct T4 as [T4|(U & U1 & U2)]; [now left|right]. exists U. split; [exact U1|]. split; [exact U2|]. intros U' HU. now apply (assembled_unique N copies fixed ix K f value U U' HW).
  Qed.
End WellPosed.

(** ** A case: the mesh and the matrices of P_Assembled *)
Local Notation as_ms := (multipliers 2 eq_first 4 eq_copies eq_fixed eq_glued).
Local Notation as_L := (map (domains_of eq_copies) as_ms).
Local Notation as_row := (equality_row 2 eq_first 4 eq_copies eq_fixed eq_glued eq_ix).
Local Notation wp_A := (S_ProjectorGGt.GGt_of 2 eq_first as_L as_len as_row as_ksize as_R).
Lemma as_well_posed : well_posed 4 eq_copies eq_fixed eq_ix as_K.
Proof.
  intros U (H1 & H2). pose proof (H1 0%nat ltac:(lia) eq_refl) as A0. pose proof (H1 1%nat ltac:(lia) eq_refl) as A1. pose proof (H1 2%nat ltac:(lia) eq_refl) as A2. pose proof (H2 3%nat ltac:(lia) eq_refl) as A3.
  unfold assembled_matrix, assembled_load, as_K, Sum in A0, A1, A2. cbn in A0, A1, A2. intros g Hg _. destruct g as [|[|[|[|g]]]]; lra || lia.
Qed.
Lemma as_kernels_independent : kernels_independent 2 eq_first as_len as_ksize as_R.
Proof. intros d a _ H k Hk. specialize (H 0%nat ltac:(unfold as_len; lia)). unfold as_ksize, as_R in *. destruct (d =? 1)%nat; [|lia]. unfold Sum in H. cbn in H. destruct k; [lra|lia]. Qed.
Definition wp_solve (rows cols : list nat) (vals b : list R) : list R := [nth 0 b 0 * (6 / 13)].
Definition wp_factor : nat -> nat -> R := fun _ _ => R_sqrt.sqrt (6 / 13).
Definition wp_half (rows cols : list nat) (vals b : list R) : list R := S_ProjectorInverse.mat_vec 1 wp_factor b.
Lemma wp_element : wp_A 0%nat 0%nat = 13 / 6.
Proof.
  unfold S_ProjectorGGt.GGt_of, S_ProjectorGGt.on_kernels. cbn [S_ProjectorGGt.kernel_list]. change (nth 0 (S_ProjectorGGt.kernel_list 2 eq_first as_ksize) (0, 0)%nat) with (1, 0)%nat. cbn [fst snd].
  pose proof (as_inverts (fun _ _ => 1) 1%nat 0%nat ltac:(cbn; auto) ltac:(cbn; lia)) as (Q & _). cbn [inverse_of] in Q. unfold kernel_product in Q. change (everything 2 eq_first) with [0; 1; 2]%nat in Q.
  assert (S : forall f : nat -> nat -> R, Sum [0; 1; 2]%nat (fun d' => Sum (seq 0 (as_ksize d')) (fun k' => f d' k')) = f 1%nat 0%nat) by (intros f; unfold Sum; cbn; lra). rewrite !S in Q. rewrite ?S in Q. unfold as_inverse in Q.
  set (g := GGt as_L as_len as_row as_R 1 0 1 0) in *. lra.
Qed.
(** all hypotheses hold, without a preconditioner: for any loads and any value of the fixed DOF there is one solution of the assembled problem, and the program ends with it or with a stopping criterion *)
Example as_well_posed_solution (f : nat -> nat -> R) (value : nat -> R) type : type = GGT \/ type = LU ->
  exists s type' k t u btl, M_ProjectorUpdate.run_update 0 1 Rplus Rminus Rmult Ropp P_DualGraph.isort 2 8 8 3 (decomposed eq_first eq_nb) 77 78 79 P_ProjectorUpdate.pu_alloc P_ProjectorUpdate.pu_alloc (fun r k => repeat 9 k) wp_solve wp_half wp_half
      true (S_ProjectorUpdate.input_of eq_first (system 2 eq_first 4 eq_copies eq_fixed eq_glued eq_ix as_len eq_E as_ksize as_R f)) (P_ProjectorUpdate.pu_new type) s /\ (k <= 6)%nat /\
  run_solve (exact 1000) (fun _ => false) 1000 S_Pcpg.quotient tr_config 2 8 type' (fun r => S_ProjectorUpdate.projector_of 3 (s r) (R_stored eq_first as_len as_ksize as_R r) (decomposed eq_first eq_nb r) (as_map r) (as_buf r) (as_buf r) [9])
    (fun r => feti_of (eq_E r) (map as_len (own eq_first r))) (as_solve as_kplus) (run_empty 2) as_arr as_arr as_arr as_arr (fun _ => [0]) (fun r => map (fun _ => repeat 5 3) (own eq_first r))
    k (fun r => map (dense as_len f) (own eq_first r)) (as_gaps value) t (fun r => map (dense as_len u) (own eq_first r)) btl /\
  (converged (exact 1000) (pstatus (exact 1000) t) = true \/ exists U, restricts 4 eq_copies eq_ix U u /\ solves_assembled 4 eq_copies eq_fixed eq_ix as_K f value U /\
     forall U', solves_assembled 4 eq_copies eq_fixed eq_ix as_K f value U' -> same_values 4 eq_copies U U').
Proof.
  intros HT. assert (La : forall r, (r < 2)%nat -> length (as_arr r) = e_size (eq_E r)) by (intros; apply repeat_length). destruct products_hyps as (H1 & H2 & H3).
  assert (Hcs : forall r, (r < 2)%nat -> equality_update 0 (decomposed eq_first eq_nb r) (eq_E r) (dmap_of eq_first 4 eq_copies eq_index r) (dirichlet_of eq_first 4 eq_copies eq_fixed value r) = Ok (as_gaps value r)).
  { intros r Hr. unfold as_gaps. now rewrite (constraints_update 0 1 low diag 2 eq_first 4 eq_copies eq_fixed eq_index eq_mesh eq_nb eq_glued eq_ordered isort eq_sort eq_E eq_E_ok value r Hr). }
  assert (AL : forall r nr nz, let '(rows, cols, vals) := P_ProjectorUpdate.pu_alloc r nr nz in (length rows = nr + 1 /\ length cols = nz /\ length vals = nz)%nat) by (intros; cbn; rewrite !repeat_length; auto).
  assert (L1 : forall b : list R, length b = 1%nat -> b = [nth 0 b 0]) by (intros [|x [|y b]]; try discriminate; reflexivity).
  assert (X1 : forall r q, (r < 2)%nat -> In q (eq_nb r) -> (length (common eq_first as_L r q) <= 8)%nat) by (intros r q Hr I; destruct r as [|[|r]]; [| |lia]; destruct I as [<-|[]]; cbn; lia).
  assert (X2 : forall r, (r < 2)%nat -> (3 * (eq_first (r + 1) - eq_first r) <= 8)%nat) by (intros r Hr; destruct r as [|[|r]]; [| |lia]; cbn; lia).
  assert (X3 : forall r, (r < 2)%nat -> (length (concat (G_stored eq_first as_L as_len as_row as_ksize as_R r)) <= 8)%nat) by (intros r Hr; destruct r as [|[|r]]; [| |lia]; cbn; lia).
  assert (X4 : forall rows cols vals, S_ProjectorGGt.upper_csr 1 wp_A rows cols vals -> S_ProjectorInverse.solves 1 wp_A (wp_solve rows cols vals) /\ S_ProjectorInverse.factorizes 1 wp_A (wp_half rows cols vals) (wp_half rows cols vals)).
  { intros rows cols vals _. split; intros _ _.
    - intros b Hb. split; [reflexivity|]. transitivity [nth 0 b 0]; [|symmetry; auto]. unfold S_ProjectorInverse.mat_vec, wp_solve, Sum. cbn [seq map fold_right nth]. rewrite wp_element. f_equal. lra.
    - exists wp_factor. intros b Hb. split; [reflexivity|]. split; [reflexivity|]. transitivity [nth 0 b 0]; [|symmetry; auto]. unfold S_ProjectorInverse.mat_vec, Sum, S_ProjectorInverse.transpose, wp_factor. cbn [seq map fold_right nth]. rewrite wp_element. f_equal.
      pose proof (sqrt_sqrt (6 / 13) ltac:(lra)) as S2. transitivity (13 / 6 * (R_sqrt.sqrt (6 / 13) * R_sqrt.sqrt (6 / 13)) * nth 0 b 0); [field|rewrite S2; lra]. }
  destruct (total_feti_well_posed 2 8 eq_first 4 eq_copies eq_fixed eq_index eq_mesh eq_nb eq_glued eq_ordered isort eq_sort eq_ix as_len eq_numbered as_covered eq_index_own eq_E eq_E_ok ltac:(lia) H1 H2 H3 as_ksize as_R as_K as_kplus
    as_semidefinite as_kernels as_spans as_kernels_independent as_well_posed f value 8 3 P_DualGraph.isort 77 78 79 P_ProjectorUpdate.pu_alloc P_ProjectorUpdate.pu_alloc (fun r k => repeat 9 k) wp_solve wp_half wp_half ltac:(lia) ltac:(lia) P_DualGraph.isort_contract AL AL (fun r k => repeat_length _ _) X1 X2 X3)
    with (type := type) (s0 := P_ProjectorUpdate.pu_new type) as (s & type' & S1 & _ & S2).
  - cbn. lia.
  - vm_compute. reflexivity.
  - intros _. cbn. lia.
  - exact X4.
  - cbn. lia.
  - exact HT.
  - intros r _. repeat split.
  - destruct (S2 as_map as_buf as_buf (fun _ => [9]) as_map_ok (fun r _ => as_buffers r) (fun r _ => as_buffers r) (fun r _ => eq_refl) 1000 (fun _ => false) 1000 tr_config (as_gaps value) as_arr as_arr as_arr as_arr (as_solve as_kplus) (fun x => x) (run_empty 2)
      (fun _ => [0]) (fun r => map (fun _ => repeat 5 3) (own eq_first r)) Hcs La La La La as_generalized) as (k & t & u & btl & T1 & T2 & T3).
    + intros d i j _ _ _. unfold as_kplus. rewrite (Nat.eqb_sym j i). reflexivity.
    + intros r _. apply as_solves.
    + left. reflexivity.
    + intros z. apply empty_runs.
    + reflexivity.
    + intros r _. rewrite !map_map. reflexivity.
    + cbn. lia.
    + cbn. lia.
    + exists s, type', k, t, u, btl. auto.
Qed.

Print Assumptions coarse_problem_regular.
Print Assumptions system_input.
Print Assumptions total_feti_well_posed.
