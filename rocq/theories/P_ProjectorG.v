(** * Properties of the matrices of the projector: C97 *)
From Coq Require Import List Arith ZArith Lia Bool Reals Lra.
From Verif Require Import Base M_Nb S_Nb M_Exchange P_Exchange M_Dual S_Dual L_Dual L_Dual2 L_Dual4 P_Dual M_DualGraph S_DualGraph L_DualGraph3 L_DualGraph4 P_DualGraph S_Equality L_Equality6 M_TotalFeti S_Feti L_TotalFeti L_TotalFeti2
  P_TotalFeti M_Projector S_Projector L_Projector2 L_Projector3 M_ProjectorG S_ProjectorG L_ProjectorG L_ProjectorG2 L_ProjectorG3.
Import ListNotations.
Local Open Scope out_scope.

Section G.
  Variables (n limit : nat) (first : nat -> nat) (L : list (list nat)) (nb cmap : nat -> list nat) (ksize : nat -> nat).
  Hypothesis HC : consistent n first L nb cmap.

  (** the update of a pattern *)
  Definition G_values len row Rk (r : nat) : gmatrix R := stored_G n first L ksize r (concat (map (line_vals first L len row Rk r) (kidx ksize (own first r ++ above n first L r)))).
  Lemma update_G_runs (g : nat -> smap vertex * smap (list nat)) vs len row Rk (old : nat -> list R) : entries_ok L len row ->
    (forall r, r < n -> vertices_set n first L nb ksize r (g r) (vs r)) -> (forall r, r < n -> length (old r) = list_sum (lens first L ksize r (own first r ++ above n first L r))) ->
    (forall r, r < n -> length (concat (G_stored first L len row ksize Rk r)) <= limit) ->
    ncompletes n (map (fun r => update_G 0%R Rminus Rmult limit (decomposed first nb r) (first_kernel first ksize (first r)) (vs r) (stored_G n first L ksize r (old r))
                                   (map (stored_rows first L row r) (own first r)) (R_stored first len ksize Rk r)) (seq 0 n)) (map (G_values len row Rk) (seq 0 n)) /\
    forall r, r < n -> G_ok n first L len row ksize Rk r (vs r) (G_values len row Rk r).
  Proof.
    intros HB HV0 HO Hlimit.
    set (vals := fun r => concat (map (line_vals first L len row Rk r) (kidx ksize (own first r)))).
    set (up := fun r => update_own 0%R Rminus Rmult (decomposed first nb r) (vs r) (stored_G n first L ksize r (old r)) (map (stored_rows first L row r) (own first r)) (R_stored first len ksize Rk r)).
    set (mid := fun r => match up r with Ok v => v | _ => [] end).
    assert (U : forall r, r < n -> up r = Ok (mid r) /\ exists rest, mid r = vals r ++ rest /\ length rest = list_sum (lens first L ksize r (above n first L r))).
    { intros r Hr. pose proof (HV0 r Hr) as HV.
      destruct (update_own_ok n first L nb ksize len row Rk HB r Hr (g r) (vs r) HV (old r) (HO r Hr)) as (rest & E1 & E2).
      assert (E3 : up r = Ok (vals r ++ rest)). { exact E1. } unfold mid. rewrite E3. eauto. }
    split.
    - erewrite (map_ext_in _ (fun r => nfin (update_finish (stored_G n first L ksize r (old r)) (mid r)) (exchange_unknown limit (map (message first L ksize len row Rk r) (nb r)) (repeat [] (length (nb r))) (nb r)))).
      2: { intros r Hr. apply in_seq in Hr. pose proof (HV0 r ltac:(lia)) as HV. destruct (U r ltac:(lia)) as (E1 & rest & E2 & E3). unfold update_G. fold (up r). rewrite E1. rewrite E2 at 1.
           pose proof (send_G_ok n first L nb cmap ksize len row Rk HC r ltac:(lia) (g r) (vs r) HV rest) as SG. cbn [g_rows stored_G] in SG |- *. unfold vals. rewrite SG. reflexivity. }
      apply (nfin_completes n (fun r => update_finish (stored_G n first L ksize r (old r)) (mid r))) with (P := fun r => exchange_unknown limit (map (message first L ksize len row Rk r) (nb r)) (repeat [] (length (nb r))) (nb r))
        (R := fun r => Some (map (fun q => message first L ksize len row Rk q r) (nb r))).
      + apply (exchange_unknown_delivers n limit nb (c_neighbours _ _ _ _ _ HC) (message first L ksize len row Rk) (fun r => repeat [] (length (nb r)))).
        * intros i j Hi Hj. specialize (Hlimit i Hi). unfold message. destruct (j <? i); [|cbn; lia]. etransitivity; [|exact Hlimit].
          assert (Q : forall l, incl l (kidx ksize (own first i)) -> length (flat_map (fun dk => map (G len row Rk (fst dk) (snd dk)) (map snd (multipliers_of first L j (fst dk)))) l) <= length (concat (map (fun dk => G_line first L len row Rk i (fst dk) (snd dk)) l))).
          { induction l as [|(d, k) l IH]; intros HI; [cbn; lia|]. cbn [flat_map map concat fst snd]. rewrite !app_length. specialize (IH ltac:(intros x Hx; apply HI; right; auto)).
            assert (Id : In d (own first i)) by (specialize (HI (d, k) (or_introl eq_refl)); apply (kidx_in ksize) in HI; tauto).
            rewrite <- (mults_common first L j i d Id). assert (LG : length (G_line first L len row Rk i d k) = length (multipliers_of first L i d)) by (unfold G_line; rewrite map_length; reflexivity). rewrite LG, map_length. assert (FL : forall p (l : list nat), length (filter p l) <= length l) by (clear; induction l; cbn; [lia|destruct (p a); cbn; lia]).
            specialize (FL (fun m => touches first j (domains L m)) (map snd (multipliers_of first L i d))). rewrite map_length in FL. apply Nat.add_le_mono; [exact FL|exact IH]. }
          specialize (Q (kidx ksize (own first i)) (incl_refl _)). unfold G_stored. etransitivity; [exact Q|]. apply Nat.eq_le_incl. do 2 f_equal. unfold kidx. rewrite flat_map_map. apply flat_map_ext. intros d. rewrite map_map. reflexivity.
        * intros i Hi. apply repeat_length.
      + intros r Hr. destruct (U r Hr) as (E1 & rest & E2 & E3). rewrite E2.
        apply (finish_G n first L nb cmap ksize len row Rk HC r Hr (old r) rest E3).
    - intros r Hr. pose proof (HV0 r Hr) as HV. apply (stored_G_ok n first L nb cmap ksize len row Rk HC r Hr (g r) (vs r) HV).
  Qed.

  (** C97: the pattern of G and Gt is made once from the graph of domains, which stays as it is.  Whatever values are in the matrices, with any entries [row] of the
      multipliers and any kernels [Rk] every execution of the update ends; G has the rows - R B^T of the own kernels, Gt has also the rows of
      the kernels of the domains of higher ranks that are glued to the own domains, restricted to the multipliers of the rank *)
  Theorem projector_G_exact (g : nat -> smap vertex * smap (list nat)) (alloc : nat -> nat -> nat -> list nat * list nat * list R) :
    (forall r, r < n -> graph_ok n first L nb ksize r (g r)) ->
    (forall r nr nz, let '(rows, cols, vals) := alloc r nr nz in length rows = nr + 1 /\ length cols = nz /\ length vals = nz) ->
    exists vs M0, (forall r, r < n -> set_G (alloc r) (decomposed first nb r) (fst (g r)) = Ok (vs r, M0 r)) /\
    (forall r, r < n -> graph_ok n first L nb ksize r (vs r, snd (g r)) /\ g_nrows (M0 r) = length (kernel_vector ksize (own first r) (fun _ _ => 0%R))) /\
    forall len row Rk old, entries_ok L len row -> (forall r, r < n -> length (old r) = length (g_vals (M0 r))) ->
    (forall r, r < n -> length (concat (G_stored first L len row ksize Rk r)) <= limit) ->
    exists M, ncompletes n (map (fun r => update_G 0%R Rminus Rmult limit (decomposed first nb r) (first_kernel first ksize (first r)) (vs r) (with_vals (M0 r) (old r))
                                   (map (stored_rows first L row r) (own first r)) (R_stored first len ksize Rk r)) (seq 0 n)) (map M (seq 0 n)) /\
    forall r, r < n -> G_ok n first L len row ksize Rk r (vs r) (M r).
  Proof.
    intros HG HA.
    set (vs := fun r => match set_G (alloc r) (decomposed first nb r) (fst (g r)) with Ok (vs, _) => vs | _ => [] end).
    set (M0 := fun r => match set_G (alloc r) (decomposed first nb r) (fst (g r)) with Ok (_, M) => M | _ => stored_G n first L ksize r [] end).
    assert (S0 : forall r, r < n -> set_G (alloc r) (decomposed first nb r) (fst (g r)) = Ok (vs r, M0 r) /\ vertices_set n first L nb ksize r (g r) (vs r) /\
      exists vals, M0 r = stored_G n first L ksize r vals /\ length vals = list_sum (lens first L ksize r (own first r ++ above n first L r))).
    { intros r Hr. destruct (set_G_ok n first L nb cmap ksize HC r Hr (alloc r) (g r) (HG r Hr) (HA r)) as (v & vals & E & HL & HV). unfold vs, M0. rewrite E. eauto. }
    exists vs, M0. split; [intros r Hr; apply S0, Hr|]. split.
    { intros r Hr. destruct (S0 r Hr) as (E & HV & v & EM & _). split; [now apply (set_graph_ok n first L nb ksize r (g r)); auto|]. rewrite EM, kernel_vector_length. reflexivity. }
    intros len row Rk old HB HO Hlimit. exists (G_values len row Rk).
    rewrite (map_ext_in _ (fun r => update_G 0%R Rminus Rmult limit (decomposed first nb r) (first_kernel first ksize (first r)) (vs r) (stored_G n first L ksize r (old r)) (map (stored_rows first L row r) (own first r)) (R_stored first len ksize Rk r))).
    2: { intros r Hr. apply in_seq in Hr. destruct (S0 r ltac:(lia)) as (E & HV & v & EM & Lv). rewrite EM. reflexivity. }
    apply (update_G_runs g); auto.
    - intros r Hr. apply (S0 r Hr).
    - intros r Hr. rewrite HO by auto. destruct (S0 r Hr) as (E & HV & v & EM & Lv). rewrite EM. exact Lv.
  Qed.
End G.

(** ** A case: the graph of P_DualGraph with the entries of P_TotalFeti *)
Definition pg_R (d k j : nat) : R := INR (d + k + j).
Definition pg_alloc (r nr nz : nat) : list nat * list nat * list R := (repeat 7 (nr + 1), repeat 8 nz, repeat 9%R nz).
Example projector_G_ex : exists g vs M0 M, ncompletes 3 (map ex_graph (seq 0 3)) (map g (seq 0 3)) /\ (forall r, r < 3 -> set_G (pg_alloc r) (decomposed ex_first ex_nbs r) (fst (g r)) = Ok (vs r, M0 r)) /\
  ncompletes 3 (map (fun r => update_G 0%R Rminus Rmult 20 (decomposed ex_first ex_nbs r) (nth r [0; 3; 6] 0) (vs r) (with_vals (M0 r) (g_vals (M0 r)))
    (map (stored_rows ex_first ex_L tf_row r) (own ex_first r)) (R_stored ex_first (fun _ => 3) ex_ksize pg_R r)) (seq 0 3)) (map M (seq 0 3)) /\
  forall r, r < 3 -> G_ok 3 ex_first ex_L (fun _ => 3) tf_row ex_ksize pg_R r (vs r) (M r).
Proof.
  destruct dual_graph_ex as (g & G1 & G2). destruct (projector_G_exact 3 20 ex_first ex_L ex_nbs ex_cmap ex_ksize ex_consistent g pg_alloc G2) as (vs & M0 & S1 & _ & S2).
  - intros r nr nz. cbn. rewrite !repeat_length. auto.
  - destruct (S2 (fun _ => 3) tf_row pg_R (fun r => g_vals (M0 r)) (proj1 tf_entries) (fun _ _ => eq_refl)) as (M & U1 & U2).
    + intros r H. cases_lt r H; cbn; lia.
    + exists g, vs, M0, M. repeat split; auto; try apply G1; try apply U1; apply U2; auto.
Qed.
(** rank 1 (domain 2 with three kernels) has also the rows of the only kernel of domain 4, with the multiplier it shares *)
Example projector_G_meaning : in_Gt 3 ex_first ex_L 1 = [2; 3; 4] /\ map (map fst) (Gt_stored 3 ex_first ex_L (fun _ => 3) tf_row ex_ksize pg_R 1) = [[0; 1; 2; 3]; [0; 1; 2; 3]; [0; 1; 2; 3]; [3]].
Proof. split; reflexivity. Qed.

Print Assumptions projector_G_exact.
