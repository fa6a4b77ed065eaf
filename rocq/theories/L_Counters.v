(** * Lemmas about the numbers of elements *)
From Coq Require Import List Arith ZArith Bool Lia.
From Verif Require Import Base M_Utils M_Distribute M_Exchange M_Scan S_Scan P_Scan L_Sd L_Utils M_Counters S_Counters.
Import ListNotations.
Local Open Scope Z_scope.

Lemma as_map {A} (l : list A) d : l = map (fun i => nth i l d) (seq 0 (length l)).
Proof. induction l as [|a l IH]; auto. cbn [length seq map nth]. f_equal. rewrite <- seq_shift, map_map. exact IH. Qed.
Lemma as_map_n {A} (l : list A) d n : length l = n -> l = map (fun i => nth i l d) (seq 0 n).
Proof. intros <-. apply as_map. Qed.
Lemma nth_maps {B} (f : nat -> B) i n d : (i < n)%nat -> nth i (map f (seq 0 n)) d = f i.
Proof. intros H. rewrite (nth_indep _ d (f 0%nat)) by (rewrite map_length, seq_length; auto). rewrite map_nth, seq_nth by auto. reflexivity. Qed.
Lemma combine_maps {A B C} (f : A -> B) (g : A -> C) l : combine (map f l) (map g l) = map (fun x => (f x, g x)) l.
Proof. induction l as [|a l IH]; cbn; auto. now rewrite IH. Qed.
Lemma rd_maps {B} (f : nat -> B) i n : (i < n)%nat -> rd (map f (seq 0 n)) i = Ok (f i).
Proof. intros H. unfold rd. rewrite nth_error_map. rewrite (nth_error_nth' _ 0%nat) by (rewrite seq_length; auto). rewrite seq_nth by auto. reflexivity. Qed.
Lemma rd_app_mid {A} (pre post : list A) x : rd (pre ++ x :: post) (length pre) = Ok x.
Proof. unfold rd. rewrite nth_error_app2, Nat.sub_diag by lia. reflexivity. Qed.
Lemma map_out_map {A B C} (f : B -> outcome C) (g : A -> B) l : map_out f (map g l) = map_out (fun a => f (g a)) l.
Proof. induction l as [|a l IH]; cbn; auto. destruct (f (g a)); cbn; auto. now rewrite IH. Qed.
Lemma upd_maps {B} (f : nat -> B) i n v : (i < n)%nat -> upd (map f (seq 0 n)) i v = map (fun j => if (j =? i)%nat then v else f j) (seq 0 n).
Proof.
  intros H. apply nth_ext with (d := v) (d' := v); [now rewrite upd_length, !map_length|]. intros k Hk. rewrite upd_length, map_length, seq_length in Hk.
  rewrite (nth_maps (fun j => if (j =? i)%nat then v else f j)) by auto. apply nth_error_nth. destruct (Nat.eqb_spec k i) as [->|Ne].
  - apply nth_error_upd_eq. now rewrite map_length, seq_length.
  - rewrite nth_error_upd_neq by auto. rewrite nth_error_map. rewrite (nth_error_nth' _ 0%nat) by (rewrite seq_length; auto). now rewrite seq_nth.
Qed.

Section Bound.
  Variables (ty : ity) (N : Z).
  Hypothesis HN : representable ty N.
  Lemma rep x : 0 <= x <= N -> representable ty x.
  Proof. destruct ty as [W|W]; cbn in *; lia. Qed.
  Lemma fit_in x : 0 <= x <= N -> fit ty x = Ok x.
  Proof. intros H. apply fit_ok, rep, H. Qed.

  (** ** Counting *)
  Definition counted_of (codes : list nat) : list info := map (fun c => {| i_offset := 0; i_size := having c codes; i_total := 0; i_next := 0 |}) (seq 0 code_size).
  Lemma having_app c a b : having c (a ++ b) = having c a + having c b.
  Proof. unfold having. rewrite count_occ_app. lia. Qed.
  Lemma having_le c l : 0 <= having c l <= Z.of_nat (length l).
  Proof. unfold having. pose proof (count_occ_bound Nat.eq_dec c l). lia. Qed.
  Lemma counted_nil : cleared = counted_of [].
  Proof. reflexivity. Qed.
  Lemma bump_ok pre c : (c < 16)%nat -> Z.of_nat (length pre) < N -> bump ty (counted_of pre) c = Ok (counted_of (pre ++ [c])).
  Proof.
    intros Hc HL. unfold bump, counted_of. rewrite rd_maps by exact Hc. cbn [obind i_size i_offset i_total i_next]. rewrite fit_in by (pose proof (having_le c pre); lia). cbn [obind].
    unfold wr. rewrite map_length, seq_length. replace (c <? code_size)%nat with true by (symmetry; now apply Nat.ltb_lt). f_equal. rewrite upd_maps by exact Hc. apply map_ext. intros j. unfold having. rewrite count_occ_app. cbn [count_occ].
    destruct (Nat.eqb_spec j c) as [->|Ne]; [destruct (Nat.eq_dec c c); [|congruence]|destruct (Nat.eq_dec c j); [congruence|]]; f_equal; lia.
  Qed.
  Lemma count_ok codes : forall pre, Forall (fun c => (c < 16)%nat) codes -> Z.of_nat (length pre + length codes) <= N -> foldM (bump ty) codes (counted_of pre) = Ok (counted_of (pre ++ codes)).
  Proof.
    induction codes as [|c codes IH]; intros pre F H; cbn [foldM]; [now rewrite app_nil_r|]. inversion F; subst. cbn [length] in H. rewrite bump_ok by (auto; lia). cbn [obind]. rewrite IH by (auto; rewrite app_length; cbn [length]; lia). now rewrite <- app_assoc.
  Qed.
  Lemma count_via {A} (f : A -> outcome nat) (c : A -> nat) l : forall pre, (forall a, In a l -> f a = Ok (c a) /\ (c a < 16)%nat) -> Z.of_nat (length pre + length l) <= N ->
    foldM (fun d e => c <- f e ;; bump ty d c)%out l (counted_of pre) = Ok (counted_of (pre ++ map c l)).
  Proof.
    induction l as [|a l IH]; intros pre F H; cbn [foldM map]; [now rewrite app_nil_r|]. destruct (F a (or_introl eq_refl)) as (Fa & Ca). rewrite Fa. cbn [obind length] in *. rewrite bump_ok by (auto; lia). cbn [obind].
    rewrite IH by ((intros; apply F; now right) || (rewrite app_length; cbn [length]; lia)). now rewrite <- app_assoc.
  Qed.

  (** ** The used codes *)
  Definition sum_of (V : nat -> Z) (l : list nat) : Z := fold_right (fun i s => V i + s) 0 l.
  Lemma sum_of_nonneg V l : (forall i, 0 <= V i) -> 0 <= sum_of V l.
  Proof. intros H. induction l as [|i l IH]; [cbn; lia|]. change (sum_of V (i :: l)) with (V i + sum_of V l). specialize (H i). lia. Qed.
  Lemma gather_ok used us (V : nat -> Z) counted l : (forall i, In i l -> used i = Ok (us i)) -> (forall i, In i l -> exists x, rd counted i = Ok x /\ i_size x = V i) -> (forall i, 0 <= V i) ->
    forall p offset, 0 <= i_size p -> 0 <= i_next p -> i_size p + sum_of V (filter us l) <= N -> i_next p + sum_of V (filter us l) <= N ->
    foldM (gather_code ty used counted) l (p, offset) =
      Ok ({| i_offset := i_offset p; i_size := i_size p + sum_of V (filter us l); i_total := i_total p; i_next := i_next p + sum_of V (filter us l) |}, offset ++ map V (filter us l)).
  Proof.
    induction l as [|i l IH]; intros HU HC HV p offset P1 P2 S1 S2; cbn [foldM filter].
    - cbn [sum_of fold_right map]. rewrite app_nil_r, !Z.add_0_r. now destruct p.
    - cbn [filter] in *. unfold gather_code at 1. rewrite (HU i (or_introl eq_refl)). cbn [obind]. destruct (us i).
      + destruct (HC i (or_introl eq_refl)) as (x & X1 & X2). rewrite X1. cbn [obind]. rewrite X2. cbn [sum_of fold_right] in *. fold (sum_of V (filter us l)) in *. pose proof (sum_of_nonneg V (filter us l) HV) as Q. pose proof (HV i) as Vi. rewrite !fit_in by lia. cbn [obind].
        rewrite IH; cbn [i_size i_next i_offset i_total]; [|intros; apply HU; now right|intros; apply HC; now right|exact HV|lia|lia|lia|lia]. cbn [map]. rewrite <- app_assoc. cbn [app]. rewrite !Z.add_assoc. reflexivity.
      + cbn [obind]. apply IH; auto; intros; [apply HU|apply HC]; now right.
  Qed.
  Lemma sum_having codes us : Forall (fun c => (c < 16)%nat /\ us c = true) codes -> sum_of (fun i => having i codes) (filter us (seq 0 16)) = Z.of_nat (length codes).
  Proof.
    induction codes as [|c codes IH]; intros F.
    - cbn [length]. induction (filter us (seq 0 16)) as [|i l IH]; [reflexivity|]. exact IH.
    - inversion F as [|? ? (C1 & C2) F']; subst. specialize (IH F'). cbn [length].
      assert (X : forall l, NoDup l -> sum_of (fun i => having i (c :: codes)) l = sum_of (fun i => having i codes) l + (if in_dec Nat.eq_dec c l then 1 else 0)).
      { clear. induction l as [|i l IH]; intros ND; [reflexivity|]. inversion ND as [|? ? NI ND']; subst. cbn [sum_of fold_right]. fold (sum_of (fun i => having i (c :: codes)) l) (sum_of (fun i => having i codes) l). rewrite IH by auto.
        assert (D : (if in_dec Nat.eq_dec c (i :: l) then 1 else 0) = (if Nat.eq_dec c i then 1 else 0) + (if in_dec Nat.eq_dec c l then 1 else 0)).
        { destruct (Nat.eq_dec c i) as [E|Ne]; destruct (in_dec Nat.eq_dec c l) as [I|NI2]; destruct (in_dec Nat.eq_dec c (i :: l)) as [I3|NI3]; cbn [In] in *; subst; try tauto; try reflexivity; exfalso; tauto || (destruct I3; [congruence|tauto]) || (apply NI3; auto). }
        rewrite D. unfold having. cbn [count_occ]. destruct (Nat.eq_dec c i); lia. }
      rewrite X by (apply NoDup_filter, seq_NoDup). destruct (in_dec Nat.eq_dec c (filter us (seq 0 16))) as [_|NI]; [lia|]. exfalso. apply NI, filter_In. split; auto. apply in_seq. lia.
  Qed.
  Lemma scatter_ok used us (O T : nat -> Z) offset sum l : (forall i, In i l -> used i = Ok (us i)) -> NoDup l ->
    forall pre post pre' post' d, offset = pre ++ map O (filter us l) ++ post -> sum = pre' ++ map T (filter us l) ++ post' -> length pre = length pre' -> (forall i, In i l -> (i < length d)%nat) ->
    exists d', foldM (scatter_code used offset sum) l (length pre, d) = Ok ((length pre + length (filter us l))%nat, d') /\ length d' = length d /\
      forall i, (i < length d)%nat -> nth i d' zero_info = if us i && existsb (Nat.eqb i) l then {| i_offset := O i; i_size := i_size (nth i d zero_info); i_total := T i; i_next := i_next (nth i d zero_info) |} else nth i d zero_info.
  Proof.
    induction l as [|i l IH]; intros HU ND pre post pre' post' d E1 E2 EL HL.
    - exists d. cbn [foldM filter length]. rewrite Nat.add_0_r. split; auto. split; auto. intros i _. cbn [existsb]. now rewrite andb_false_r.
    - inversion ND as [|? ? NI ND']; subst. cbn [foldM filter]. unfold scatter_code at 1. rewrite (HU i (or_introl eq_refl)). cbn [obind]. cbn [filter] in IH. destruct (us i) eqn:Ui.
      + cbn [map app]. rewrite rd_app_mid. cbn [obind]. rewrite EL, rd_app_mid. cbn [obind]. pose proof (HL i (or_introl eq_refl)) as Li.
        assert (R : rd d i = Ok (nth i d zero_info)) by (unfold rd; now rewrite (nth_error_nth' _ zero_info)). rewrite R. cbn [obind]. unfold wr. replace (i <? length d)%nat with true by (symmetry; now apply Nat.ltb_lt). cbn [obind].
        set (v := {| i_offset := O i; i_size := _; i_total := T i; i_next := _ |}).
        destruct (IH (fun j Hj => HU j (or_intror Hj)) ND' (pre ++ [O i]) post (pre' ++ [T i]) post' (upd d i v)) as (d' & D1 & D2 & D3).
        * now rewrite <- app_assoc.
        * now rewrite <- app_assoc.
        * rewrite !app_length. cbn. lia.
        * intros j Hj. rewrite upd_length. apply HL. now right.
        * rewrite app_length in D1. cbn [length] in D1 |- *. rewrite <- EL. exists d'. replace (S (length pre)) with (length pre + 1)%nat by lia. split; [etransitivity; [exact D1|f_equal; f_equal; lia]|]. rewrite upd_length in D2, D3. split; auto. intros k Hk. rewrite D3 by auto. cbn [existsb].
          destruct (Nat.eqb_spec k i) as [->|Ne].
          -- assert (X : existsb (Nat.eqb i) l = false). { destruct (existsb (Nat.eqb i) l) eqn:X; auto. apply existsb_exists in X as (y & Y1 & Y2). apply Nat.eqb_eq in Y2. subst y. tauto. }
             rewrite X, andb_false_r, Ui. cbn [andb orb]. apply nth_error_nth. now apply nth_error_upd_eq.
          -- cbn [orb]. assert (X : nth k (upd d i v) zero_info = nth k d zero_info). { apply nth_error_nth. rewrite nth_error_upd_neq by auto. now apply nth_error_nth'. } now rewrite X.
      + cbn [obind]. destruct (IH (fun j Hj => HU j (or_intror Hj)) ND' pre post pre' post' d eq_refl eq_refl EL (fun j Hj => HL j (or_intror Hj))) as (d' & D1 & D2 & D3). exists d'. split; auto. split; auto.
        intros k Hk. rewrite D3 by auto. cbn [existsb]. destruct (Nat.eqb_spec k i) as [->|Ne]; [|reflexivity]. now rewrite Ui.
  Qed.

  (** ** The scan *)
  Section Scan.
    Variables (n : nat) (u : list Z) (K : Type) (V : nat -> K -> Z) (keys : list K).
    Hypothesis Hu : harmless ty N u.
    Hypothesis HV : forall r k, (r < n)%nat -> In k keys -> 0 <= V r k.
    Hypothesis HT : forall k, In k keys -> sum_below (map (fun r => V r k) (seq 0 n)) n <= N.
    Lemma below_mono k i : (i <= n)%nat -> In k keys -> 0 <= sum_below (map (fun r => V r k) (seq 0 n)) i <= N.
    Proof.
      intros Hi Ik. assert (M : forall j, (j <= n)%nat -> 0 <= sum_below (map (fun r => V r k) (seq 0 n)) j).
      { induction j as [|j IHj]; intros Hj; [rewrite sum_below_0; lia|]. rewrite sum_below_S by (rewrite map_length, seq_length; lia). rewrite nth_maps by lia. pose proof (HV j k ltac:(lia) Ik). specialize (IHj ltac:(lia)). lia. }
      split; [now apply M|]. assert (Q : forall m, (i + m <= n)%nat -> sum_below (map (fun r => V r k) (seq 0 n)) i <= sum_below (map (fun r => V r k) (seq 0 n)) (i + m)).
      { induction m as [|m IHm]; intros Hm; [rewrite Nat.add_0_r; lia|]. rewrite Nat.add_succ_r, sum_below_S by (rewrite map_length, seq_length; lia). rewrite nth_maps by lia. pose proof (HV (i + m)%nat k ltac:(lia) Ik). specialize (IHm ltac:(lia)). lia. }
      specialize (Q (n - i)%nat ltac:(lia)). replace (i + (n - i))%nat with n in Q by lia. pose proof (HT k Ik). lia.
    Qed.
    Lemma V_le k r : (r < n)%nat -> In k keys -> 0 <= V r k <= N.
    Proof.
      intros Hr Ik. split; [now apply HV|]. pose proof (below_mono k (S r) ltac:(lia) Ik) as Q. rewrite sum_below_S in Q by (rewrite map_length, seq_length; lia). rewrite nth_maps in Q by lia. pose proof (below_mono k r ltac:(lia) Ik). lia.
    Qed.
    Lemma exscan_keys : exscan_vec ty (length keys) u (map (fun r => map (V r) keys) (seq 0 n)) =
      Ok (map (fun r => (map (fun k => sum_below (map (fun r' => V r' k) (seq 0 n)) r) keys, map (fun k => sum_below (map (fun r' => V r' k) (seq 0 n)) n) keys)) (seq 0 n)).
    Proof.
      assert (C : forall c k, nth_error keys c = Some k -> map (fun o => nth c o 0) (map (fun r => map (V r) keys) (seq 0 n)) = map (fun r => V r k) (seq 0 n)).
      { intros c k E. rewrite map_map. apply map_ext. intros r. apply nth_error_nth. rewrite nth_error_map, E. reflexivity. }
      assert (X : forall c, (c < length keys)%nat -> exists k, nth_error keys c = Some k /\ In k keys). { intros c Hc. destruct (nth_error keys c) eqn:E; [eauto using nth_error_In|]. apply nth_error_None in E. lia. }
      rewrite exscan_vec_sums.
      - rewrite map_length, seq_length. f_equal. apply map_ext_in. intros r _. assert (Y : forall i, map (fun c => sum_below (map (fun o => nth c o 0) (map (fun r => map (V r) keys) (seq 0 n))) i) (seq 0 (length keys)) = map (fun k => sum_below (map (fun r' => V r' k) (seq 0 n)) i) keys).
        { intros i. destruct keys as [|k0 ks] eqn:EK; [reflexivity|]. rewrite <- EK in *. transitivity (map (fun k => sum_below (map (fun r' => V r' k) (seq 0 n)) i) (map (fun c => nth c keys k0) (seq 0 (length keys)))); [|f_equal; symmetry; apply as_map]. rewrite map_map. apply map_ext_in. intros c Hc. apply in_seq in Hc. rewrite (C c (nth c keys k0)); auto. apply nth_error_nth'. lia. }
        now rewrite !Y.
      - intros c i Hc Hi. rewrite map_length, seq_length in Hi. destruct (X c Hc) as (k & E & Ik). rewrite (C c k E). apply rep, below_mono; auto.
      - intros c Hc Hn. rewrite map_length, seq_length in Hn. destruct (X c Hc) as (k & E & Ik). rewrite nth_maps by lia. rewrite (nth_error_nth (map (V 0%nat) keys) c (x := V 0%nat k)) by (rewrite nth_error_map, E; reflexivity). apply Hu. apply V_le; auto. lia.
    Qed.
    Lemma scan_keys : scan_vectors ty u (map (fun r => map (V r) keys) (seq 0 n)) =
      Ok (map (fun r => (map (fun k => sum_below (map (fun r' => V r' k) (seq 0 n)) r) keys, map (fun k => sum_below (map (fun r' => V r' k) (seq 0 n)) n) keys)) (seq 0 n)).
    Proof.
      unfold scan_vectors. destruct (map (fun r => map (V r) keys) (seq 0 n)) as [|v vs] eqn:E; [now destruct n|].
      assert (L : forall w, In w (v :: vs) -> length w = length keys). { intros w Iw. rewrite <- E in Iw. apply in_map_iff in Iw as (r & <- & _). apply map_length. }
      assert (F : forallb (fun w => (length w =? length v)%nat) (v :: vs) = true). { apply forallb_forall. intros w Iw. apply Nat.eqb_eq. rewrite (L w Iw). symmetry. apply L. now left. }
      rewrite F. rewrite (L v) by now left. rewrite <- E. apply exscan_keys.
    Qed.
  End Scan.
End Bound.

(** ** Sums over ranks *)
Lemma sum_below_le (V W : nat -> Z) n i : (forall r, (r < n)%nat -> V r <= W r) -> (i <= n)%nat -> sum_below (map V (seq 0 n)) i <= sum_below (map W (seq 0 n)) i.
Proof.
  intros H. induction i as [|i IH]; intros Hi; [rewrite !sum_below_0; lia|]. rewrite !sum_below_S by (rewrite map_length, seq_length; lia). rewrite !nth_maps by lia. specialize (H i ltac:(lia)). specialize (IH ltac:(lia)). lia.
Qed.
Lemma sum_zero (V : nat -> Z) n : (forall r, (r < n)%nat -> 0 <= V r) -> sum_below (map V (seq 0 n)) n <= 0 -> forall r, (r < n)%nat -> V r = 0.
Proof.
  intros H. assert (X : forall i, (i <= n)%nat -> 0 <= sum_below (map V (seq 0 n)) i /\ forall r, (r < i)%nat -> V r <= sum_below (map V (seq 0 n)) i).
  { induction i as [|i IH]; intros Hi; [rewrite sum_below_0; split; [lia|intros; lia]|]. rewrite !sum_below_S by (rewrite map_length, seq_length; lia). rewrite !nth_maps by lia. destruct (IH ltac:(lia)) as (I1 & I2). pose proof (H i ltac:(lia)).
    split; [lia|]. intros r Hr. destruct (Nat.eq_dec r i) as [->|]; [lia|]. specialize (I2 r ltac:(lia)). lia. }
  intros S r Hr. destruct (X n ltac:(lia)) as (_ & X2). specialize (X2 r Hr). specialize (H r Hr). lia.
Qed.
Lemma sum_lengths {A} (l : list (list A)) : sum_below (map (fun x => Z.of_nat (length x)) l) (length l) = Z.of_nat (length (concat l)).
Proof. induction l as [|x l IH]; [reflexivity|]. cbn [map length concat]. rewrite sum_below_cons, IH, app_length. lia. Qed.

(** ** The scatter of all regions *)
Section Fold.
  Context {X K : Type} (step : nat * list distribution -> X -> outcome (nat * list distribution)) (keys : nat -> list K) (O T : nat * K -> Z) (offset sum : list Z) (x : nat -> X) (Q : nat -> distribution -> Prop).
  Definition flat_keys (l : list nat) : list (nat * K) := flat_map (fun g => map (pair g) (keys g)) l.
  Lemma flat_values (V : nat * K -> Z) l : concat (map (fun g => map (fun k => V (g, k)) (keys g)) l) = map V (flat_keys l).
  Proof. induction l as [|g l IH]; [reflexivity|]. cbn [map concat flat_keys flat_map]. now rewrite IH, map_app, map_map. Qed.
  Lemma scatter_fold l : (forall g pre post pre' post' ds, In g l -> offset = pre ++ map (fun k => O (g, k)) (keys g) ++ post -> sum = pre' ++ map (fun k => T (g, k)) (keys g) ++ post' -> length pre = length pre' ->
      exists d, step (length pre, ds) (x g) = Ok ((length pre + length (keys g))%nat, ds ++ [d]) /\ Q g d) ->
    forall pre post pre' post' ds, offset = pre ++ map O (flat_keys l) ++ post -> sum = pre' ++ map T (flat_keys l) ++ post' -> length pre = length pre' ->
    exists j out, foldM step (map x l) (length pre, ds) = Ok (j, ds ++ out) /\ Forall2 Q l out.
  Proof.
    induction l as [|g l IH]; intros HS pre post pre' post' ds E1 E2 EL; cbn [map foldM]; [exists (length pre), []; rewrite app_nil_r; auto|].
    cbn [flat_keys flat_map] in E1, E2. rewrite map_app, map_map, <- app_assoc in E1, E2. fold (flat_keys l) in E1, E2.
    destruct (HS g pre _ pre' _ ds (or_introl eq_refl) E1 E2 EL) as (d & D1 & D2). rewrite D1. cbn [obind].
    destruct (IH (fun g' p q p' q' ds' I => HS g' p q p' q' ds' (or_intror I)) (pre ++ map (fun k => O (g, k)) (keys g)) post (pre' ++ map (fun k => T (g, k)) (keys g)) post' (ds ++ [d])) as (j & out & F1 & F2).
    - now rewrite <- app_assoc.
    - now rewrite <- app_assoc.
    - rewrite !app_length, !map_length. lia.
    - rewrite app_length, map_length in F1. exists j, (d :: out). rewrite F1. rewrite <- app_assoc. split; [reflexivity|]. now constructor.
  Qed.
End Fold.
Lemma Forall2_seq {B} (Q : nat -> B -> Prop) d n : forall a out, Forall2 Q (seq a n) out -> length out = n /\ forall i, (i < n)%nat -> Q (a + i)%nat (nth i out d).
Proof.
  induction n as [|n IH]; intros a out F; inversion F as [|? b ? out' Q1 F']; subst; [split; [reflexivity|intros; lia]|]. destruct (IH (S a) out' F') as (L & H). split; [cbn; lia|].
  intros [|i] Hi; [now rewrite Nat.add_0_r|]. cbn [nth]. rewrite Nat.add_succ_r. apply (H i). lia.
Qed.
