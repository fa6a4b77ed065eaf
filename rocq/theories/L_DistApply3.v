(** * Lemmas on the product with a distributed matrix: meshes *)
From Coq Require Import List Arith Bool Lia Sorted.
From Verif Require Import Base M_Indexing M_Utils S_Order M_Distributed S_Distributed M_DistMatrix S_DistMatrix S_DistMatrixSync S_Assembly L_Equality L_TotalFeti L_Csx2 L_Fill2 L_Utils L_Numbering L_Pattern L_Distributed L_Distributed2 L_DistMatrixSync L_DistMatrixSync2 L_DistMatrixFill L_DistMatrixFill2 L_DistApply L_DistApply2 M_DistApply S_DistApply.
Import ListNotations.
Local Open Scope out_scope.

Lemma Forall2_map_seq {A B} (R : A -> B -> Prop) (d : A) (l : list A) (f : nat -> B) : (forall k, k < length l -> R (nth k l d) (f k)) -> Forall2 R l (map f (seq 0 (length l))).
Proof.
  revert f. induction l as [|x l IH]; intros f H; cbn [length seq map]; constructor; [apply (H 0); simpl; lia|]. rewrite <- seq_shift, map_map. apply IH. intros k Hk. apply (H (S k)). simpl; lia.
Qed.

Section Mesh.
  Variables (dofs : nat) (nb : list (list nat)) (ms : list mesh_part) (ps : list dpattern).
  Hypothesis dofs_pos : 0 < dofs.
  Hypothesis DM : distributed_mesh nb ms.
  Hypothesis ps_len : length ps = length ms.
  Hypothesis ps_rows : forall r, r < length ms -> rows_of_mesh dofs ms (nth r ms no_part) (nth r ps no_pattern).
  Notation us := (map mp_info ms).
  Notation stored r := (stored_dofs dofs (nth r us no_info)).
  Notation pt := (fun r => nth r ps no_pattern).
  Notation P := (length ms).
  Notation st := (nst dofs us). Notation fin := (nfin dofs us). Notation halo := (nhalo dofs us). Notation nbr := (nnb nb).
  Notation grow := (grow dofs ms ps).
  Let N : numbered nb us := dm_numbered nb ms DM.
  Lemma ul : length us = P.
  Proof. apply map_length. Qed.
  Definition mtot : nat := list_max (map fin (seq 0 P)).
  Lemma fin_mtot r : r < P -> fin r <= mtot.
  Proof. intros H. unfold mtot. assert (F : Forall (fun k => k <= list_max (map fin (seq 0 P))) (map fin (seq 0 P))) by (apply list_max_le; auto). rewrite Forall_forall in F. apply F. apply in_map. apply in_seq. lia. Qed.
  Lemma lpos_stored r g : r < P -> st r <= g < fin r -> lpos st halo r g < length (stored r) /\ nth (lpos st halo r g) (stored r) 0 = g.
  Proof.
    intros Hr O. rewrite (stored_eq dofs us dofs_pos). rewrite app_length, seq_length. unfold lpos. split; [lia|]. rewrite app_nth2 by lia. rewrite seq_nth by lia. lia.
  Qed.
  Lemma in_grow r g c : r < P -> st r <= g < fin r -> In c (grow g) <-> c / dofs = g / dofs \/ common_element ms (g / dofs) (c / dofs).
  Proof.
    intros Hr O. destruct (lpos_stored r g Hr O) as [L E]. rewrite <- E at 1. rewrite (grow_at dofs nb ms ps dofs_pos DM ps_len ps_rows) by auto. destruct (prow_ok dofs nb ms ps dofs_pos DM ps_len ps_rows r _ Hr L) as (_ & _ & I). rewrite I. rewrite E. tauto.
  Qed.
  Lemma common_sym p q : common_element ms p q -> common_element ms q p.
  Proof. intros (m & e & H1 & H2 & H3 & H4). exists m, e. auto. Qed.
  Lemma mrow_sym r s g c : r < P -> s < P -> st r <= g < fin r -> st s <= c < fin s -> In c (grow g) -> In g (grow c).
  Proof. intros Hr Hs Og Oc H. apply (in_grow r) in H; auto. apply (in_grow s); auto. destruct H as [H|H]; [left; auto|right; apply common_sym; auto]. Qed.
  Lemma own_node r g : r < P -> (st r <= g < fin r <-> owns (nth r us no_info) (g / dofs)).
  Proof. intros Hr. rewrite (n_own dofs us dofs_pos r g) by (rewrite ul; auto). unfold owner. rewrite ul. tauto. Qed.
  (** who owns a node of an element *)
  Lemma node_owner s e n : s < P -> In e (mp_elements (nth s ms no_part)) -> In n e -> exists j, j < P /\ owns (nth j us no_info) (node_of (nth s ms no_part) n) /\ (j = s \/ In j (nbr s)).
  Proof.
    intros Hs He Hn. set (m := nth s ms no_part) in *. assert (Im : In m ms) by (apply nth_In; auto). destruct (dm_elements nb ms DM m e Im He) as [_ B]. specialize (B n Hn). unfold node_of. assert (Hp : In (nth n (u_position (mp_info m)) 0) (u_position (mp_info m))) by (apply nth_In; rewrite <- (dm_length nb ms DM m Im); auto).
    set (p := nth n _ 0) in *. rewrite (dm_position nb ms DM m Im) in Hp. apply in_app_or in Hp. assert (U : nth s us no_info = mp_info m) by (apply (u_nth ms s)). destruct Hp as [Hp|Hp].
    - rewrite <- U in Hp. destruct (nu_owner nb us N s p ltac:(rewrite ul; auto) Hp) as (o & Lo & Oo & Io). exists o. split; [lia|]. split; auto.
    - exists s. split; auto. split; auto. rewrite U. apply in_seq in Hp. unfold owns. lia.
  Qed.
  Lemma owns_unique r s p : r < P -> s < P -> owns (nth r us no_info) p -> owns (nth s us no_info) p -> r = s.
  Proof.
    intros Hr Hs Or Os. apply (own_unique P st fin (n_ord dofs nb ms dofs_pos DM) r s (p * dofs)); auto; apply own_node; auto; rewrite Nat.div_mul by lia; auto.
  Qed.
  Lemma mrow_owner r g c : r < P -> st r <= g < fin r -> In c (grow g) -> exists j, j < P /\ st j <= c < fin j /\ (j = r \/ In j (nn P nbr r)).
  Proof.
    intros Hr O H. apply (in_grow r) in H; auto. apply own_node in O; auto. destruct H as [H|(m & e & Hm & He & Hp & Hq)].
    - exists r. split; auto. split; auto. apply own_node; auto. rewrite H. auto.
    - destruct (In_nth _ _ no_part Hm) as (s & Hs & Es). subst m. apply in_map_iff in Hp, Hq. destruct Hp as (n & En & Hn). destruct Hq as (n' & En' & Hn').
      destruct (node_owner s e n Hs He Hn) as (jp & Hjp & Op & Qp). destruct (node_owner s e n' Hs He Hn') as (j & Hj & Oj & Qj). rewrite En in Op. rewrite En' in Oj. assert (jp = r) by (apply (owns_unique jp r (g / dofs)); auto). subst jp.
      exists j. split; auto. split; [apply own_node; auto|]. destruct (Nat.eq_dec j r) as [->|Ne]; auto. right. apply nn_in; [apply (n_sym nb ms DM)|auto|]. split; auto.
      destruct Qp as [->|Qp]; [destruct Qj as [->|Qj]; [tauto|auto]|]. assert (Is : In s (nbr r)) by (apply (n_sym nb ms DM s r); auto). destruct Qj as [->|Qj]; [auto|]. right. exists s. auto.
  Qed.

  Section Calls.
    Context {T : Type} (zero : T) (add : T -> T -> T).
    Definition AReady (As : list (apply_data T)) : Prop := length As = P /\ forall r, r < P -> aready P st fin halo nbr grow mtot r (nth r As no_adata).
    Lemma decompose_eq : decompose dofs nb us = Ok (map (D st fin halo nbr) (seq 0 P)).
    Proof. rewrite <- ul. apply decompose_ok; auto. Qed.
    Lemma ainit_ready sort : sort_contract pair_ltb sort -> exists As, ainit zero sort (map (D st fin halo nbr) (seq 0 P)) ps = Ok As /\ AReady As.
    Proof.
      intros SC. destruct (ainit_ok P st fin halo nbr (n_stf dofs ms dofs_pos) (n_ord dofs nb ms dofs_pos DM) (n_sym nb ms DM) grow pt (pt_len' dofs nb ms ps dofs_pos DM ps_rows) (pt_row' dofs nb ms ps dofs_pos DM ps_len ps_rows) (pt_col' dofs nb ms ps dofs_pos DM ps_len ps_rows) mtot fin_mtot mrow_owner zero sort SC) as (As & E & L & R).
      rewrite <- (L_Distributed.list_as_map ps no_pattern P ps_len) in E. exists As. split; auto. split; auto.
    Qed.
    Lemma vlen vs : is_vector dofs us (T := T) vs -> length vs = P /\ forall r, r < P -> length (nth r vs []) = vsize st fin halo r.
    Proof. intros [V1 V2]. rewrite ul in *. split; auto. intros r Hr. rewrite V2 by auto. apply (stored_length dofs us dofs_pos). Qed.
    Lemma product_call rowop As sy M xs ys : AReady As -> Ready dofs nb us sy -> is_matrix us ps M -> is_vector dofs us xs -> is_vector dofs us ys ->
      exists As' sy' ys', apply_matrix rowop (map (D st fin halo nbr) (seq 0 P)) ps (As, sy) M xs ys = Ok (As', sy', ys') /\ AReady As' /\ Ready dofs nb us sy' /\ is_vector dofs us ys' /\
        forall r g z, has_value dofs us ys' r g z -> row_product dofs ms us ps rowop M xs ys g z.
    Proof.
      intros [LA RA] RS [LM VM] Vx Vy. rewrite ul in LM, VM. destruct (vlen xs Vx) as [Lx Vx']. destruct (vlen ys Vy) as [Ly Vy'].
      destruct (apply_ok P st fin halo nbr (n_stf dofs ms dofs_pos) (n_ord dofs nb ms dofs_pos DM) (n_sym nb ms DM) grow pt (pt_len' dofs nb ms ps dofs_pos DM ps_rows) (pt_row' dofs nb ms ps dofs_pos DM ps_len ps_rows) (pt_col' dofs nb ms ps dofs_pos DM ps_len ps_rows) mtot fin_mtot mrow_sym mrow_owner zero
        (fun r => nth r xs []) (fun r => nth r ys []) (fun r => nth r M []) Vx' Vy' VM rowop As sy LA RA) as (As' & LA' & RA' & E).
      rewrite <- (L_Distributed.list_as_map ps no_pattern P ps_len), <- (L_Distributed.list_as_map xs [] P Lx), <- (L_Distributed.list_as_map ys [] P Ly), <- (L_Distributed.list_as_map M [] P LM) in E.
      set (pr := product _ _ _ _ _ _ _ _ _ _) in E. set (y1 := map pr (seq 0 P)) in *.
      assert (PL : forall r, r < P -> length (pr r) = vsize st fin halo r). { intros r Hr. apply product_len; auto. }
      assert (V1 : is_vector dofs us y1). { apply is_vector_intro; auto; rewrite ?ul. - unfold y1. rewrite map_length, seq_length. auto. - intros r Hr. unfold y1. rewrite nth_map_seq by auto. auto. }
      destruct (scatter_call dofs nb us dofs_pos N zero add sy y1 RS V1) as (sy' & ys' & ES & R' & V' & S1 & S2). rewrite ES in E. cbn [obind] in E. exists As', sy', ys'. split; auto. split; [split; auto|]. split; auto. split; auto.
      intros r g z Hz. assert (G : exists o, o < P /\ st o <= g < fin o /\ z = nth (lpos st halo o g) (nth o y1 []) zero).
      { rewrite ul in S1, S2. destruct (has_value_cases dofs nb us dofs_pos N zero ys' r g z V' Hz) as (Hr & [(p & o & Hp & -> & -> & Lo & G)|(G & ->)]); rewrite ul in Hr.
        - exists o. split; [lia|]. split; auto. apply S2; auto. lia.
        - exists r. split; auto. }
      clear r Hz. destruct G as (o & Ho & O & ->). unfold y1. rewrite nth_map_seq by auto. unfold pr. rewrite product_own by auto.
      exists o, (nth (lpos st halo o g) (nth o ys []) zero), (grow g), (entries P st fin halo grow zero (fun r => nth r xs []) (fun r => nth r M []) o g).
      split; [apply n_own; rewrite ?ul; auto|]. split; [apply has_value_own; rewrite ?ul; auto|]. split; [apply (grow_sorted dofs nb ms ps dofs_pos DM ps_len ps_rows)|]. split; [intros c; apply (in_grow o); auto|]. split; auto.
      unfold entries. apply (Forall2_map_seq _ 0). intros k Hk. cbn [fst snd]. set (c := nth k (grow g) 0). assert (Hc : In c (grow g)) by (apply nth_In; auto). destruct (lpos_stored o g Ho O) as [Ll El]. split.
      - split; [rewrite ul; auto|]. assert (EG : grow g = prow_of ps o (lpos st halo o g)). { rewrite <- El at 1. apply (grow_at dofs nb ms ps dofs_pos DM ps_len ps_rows); auto. }
        exists (kpos ps o (lpos st halo o g, c)). split.
        + rewrite <- El at 2. apply (keys_at dofs nb ms ps dofs_pos DM ps_len ps_rows); auto. rewrite <- EG. auto.
        + assert (EK : kpos ps o (lpos st halo o g, c) = RP st fin halo grow o (lpos st halo o g) + k).
          { unfold kpos. cbn [fst snd]. rewrite <- EG. rewrite (pt_row' dofs nb ms ps dofs_pos DM ps_len ps_rows) by (auto; rewrite (sdofs_eq dofs ms dofs_pos) by auto; lia). f_equal. unfold c. apply index_of_nth; [apply ss_nodup; apply (grow_sorted dofs nb ms ps dofs_pos DM ps_len ps_rows)|]. apply nth_error_nth'; auto. }
          rewrite EK. apply nth_error_nth'. rewrite VM by auto. pose proof (RP_S st fin halo grow o (lpos st halo o g) ltac:(rewrite (sdofs_eq dofs ms dofs_pos) by auto; auto)) as RS'. rewrite (sdofs_eq dofs ms dofs_pos) in RS' by auto. rewrite El in RS'.
          pose proof (RP_le P st fin halo grow pt (pt_col' dofs nb ms ps dofs_pos DM ps_len ps_rows) o (S (lpos st halo o g)) Ho ltac:(rewrite (sdofs_eq dofs ms dofs_pos) by auto; lia)) as RL. cbv beta in RL. lia.
      - destruct (mrow_owner o g c Ho O Hc) as (j & Hj & Oj & _). exists j. split; [apply n_own; rewrite ?ul; auto|]. rewrite (X_ok P st fin halo (n_ord dofs nb ms dofs_pos DM) zero _ j c Hj Oj). apply has_value_own; rewrite ?ul; auto.
    Qed.
    Lemma history_ok calls As sy : AReady As -> Ready dofs nb us sy -> Forall (valid_call dofs us ps) calls -> exists As' sy', run_acalls add (map (D st fin halo nbr) (seq 0 P)) ps calls (As, sy) = Ok (As', sy') /\ AReady As' /\ Ready dofs nb us sy'.
    Proof.
      intros RA RS F. revert As sy RA RS. induction F as [|c calls V F IH]; intros As sy RA RS; [exists As, sy; auto|]. unfold run_acalls in *. cbn [foldM]. destruct c as [c vs|rowop M xs ys].
      - cbn [fst snd]. destruct (run_calls_ok dofs nb us dofs_pos N zero add [(c, vs)] sy RS ltac:(constructor; auto)) as (sy' & E & R'). unfold run_calls in E. cbn [foldM fst snd] in E. destruct (run_call add c (sy, vs)) as [[sy1 vs1]| |]; try discriminate. cbn [obind] in E |- *. injection E as ->. apply IH; auto.
      - destruct V as (V1 & V2 & V3). destruct (product_call rowop As sy M xs ys RA RS V1 V2 V3) as (As' & sy' & ys' & E & RA' & RS' & _). rewrite E. cbn [obind]. apply IH; auto.
    Qed.
  End Calls.
End Mesh.
