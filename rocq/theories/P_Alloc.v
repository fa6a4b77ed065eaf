(** * Properties of the memory resources: C19-C22, C64, C65 *)
From Coq Require Import ZArith List Bool Arith Lia Permutation.
From Verif Require Import Base M_Alloc S_Alloc L_Alloc L_Cbmb.
Import ListNotations.
Local Open Scope Z_scope.

(** ** C19: arena_allocator_resource *)

(** Whatever the clients do, blocks handed out since the last reset are disjoint, aligned and inside the arena. *)
Theorem arena_blocks_since_reset mem capacity align a cs a' h :
  arena_sane mem capacity align -> Forall request_sane cs ->
  arena_new mem capacity align = Ok a -> arena_run a cs = Ok (a', h) ->
  pairwise_disjoint (since_reset [] h) /\
  Forall (fun x => inside mem capacity x /\ fst x mod align = 0) (since_reset [] h).
Proof.
  intros Hs Hc Hn Hr. pose proof (arena_new_aligned _ _ _ _ Hn) as Hm.
  pose proof (arena_new_inv _ _ _ Hs _ Hn) as [HI _].
  destruct (arena_run_inv _ _ _ Hs Hm _ _ _ HI Hc _ _ Hr) as (_ & _ & _ & _ & _ & Hf & Hp & _).
  split; auto. eapply Forall_impl; [|exact Hf]. intros x (? & ? & ? & ?). auto.
Qed.

(** If clients give back only what they hold, then all blocks they hold are disjoint, also over resets, and a reset
    succeeds only when everything was given back. *)
Theorem arena_blocks_outstanding mem capacity align a cs a' h :
  arena_sane mem capacity align -> Forall request_sane cs ->
  arena_new mem capacity align = Ok a -> arena_run a cs = Ok (a', h) -> honest [] h ->
  pairwise_disjoint (outstanding [] h) /\
  Forall (fun x => inside mem capacity x /\ fst x mod align = 0) (outstanding [] h) /\
  ((exists a'', arena_reset a' = Ok a'') <-> outstanding [] h = []).
Proof.
  intros Hs Hc Hn Hr Hh. pose proof (arena_new_aligned _ _ _ _ Hn) as Hm.
  pose proof (arena_new_inv _ _ _ Hs _ Hn) as [_ HI].
  destruct (arena_run_honest _ _ _ Hs Hm _ _ _ _ HI Hc _ _ Hr Hh) as ((_ & _ & _ & _ & _ & Hf & _) & Hin & Hp & _ & Hnum).
  split; auto. split.
  - rewrite Forall_forall in *. intros x Hx. destruct (Hf _ (Hin _ Hx)) as (? & ? & ? & ?). auto.
  - unfold arena_reset. rewrite Hnum. destruct (outstanding [] h); simpl.
    + split; eauto.
    + split; [intros [? E]|]; discriminate.
Qed.

(** hypotheses are met: two rounds of allocations separated by a reset *)
Definition arena_ex_calls : list arena_call :=
  [AAllocate 10; AAllocate 0; AAllocate 8; ADeallocate 4112; ADeallocate 4096; AReset; AAllocate 64; AAllocate 1].
Example arena_ex :
  arena_sane 4096 200 8 /\ Forall request_sane arena_ex_calls /\
  exists a a' h, arena_new 4096 200 8 = Ok a /\ arena_run a arena_ex_calls = Ok (a', h) /\ honest [] h /\
    outstanding [] h = [(4168, 1); (4096, 64)] /\ a_offset a' = 80.
Proof.
  split; [unfold arena_sane; lia|]. split; [repeat constructor; simpl; lia|].
  do 3 eexists. split; [reflexivity|]. split; [vm_compute; reflexivity|].
  split; [simpl; intuition lia|]. split; reflexivity.
Qed.

(** Without the bound on request sizes the offset wraps around: the block of 2^64 - 8 bytes is "inside" 64 bytes. *)
Theorem arena_huge_request_refuted :
  exists a a' h, arena_new 4096 64 8 = Ok a /\ arena_run a [AAllocate 16; AAllocate (2 ^ 64 - 8)] = Ok (a', h) /\
    ~ Forall (inside 4096 64) (since_reset [] h).
Proof.
  do 3 eexists. split; [reflexivity|]. split; [vm_compute; reflexivity|].
  simpl. intros H. apply Forall_inv in H. unfold inside in H. simpl in H. lia.
Qed.

(** ** C20: the reported free size *)

(** After any history either the reported size is at most the capacity, the memory above it is unused and exactly the
    requests up to that size succeed (at that place), or the report exceeds the capacity and every request fails. *)
Theorem arena_free_size mem capacity align a cs a' h n :
  arena_sane mem capacity align -> Forall request_sane cs ->
  arena_new mem capacity align = Ok a -> arena_run a cs = Ok (a', h) -> 0 < n < 2 ^ 63 ->
  let free := arena_get_free_size a' in
  (free <= capacity /\
   Forall (fun x => fst x + snd x <= mem + capacity - free) (since_reset [] h) /\
   (n <= free -> exists a'', arena_allocate a' n = Ok (a'', mem + capacity - free)) /\
   (n > free -> arena_allocate a' n = Fail)) \/
  (free > capacity /\ arena_allocate a' n = Fail).
Proof.
  intros Hs Hc Hn Hr Hnn. pose proof (arena_new_aligned _ _ _ _ Hn) as Hm.
  pose proof (arena_new_inv _ _ _ Hs _ Hn) as [HI _].
  destruct (arena_run_inv _ _ _ Hs Hm _ _ _ HI Hc _ _ Hr) as (Em & Ec & Ea & Ho & _ & Hf & _ & _).
  unfold arena_get_free_size, arena_allocate. simpl. rewrite Ec, Em, Ea.
  destruct Hs as (? & ? & ? & ? & ?).
  destruct (Z.eqb_spec n 0); [lia|]. rewrite (w64_small (a_offset a' + n)) by lia.
  destruct (Z_le_gt_dec (a_offset a') capacity) as [Hle|Hgt].
  - left. rewrite (w64_small (capacity - a_offset a')) by lia. split; [lia|]. split.
    { eapply Forall_impl; [|exact Hf]. intros x (? & ? & ? & ?). lia. }
    split; intros; destruct (Z.gtb_spec (a_offset a' + n) capacity); try lia; auto.
    rewrite (w64_small (mem + a_offset a')) by lia. replace (mem + capacity - (capacity - a_offset a')) with (mem + a_offset a') by lia.
    eexists. reflexivity.
  - right. destruct (Z.gtb_spec (a_offset a' + n) capacity); [|lia]. split; auto.
    unfold w64, wrap. replace (capacity - a_offset a') with ((capacity - a_offset a' + 2 ^ 64) + (-1) * 2 ^ 64) by lia.
    rewrite Z.mod_add by lia. rewrite Z.mod_small by lia. lia.
Qed.

Example arena_free_size_ex :
  exists a a' h, arena_new 4096 200 8 = Ok a /\ arena_run a arena_ex_calls = Ok (a', h) /\ arena_get_free_size a' = 120.
Proof. do 3 eexists. split; [reflexivity|]. split; [vm_compute; reflexivity|]. vm_compute; reflexivity. Qed.

(** The second case happens: filling the arena makes it report almost 2^64 free bytes. *)
Theorem arena_free_size_full_refuted :
  exists a a' h, arena_new 4096 16 8 = Ok a /\ arena_run a [AAllocate 16] = Ok (a', h) /\
    arena_get_free_size a' = 2 ^ 64 - 8.
Proof. do 3 eexists. split; [reflexivity|]. split; [vm_compute; reflexivity|]. vm_compute; reflexivity. Qed.

(** ** C64: AllocatorArena_new *)
Theorem arena2_blocks_since_clear mem capacity align a cs a' h :
  arena_sane mem capacity align -> Forall request2_sane cs ->
  arena2_set (arena2_new align) mem capacity = Ok a -> arena2_run a cs = Ok (a', h) ->
  pairwise_disjoint (since_clear [] h) /\
  Forall (fun x => inside mem capacity x /\ fst x mod align = 0) (since_clear [] h).
Proof.
  intros Hs Hc Hn Hr. unfold arena2_set in Hn. simpl in Hn.
  destruct (Z.eqb_spec (mem mod align) 0) as [Hm|]; [|discriminate]. simpl in Hn. inversion Hn; subst a; clear Hn.
  pose proof Hs as (? & ? & ? & ? & ?).
  eapply arena2_run_inv with (S := []) in Hr; eauto.
  - destruct Hr as (_ & _ & _ & _ & _ & Hf & Hp). split; auto.
    eapply Forall_impl; [|exact Hf]. intros x (? & ? & ? & ?). auto.
  - unfold arena2_inv; simpl. rewrite Zmod_0_l. repeat split; auto; try lia; constructor.
Qed.

(** If the alignment divides the capacity then [get_remaining_capacity] is exact. *)
Theorem arena2_remaining_exact mem capacity align a cs a' h n :
  arena_sane mem capacity align -> capacity mod align = 0 -> Forall request2_sane cs ->
  arena2_set (arena2_new align) mem capacity = Ok a -> arena2_run a cs = Ok (a', h) -> 0 < n < 2 ^ 63 ->
  0 <= arena2_remaining a' <= capacity /\
  Forall (fun x => fst x + snd x <= mem + capacity - arena2_remaining a') (since_clear [] h) /\
  (n <= arena2_remaining a' -> exists a'', arena2_alloc a' n = Ok (a'', mem + capacity - arena2_remaining a')) /\
  (n > arena2_remaining a' -> arena2_alloc a' n = Fail).
Proof.
  intros Hs Hd Hc Hn Hr Hnn. unfold arena2_set in Hn. simpl in Hn.
  destruct (Z.eqb_spec (mem mod align) 0) as [Hm|]; [|discriminate]. simpl in Hn. inversion Hn; subst a; clear Hn.
  pose proof Hs as (? & ? & ? & ? & ?).
  eapply arena2_run_inv with (S := []) in Hr; eauto.
  2: { unfold arena2_inv; simpl. rewrite Zmod_0_l. repeat split; auto; try lia; constructor. }
  destruct Hr as (Em & Ec & Ea & Ho & Hu & Hf & _).
  pose proof (Z.div_mod capacity align ltac:(lia)) as D1. pose proof (Z.div_mod (n_used a') align ltac:(lia)) as D2.
  assert (Hle : n_used a' <= capacity).
  { rewrite Hd in D1. rewrite Hu in D2. assert (n_used a' / align < capacity / align + 1) by nia. nia. }
  assert (Er : arena2_remaining a' = capacity - n_used a').
  { unfold arena2_remaining. rewrite Ec, Ea, w64_small by lia.
    replace (capacity - n_used a') with ((capacity / align - n_used a' / align) * align) at 1 by lia.
    rewrite Z.div_mul by lia. lia. }
  rewrite Er. split; [lia|]. split.
  { eapply Forall_impl; [|exact Hf]. intros x (? & ? & ? & ?). lia. }
  unfold arena2_alloc. destruct (Z.eqb_spec n 0); [lia|]. rewrite Em, Ec. destruct (Z.eqb_spec mem 0); [lia|].
  rewrite (w64_small (n_used a' + n)) by lia.
  split; intros; destruct (Z.gtb_spec (n_used a' + n) capacity); try lia; auto.
  rewrite (w64_small (mem + n_used a')) by lia. replace (mem + capacity - (capacity - n_used a')) with (mem + n_used a') by lia.
  eexists. reflexivity.
Qed.

Example arena2_ex :
  arena_sane 4096 64 16 /\ Forall request2_sane [NAlloc 10; NAlloc 16] /\
  exists a a' h, arena2_set (arena2_new 16) 4096 64 = Ok a /\ arena2_run a [NAlloc 10; NAlloc 16] = Ok (a', h) /\
    since_clear [] h = [(4112, 16); (4096, 10)] /\ arena2_remaining a' = 32.
Proof.
  split; [unfold arena_sane; lia|]. split; [repeat constructor; simpl; lia|].
  do 3 eexists. split; [reflexivity|]. split; [vm_compute; reflexivity|]. split; reflexivity.
Qed.

(** If it does not, a full arena reports almost 2^64 bytes. *)
Theorem arena2_remaining_refuted :
  exists a a' h, arena2_set (arena2_new 16) 4096 20 = Ok a /\ arena2_run a [NAlloc 20] = Ok (a', h) /\
    arena2_remaining a' = 2 ^ 64 - 16.
Proof. do 3 eexists. split; [reflexivity|]. split; [vm_compute; reflexivity|]. vm_compute; reflexivity. Qed.

(** ** C21: the circular buffer allocator hands out disjoint blocks *)

Lemma fop_map {A B} (f : A -> B) (R : B -> B -> Prop) l :
  ForallOrdPairs (fun a b => R (f a) (f b)) l -> ForallOrdPairs R (map f l).
Proof. induction 1; simpl; constructor; auto. now apply Forall_map. Qed.

Lemma fop_perm {A} (R : A -> A -> Prop) l l' : (forall x y, R x y -> R y x) ->
  Permutation l l' -> ForallOrdPairs R l -> ForallOrdPairs R l'.
Proof.
  intros Hs. induction 1; intros HF; auto.
  - inversion HF; subst. constructor; auto. rewrite <- H. auto.
  - inversion HF; subst. inversion H2; subst. inversion H1; subst.
    constructor; [constructor|constructor]; auto.
Qed.

Lemma chain_fop lo B hi base pool : Forall (good base pool) B -> chain lo B hi ->
  ForallOrdPairs (fun a b => g_end a <= g_start b) B.
Proof.
  revert lo. induction B as [|b B IH]; intros lo Hg H; constructor.
  - rewrite Forall_forall. intros c Hc. eapply (chain_order lo [] b B); eauto.
  - inversion Hg; subst. destruct H. eauto.
Qed.

Lemma held_disjoint base pool k s B : 0 < pool -> cinv base pool k s B ->
  pairwise_disjoint (map extent (map (gof pool) (filter g_held B))).
Proof.
  intros Hp (_ & _ & Hc & Hg & Hh & _). rewrite map_map. apply fop_map.
  pose proof (chain_fop _ _ _ _ _ Hg Hc) as F.
  assert (G : Forall (fun b => g_held b = true -> start_full s <= g_start b /\ good base pool b /\
                               g_end b <= start_full s + pool) B).
  { rewrite Forall_forall in *. intros b Hb Eb. split; [|split; auto]. eapply (chain_lo _ B); eauto.
    rewrite Forall_forall; exact Hg. }
  clear Hc Hg Hh. induction F as [|a l Ha F IH]; simpl; [constructor|].
  inversion G as [|? ? G1 G2]; subst. specialize (IH G2).
  destruct (g_held a) eqn:Ea; auto. constructor; auto. rewrite Forall_forall in *.
  intros b Hb. apply filter_In in Hb as [Hb Eb]. specialize (Ha _ Hb).
  destruct (G1 eq_refl) as (A1 & (A2 & A3 & A4 & A5 & _) & A6). destruct (G2 _ Hb Eb) as (B1 & (B2 & B3 & B4 & B5 & _) & B6).
  unfold disjoint, extent, gof; simpl.
  pose proof (Z.div_mod (g_al a) pool ltac:(lia)). pose proof (Z.mod_pos_bound (g_al a) pool ltac:(lia)).
  pose proof (Z.div_mod (g_al b) pool ltac:(lia)). pose proof (Z.mod_pos_bound (g_al b) pool ltac:(lia)).
  assert (g_al a / pool <= g_al b / pool) by (apply Z.div_le_mono; lia).
  assert (g_al b / pool < g_al a / pool + 2) by nia.
  assert (E : g_al b / pool = g_al a / pool \/ g_al b / pool = g_al a / pool + 1) by lia.
  destruct E as [E|E]; rewrite E in *; [left|right]; nia.
Qed.

(** Under every interleaving the blocks held by clients are disjoint, inside the pool and aligned. *)
Theorem cbmb_granted_disjoint base pool k s :
  0 < pool -> 4 * pool <= 2 ^ 64 -> cbmb_reach base pool k s ->
  pairwise_disjoint (map extent (granted s)) /\
  Forall (fun b => 0 < b_size b /\ inside 0 pool (extent b) /\ (base + b_off b) mod b_align b = 0) (granted s).
Proof.
  intros Hp H4 Hr. destruct (reach_inv base pool Hp k s H4 Hr) as (B & HI).
  pose proof (held_disjoint _ _ _ _ _ Hp HI) as D. pose proof HI as (_ & _ & Hc & Hg & _ & _ & P & _).
  split.
  - eapply fop_perm; [apply disjoint_sym| |exact D]. apply Permutation_map. now symmetry.
  - rewrite P. apply Forall_map. rewrite Forall_forall in *. intros b Hb. apply filter_In in Hb as [Hb _].
    destruct (Hg _ Hb) as (? & ? & ? & Hq & Ha & Hm1 & Hm2 & Hm3). unfold inside, extent, gof; simpl.
    pose proof (Z.div_mod (g_al b) pool ltac:(lia)). pose proof (Z.mod_pos_bound (g_al b) pool ltac:(lia)).
    pose proof (Z.div_mod (g_end b - 1) pool ltac:(lia)). pose proof (Z.mod_pos_bound (g_end b - 1) pool ltac:(lia)).
    rewrite <- Hq in *. repeat split; try lia.
    assert (E : (g_al b mod pool) mod g_align b = 0).
    { pose proof (Z.div_mod pool (g_align b) ltac:(lia)) as Dp. rewrite Hm2 in Dp.
      replace (g_al b mod pool) with (g_al b + (- (g_al b / pool * (pool / g_align b))) * g_align b) by nia.
      rewrite Z.mod_add by lia. auto. }
    rewrite Z.add_mod, Hm3, E by lia. apply Zmod_0_l.
Qed.

(** Returning a held pointer never fails and takes exactly that block from the client. *)
Theorem cbmb_deallocate_exact base pool k s b :
  0 < pool -> 4 * pool <= 2 ^ 64 -> cbmb_reach base pool k s -> In b (granted s) ->
  exists s', cbmb_exec base pool s (EDeallocate (b_off b)) = Some (Ok s') /\
    Permutation (granted s) (b :: granted s') /\ waiting s' = waiting s /\
    length (full_blocks s) = S (length (full_blocks s')).
Proof.
  intros Hp H4 Hr Hb. destruct (reach_inv base pool Hp k s H4 Hr) as (B & HI).
  destruct (cbmb_granted_disjoint _ _ _ _ Hp H4 Hr) as [D F].
  assert (He : existsb (fun x => b_off x =? b_off b) (granted s) = true).
  { apply existsb_exists. exists b. split; auto. apply Z.eqb_refl. }
  destruct (deallocate_inv base pool Hp k s B (b_off b) HI He) as (s' & Es & _ & (b' & Eb & P) & Ew & _).
  exists s'. simpl. rewrite He, Es. split; auto. split; [|split]; auto.
  - assert (b' = b); [|now subst].
    assert (Hb' : In b' (granted s)) by (rewrite P; now left).
    assert (FO : ForallOrdPairs (fun x y => disjoint (extent x) (extent y)) (granted s)).
    { clear - D. induction (granted s); simpl in *; constructor.
      - inversion D as [|? ? Q1 Q2]; subst. apply (proj1 (Forall_map _ _ _)) in Q1. exact Q1.
      - inversion D; subst. auto. }
    rewrite Forall_forall in F. destruct (F _ Hb) as (? & _). destruct (F _ Hb') as (? & _).
    destruct (ForallOrdPairs_In FO b' b Hb' Hb) as [|[]]; auto; unfold disjoint, extent in *; simpl in *; lia.
  - unfold cbmb_deallocate in Es. destruct (remove_first _ (full_blocks s)) eqn:Er; [|discriminate].
    inversion Es; subst; simpl. clear - Er. revert l Er. induction (full_blocks s) as [|x t IH]; simpl; intros l E; [discriminate|].
    destruct (snd x mod pool =? b_off b); [inversion E; auto|]. destruct (remove_first _ t) as [r|]; [|discriminate].
    inversion E; subst. simpl. f_equal. now apply IH.
Qed.

(** every short error-free run is a run of the transition system *)
Lemma steps_reach base pool es : forall k s s', cbmb_reach base pool k s -> Forall event_sane es ->
  0 < pool -> 2 * pool * (Z.of_nat (k + length es) + 3) <= 2 ^ 64 -> cbmb_steps base pool s es = Some s' ->
  exists k', cbmb_reach base pool k' s'.
Proof.
  induction es as [|e es IH]; intros k s s' Hr Hs Hp Hk E; cbn [cbmb_steps length] in *.
  - inversion E; subst; eauto.
  - inversion Hs; subst. destruct (cbmb_exec base pool s e) as [[s1| |]|] eqn:Ee; try discriminate.
    assert (Hr1 : cbmb_reach base pool (if idle s1 then 0 else k + advances e) s1).
    { eapply reach_step; eauto. nia. }
    eapply IH; eauto. assert (advances e <= 1)%nat by (destruct e; simpl; lia). destruct (idle s1); nia.
Qed.

Definition cbmb_ex_steps : list cbmb_event :=
  [EAllocate 20 8; EAllocate 30 16; EAllocate 40 1; EDeallocate 0; ENotify; EWake 0; EAllocate 10 4].
Example cbmb_ex :
  exists k s, cbmb_reach 4096 64 k s /\
    map extent (granted s) = [(32, 30)] /\ map q_end (waiting s) = [104; 114].
Proof.
  assert (P : forall j, 0 <= j <= 64 -> power_of_two (2 ^ j)) by (intros j ?; now exists j).
  destruct (steps_reach 4096 64 cbmb_ex_steps 0 cbmb_new
    ltac:(let r := eval vm_compute in (cbmb_steps 4096 64 cbmb_new cbmb_ex_steps) in
          match r with Some ?s => exact s end)) as (k & Hk).
  - constructor.
  - repeat constructor; try lia; [apply (P 3)|apply (P 4)|apply (P 0)|apply (P 2)]; lia.
  - lia.
  - simpl. lia.
  - vm_compute. reflexivity.
  - do 2 eexists. split; [exact Hk|]. split; reflexivity.
Qed.

(** An alignment that is not a power of two is not respected (the first block is placed at 0 - 1 + ...). *)
Theorem cbmb_align3_refuted :
  exists s, cbmb_steps 0 6 cbmb_new [EAllocate 1 3] = Some s /\
    exists b, In b (granted s) /\ b_align b = 3 /\ b_off b mod 3 <> 0.
Proof.
  eexists. split; [vm_compute; reflexivity|]. eexists. split; [now left|]. split; [reflexivity|]. vm_compute. discriminate.
Qed.

(** When the 64-bit position wraps around while something is held, an overlapping block is granted. *)
Theorem cbmb_position_wrap_refuted :
  exists s, cbmb_steps 0 (2 ^ 62) cbmb_new
      [EAllocate (2 ^ 62) 1; EAllocate (2 ^ 62) 1; EAllocate (2 ^ 62) 1; EAllocate (2 ^ 62) 1] = Some s /\
    ~ pairwise_disjoint (map extent (granted s)).
Proof.
  eexists. split; [vm_compute; reflexivity|]. simpl. intros H. apply pairwise_cons in H as [H _].
  apply Forall_inv in H. unfold disjoint in H. simpl in H. lia.
Qed.

(** ** C22: no request waits forever *)

(** If everything granted has been returned, the oldest waiting request can be granted. *)
Theorem cbmb_oldest_grantable base pool k s q r :
  power_of_two pool -> 4 * pool <= 2 ^ 64 -> cbmb_reach base pool k s ->
  granted s = [] -> waiting s = q :: r -> grantable pool s q.
Proof.
  intros P H4 Hr Eg Ew. assert (Hp : 0 < pool) by (destruct P as (j & ? & ->); apply Z.pow_pos_nonneg; lia).
  destruct (reach_inv base pool Hp k s H4 Hr) as (B & HI). unfold grantable. rewrite (fits_eq base pool Hp k s B) by auto.
  destruct HI as (_ & _ & Hc & Hg & _ & Hw & Hpm & _ & _ & _ & H2). specialize (H2 P).
  rewrite Eg in Hpm. apply Permutation_nil in Hpm. apply map_eq_nil in Hpm.
  rewrite Ew in Hw. destruct B as [|b B]; [discriminate|]. simpl in *.
  unfold free_ in Hw at 1. destruct (g_held b); [discriminate|]. simpl in Hw. unfold strip, wof at 1 in Hw.
  inversion Hw as [[E1 E2 E3 E4 E5]]. inversion Hg as [|? ? (? & ? & ? & _) _]; subst. apply Z.leb_le. lia.
Qed.

(** Requests become grantable in the order in which they were made. *)
Theorem cbmb_fifo base pool k s i j q q' :
  0 < pool -> 4 * pool <= 2 ^ 64 -> cbmb_reach base pool k s ->
  nth_error (waiting s) i = Some q -> nth_error (waiting s) j = Some q' -> (i < j)%nat ->
  grantable pool s q' -> grantable pool s q.
Proof.
  intros Hp H4 Hr Ei Ej Hij Hq'. destruct (reach_inv base pool Hp k s H4 Hr) as (B & HI).
  unfold grantable in *. rewrite (fits_eq base pool Hp k s B) in * by auto.
  pose proof HI as (_ & _ & Hc & Hg & _ & Hw & _).
  destruct (waiting_block _ _ _ _ Hw Ei) as (B1 & b & B2 & EB & Li & Hb & Es).
  destruct (waiting_block _ _ _ _ Hw Ej) as (C1 & c & C2 & EC & Lj & Hcc & Es').
  assert (In c B2).
  { rewrite EB in EC. clear - EC Li Lj Hij Hb Hcc. revert C1 i j EC Li Lj Hij.
    induction B1 as [|x B1 IH]; simpl; intros [|y C1] i j EC Li Lj Hij; simpl in *.
    - subst. lia.
    - inversion EC; subst. apply in_or_app. right. now left.
    - inversion EC; subst. lia.
    - inversion EC; subst. apply (IH C1 _ _ H1 eq_refl eq_refl). destruct (free_ y); simpl in *; lia. }
  rewrite EB in *. pose proof (chain_order _ _ _ _ _ _ _ _ Hg Hc H) as Ho.
  inversion Es. inversion Es'.
  rewrite Forall_forall in Hg. destruct (Hg c) as (? & ? & ? & _); [apply in_or_app; right; now right|].
  apply Z.leb_le. apply Z.leb_le in Hq'. lia.
Qed.

(** A new request overtakes waiting ones only if they can all be granted too. *)
Theorem cbmb_no_overtaking base pool k s n align s' q :
  0 < pool -> 2 * pool * (Z.of_nat k + 3) <= 2 ^ 64 -> cbmb_reach base pool k s ->
  power_of_two align -> 0 < n -> cbmb_exec base pool s (EAllocate n align) = Some (Ok s') ->
  granted s' <> granted s -> In q (waiting s) -> grantable pool s' q.
Proof.
  intros Hp Hk Hr Ha Hn He Hne Hq. assert (H4 : 4 * pool <= 2 ^ 64) by nia.
  destruct (reach_inv base pool Hp k s H4 Hr) as (B & HI). unfold grantable.
  pose proof HI as (_ & H0 & Hc & Hg & _ & Hw & _ & Hse & _).
  simpl in He. unfold cbmb_allocate in He.
  destruct (Z.eqb_spec n 0); [lia|]. destruct (Z.gtb_spec n pool); [discriminate|].
  destruct (Z.eqb_spec (pool mod align) 0); [|discriminate]. simpl negb in He. cbv iota in He.
  destruct (Z.eqb_spec (base mod align) 0); [|discriminate]. simpl negb in He. cbv iota in He.
  pose proof (chain_le _ _ _ _ _ Hg Hc).
  destruct (place_ok base pool (start_empty s) n align) as (st & al & Ep & Hst & Hal & Hz & Hgood); auto; try nia.
  rewrite Ep in He. destruct (in_transaction s && _); [discriminate|].
  rewrite (fits_eq base pool Hp k s B) in He by auto.
  destruct (Z.leb_spec (al + n) (start_full s + pool)) as [Hf|]; inversion He; subst s'; cbn [start_full granted] in *; [|congruence].
  rewrite (fits_eq base pool Hp k s B) by auto. apply Z.leb_le.
  destruct (In_nth_error _ _ Hq) as (i & Ei).
  destruct (waiting_block _ _ _ _ Hw Ei) as (B1 & b & B2 & EB & Li & Hb & Es). inversion Es.
  assert (Hin : In b B) by (rewrite EB; apply in_or_app; right; now left).
  pose proof (chain_hi _ _ _ _ _ _ Hg Hc Hin). destruct (Hgood true) as (? & ? & _). cbn [g_al g_start g_end] in *. lia.
Qed.

(** Once grantable, a waiting request stays grantable. *)
Theorem cbmb_grantable_stable base pool k s e s' q :
  0 < pool -> 4 * pool <= 2 ^ 64 -> cbmb_reach base pool k s -> cbmb_exec base pool s e = Some (Ok s') ->
  In q (waiting s) -> grantable pool s q -> grantable pool s' q.
Proof.
  intros Hp H4 Hr He Hq Hg. destruct (reach_inv base pool Hp k s H4 Hr) as (B & HI). unfold grantable in *.
  destruct e; simpl in He.
  - inversion He as [E]. unfold cbmb_allocate in E.
    repeat match type of E with (if ?c then _ else _) = _ => destruct c; try discriminate end; [now inversion E; subst|].
    destruct (cbmb_place pool (start_empty s) n align) as [[? ?] ?].
    destruct (in_transaction s && _); [discriminate|]. inversion E; subst; simpl. auto.
  - unfold cbmb_wake in He. destruct (nth_error (waiting s) i); [|discriminate]. simpl in He.
    destruct (cbmb_fits pool (start_full s) (q_end w)); simpl in He; inversion He; subst; auto.
  - destruct (existsb _ (granted s)) eqn:E; [|discriminate].
    destruct (deallocate_inv base pool Hp k s B off HI E) as (s1 & E1 & _ & _ & _ & Hf).
    rewrite E1 in He. inversion He; subst. apply Hf; auto. intros E2. rewrite E2 in Hq. destruct Hq.
  - destruct (notifying s); inversion He; subst; auto.
  - destruct (in_transaction s); inversion He; subst; auto.
  - destruct (in_transaction s); inversion He; subst; auto.
Qed.

(** No wake-up is lost: a blocked call whose predicate holds has been notified or is about to be. *)
Theorem cbmb_no_lost_wakeup base pool k s q :
  cbmb_reach base pool k s -> In q (waiting s) -> grantable pool s q ->
  q_notified q = true \/ (0 < notifying s)%nat.
Proof.
  unfold grantable. intros Hr. revert q. induction Hr as [|k s e s' Hr IH Hs He Hk]; [intros q []|].
  intros q Hq Hg. destruct e; simpl in He.
  - inversion He as [E]. unfold cbmb_allocate in E.
    repeat match type of E with (if ?c then _ else _) = _ => destruct c; try discriminate end; [inversion E; subst; auto|].
    destruct (cbmb_place pool (start_empty s) n align) as [[? ?] z].
    destruct (in_transaction s && _); [discriminate|]. inversion E; subst; simpl in *.
    destruct (cbmb_fits pool (start_full s) z) eqn:Ef; auto.
    apply in_app_or in Hq as [Hq|[Hq|[]]]; auto. subst q. simpl in Hg. congruence.
  - unfold cbmb_wake in He. destruct (nth_error (waiting s) i) as [w|] eqn:Ew; [|discriminate]. simpl in He.
    destruct (cbmb_fits pool (start_full s) (q_end w)) eqn:Ef; simpl in He; inversion He; subst; simpl in *.
    + apply IH; auto. apply in_app_or in Hq as [Hq|Hq].
      * rewrite <- (firstn_skipn i (waiting s)). apply in_or_app; auto.
      * rewrite <- (firstn_skipn (S i) (waiting s)). apply in_or_app; auto.
    + apply In_nth_error in Hq as (j & Ej). destruct (Nat.eq_dec i j) as [->|Hij].
      * rewrite nth_error_upd_eq in Ej. 2: { apply nth_error_Some. congruence. }
        inversion Ej; subst q. simpl in Hg. congruence.
      * rewrite nth_error_upd_neq in Ej by auto. apply IH; auto. now apply nth_error_In with j.
  - destruct (existsb _ (granted s)); [|discriminate]. unfold cbmb_deallocate in He.
    destruct (remove_first _ (full_blocks s)); inversion He; subst; simpl. right; lia.
  - destruct (notifying s); inversion He; subst; simpl in *. apply in_map_iff in Hq as (q0 & <- & _). auto.
  - destruct (in_transaction s); inversion He; subst; simpl in *; auto.
  - destruct (in_transaction s); inversion He; subst; simpl in *; auto.
Qed.

(** From every reachable state the threads can finish: by only returning blocks and waking up, all requests are served
    and returned. *)
Lemma drains_aux base pool : power_of_two pool -> 4 * pool <= 2 ^ 64 -> forall m k s B,
  cinv base pool k s B -> (length (waiting s) + length (waiting s) + length (granted s) <= m)%nat ->
  exists es s', Forall finishing es /\ cbmb_steps base pool s es = Some s' /\ waiting s' = [] /\ granted s' = [].
Proof.
  intros P H4. assert (Hp : 0 < pool) by (destruct P as (j & ? & ->); apply Z.pow_pos_nonneg; lia).
  induction m as [|m IH]; intros k s B HI Hm.
  { exists [], s. simpl. destruct (waiting s), (granted s); simpl in Hm; try lia. auto. }
  destruct (granted s) as [|b g] eqn:Eg.
  - destruct (waiting s) as [|q r] eqn:Ew.
    { exists [], s. simpl. auto. }
    assert (Hf : cbmb_fits pool (start_full s) (q_end q) = true).
    { rewrite (fits_eq base pool Hp k s B) by auto.
      destruct HI as (_ & _ & Hc & Hg & _ & Hw & Hpm & _ & _ & _ & H2). specialize (H2 P).
      rewrite Eg in Hpm. apply Permutation_nil in Hpm. apply map_eq_nil in Hpm.
      rewrite Ew in Hw. destruct B as [|b B]; [discriminate|]. simpl in *.
      unfold free_ in Hw at 1. destruct (g_held b); [discriminate|]. simpl in Hw. unfold strip, wof at 1 in Hw.
      inversion Hw as [[E1 E2 E3 E4 E5]]. inversion Hg as [|? ? (? & ? & ? & _) _]; subst. apply Z.leb_le. lia. }
    assert (Hw : cbmb_wake pool s 0 =
                 Some (set_waiting s r (granted s ++ [{| b_off := q_aligned q mod pool; b_size := q_size q; b_align := q_align q |}]))).
    { unfold cbmb_wake. rewrite Ew. simpl. now rewrite Hf. }
    destruct (wake_inv base pool Hp _ _ _ _ _ HI Hw) as (B' & HI').
    destruct (IH _ _ _ HI') as (es & s' & F & Es & ? & ?).
    { simpl. rewrite Eg. simpl in *. lia. }
    exists (EWake 0 :: es), s'. split; [constructor; [exact I|auto]|]. simpl. rewrite Hw. simpl. auto.
  - assert (He : existsb (fun x => b_off x =? b_off b) (granted s) = true).
    { rewrite Eg. simpl. now rewrite Z.eqb_refl. }
    destruct (deallocate_inv base pool Hp k s B (b_off b) HI He) as (s1 & Es & (B' & HI') & (b' & Eb & Pm) & Ew & _).
    assert (L : length (granted s) = S (length (granted s1))).
    { apply Permutation_length in Pm. auto. }
    destruct (IH _ _ _ HI') as (es & s' & F & Es' & ? & ?).
    { rewrite Ew. rewrite Eg in L. simpl in *. lia. }
    exists (EDeallocate (b_off b) :: es), s'. split; [constructor; [exact I|auto]|]. simpl.
    rewrite Eg in He |- *. simpl in He |- *. rewrite He. simpl. rewrite Es. auto.
Qed.

Theorem cbmb_drains base pool k s :
  power_of_two pool -> 4 * pool <= 2 ^ 64 -> cbmb_reach base pool k s ->
  exists es s', Forall finishing es /\ cbmb_steps base pool s es = Some s' /\ waiting s' = [] /\ granted s' = [].
Proof.
  intros P H4 Hr. assert (Hp : 0 < pool) by (destruct P as (j & ? & ->); apply Z.pow_pos_nonneg; lia).
  destruct (reach_inv base pool Hp k s H4 Hr) as (B & HI). eapply drains_aux; eauto.
Qed.

(** A pool whose size does not divide 2^64: a single request of 5 of 6 bytes waits although nothing is held. *)
Theorem cbmb_pool6_refuted :
  exists s q, cbmb_steps 0 6 cbmb_new
      [EBegin; EAllocate 4 1; EEnd; EDeallocate 0; ENotify; EBegin; EEnd; EAllocate 5 1] = Some s /\
    waiting s = [q] /\ granted s = [] /\ ~ grantable 6 s q.
Proof.
  do 2 eexists. split; [vm_compute; reflexivity|]. split; [reflexivity|]. split; [reflexivity|]. vm_compute. discriminate.
Qed.

(** ** C65: transactions *)

(** A transaction begun on an idle resource never blocks: a request either gets memory at once or is reported. *)
Theorem cbmb_transaction_never_blocks base pool k s es s' :
  power_of_two pool -> 4 * pool <= 2 ^ 64 -> cbmb_reach base pool k s -> idle s = true -> in_transaction s = false ->
  Forall event_sane es -> Forall (fun e => e <> EEnd) es ->
  cbmb_steps base pool s (EBegin :: es) = Some s' -> waiting s' = [].
Proof.
  intros P H4 Hr Hi Ht Hes Hne. assert (Hp : 0 < pool) by (destruct P as (j & ? & ->); apply Z.pow_pos_nonneg; lia).
  destruct (reach_inv base pool Hp k s H4 Hr) as (B & HI). simpl. rewrite Ht.
  set (I s := in_transaction s = true /\ transaction_end_fail s = pool /\ waiting s = [] /\
              0 <= start_empty s <= pool /\ 0 <= start_full s <= pool /\
              Forall (fun b : Z * Z => 0 <= fst b <= pool) (full_blocks s)).
  assert (I0 : I (cbmb_begin pool s)).
  { assert (B = []).
    { destruct HI as (_ & _ & _ & _ & _ & Hw & Hpm & _). unfold idle in Hi.
      destruct (waiting s); [|discriminate]. destruct (granted s); [|discriminate].
      apply Permutation_nil in Hpm. apply map_eq_nil in Hpm. symmetry in Hw. simpl in Hw. apply map_eq_nil in Hw.
      destruct B as [|b B]; auto. simpl in *. unfold free_ in Hw at 1. destruct (g_held b); simpl in *; discriminate. }
    subst B. destruct HI as (Ef & _ & _ & _ & _ & Hw & _ & _ & _ & He & H2). specialize (H2 P). simpl in H2.
    destruct (He eq_refl) as [E0 _]. unfold I, cbmb_begin; simpl. rewrite H2, E0, Ef.
    split; auto. split. { apply w64_small. lia. }
    split. { simpl in Hw. now apply map_eq_nil in Hw. } simpl. repeat split; auto; lia. }
  assert (Step : forall s e s', I s -> event_sane e -> e <> EEnd -> cbmb_exec base pool s e = Some (Ok s') -> I s').
  { clear - Hp H4. intros s e s' (Ht & Hf & Hw & Hse & Hsf & Hb) Hs Hne He. unfold I. destruct e; simpl in He.
    - inversion He as [E]. clear He. destruct Hs as [Hn Ha]. unfold cbmb_allocate in E.
      destruct (Z.eqb_spec n 0). { inversion E; subst s'. repeat split; auto; lia. }
      destruct (Z.gtb_spec n pool); [discriminate|].
      destruct (Z.eqb_spec (pool mod align) 0); [|discriminate]. simpl negb in E. cbv iota in E.
      destruct (Z.eqb_spec (base mod align) 0); [|discriminate]. simpl negb in E. cbv iota in E.
      destruct (place_ok base pool (start_empty s) n align) as (st & al & Ep & Hst & Hal & Hz & Hgood); auto; try lia.
      rewrite Ep, Ht, Hf in E. destruct (Hgood true) as (? & ? & _). cbn [g_al g_start g_end andb] in *.
      destruct (Z.gtb_spec (al + n) pool); [discriminate|].
      unfold cbmb_fits in E. rewrite (w64_small (start_full s + pool)) in E by lia.
      destruct (Z.leb_spec (al + n) (start_full s + pool)); [|lia].
      inversion E; subst s'; simpl. repeat split; auto; try lia.
      apply Forall_app; split; auto. constructor; auto. simpl. lia.
    - unfold cbmb_wake in He. rewrite Hw in He. destruct i; discriminate.
    - destruct (existsb _ (granted s)); [|discriminate]. unfold cbmb_deallocate in He.
      destruct (remove_first _ (full_blocks s)) as [fb|] eqn:Er; inversion He; subst s'; simpl.
      assert (F : Forall (fun b : Z * Z => 0 <= fst b <= pool) fb).
      { clear - Er Hb. revert fb Er. induction (full_blocks s) as [|x t IH]; simpl; intros fb E; [discriminate|].
        inversion Hb; subst. destruct (snd x mod pool =? off); [inversion E; subst; auto|].
        destruct (remove_first _ t); [|discriminate]. inversion E; subst. constructor; auto. }
      split; auto. split; auto. split; auto. destruct fb as [|b fb]; simpl; repeat split; auto; try lia.
      all: inversion F; subst; lia.
    - destruct (notifying s); inversion He; subst s'; simpl. rewrite Hw. repeat split; auto; lia.
    - rewrite Ht in He. discriminate.
    - congruence. }
  assert (G : forall es s, I s -> Forall event_sane es -> Forall (fun e => e <> EEnd) es ->
              cbmb_steps base pool s es = Some s' -> I s').
  { clear - Step. induction es as [|e es IH]; simpl; intros s HI Hs Hn He.
    - now inversion He; subst.
    - inversion Hs; inversion Hn; subst. destruct (cbmb_exec base pool s e) as [[s1| |]|] eqn:E; try discriminate.
      eapply (IH s1); eauto. }
  intros Hst. apply (G es (cbmb_begin pool s)); auto.
Qed.

Example cbmb_transaction_ex :
  exists s, cbmb_steps 0 128 cbmb_new [EBegin; EAllocate 60 4; EAllocate 60 8] = Some s /\
    waiting s = [] /\ map extent (granted s) = [(0, 60); (64, 60)].
Proof. eexists. split; [vm_compute; reflexivity|]. split; reflexivity. Qed.

(** If the resource becomes idle during a transaction begun earlier, the check for too large transactions (which
    remembers the old position) does not fire and the transaction waits for itself: the only block held is its own. *)
Theorem cbmb_transaction_selfdeadlock_refuted :
  exists s q, cbmb_steps 0 128 cbmb_new
      [EAllocate 100 1; EBegin; EDeallocate 0; ENotify; EAllocate 100 1; EAllocate 100 1] = Some s /\
    waiting s = [q] /\ length (granted s) = 1%nat /\ ~ grantable 128 s q.
Proof.
  do 2 eexists. split; [vm_compute; reflexivity|]. split; [reflexivity|]. split; [reflexivity|]. vm_compute. discriminate.
Qed.

Print Assumptions arena_blocks_since_reset.
Print Assumptions arena_blocks_outstanding.
Print Assumptions arena_huge_request_refuted.
Print Assumptions arena_free_size.
Print Assumptions arena_free_size_full_refuted.
Print Assumptions arena2_blocks_since_clear.
Print Assumptions arena2_remaining_exact.
Print Assumptions arena2_remaining_refuted.
Print Assumptions cbmb_granted_disjoint.
Print Assumptions cbmb_deallocate_exact.
Print Assumptions cbmb_align3_refuted.
Print Assumptions cbmb_position_wrap_refuted.
Print Assumptions cbmb_oldest_grantable.
Print Assumptions cbmb_fifo.
Print Assumptions cbmb_no_overtaking.
Print Assumptions cbmb_grantable_stable.
Print Assumptions cbmb_no_lost_wakeup.
Print Assumptions cbmb_drains.
Print Assumptions cbmb_pool6_refuted.
Print Assumptions cbmb_transaction_never_blocks.
Print Assumptions cbmb_transaction_selfdeadlock_refuted.
