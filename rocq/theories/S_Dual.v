(** * Lagrange multipliers shared by ranks

    The domains are numbered from 0; rank [r] holds the domains [first r, first (r + 1)).  A multiplier glues some domains together; every
    rank that holds one of them keeps a copy of the multiplier.  [L]: the domains of the multipliers, in the common (global) order. *)
From Coq Require Import List Arith Bool Permutation.
From Verif Require Import Base S_Nb S_Comm M_Dual.
Import ListNotations.

Section Sharing.
  Variables (n : nat) (first : nat -> nat) (L : list (list nat)).

  (** rank [r] keeps a copy of a multiplier of the domains [ds] *)
  Definition touches (r : nat) (ds : list nat) : bool := existsb (fun d => (first r <=? d) && (d <? first (r + 1))) ds.
  Definition domains (m : nat) : list nat := nth m L [].
  (** the multipliers of rank [r] in the order of its vectors *)
  Definition held (r : nat) : list nat := filter (fun m => touches r (domains m)) (seq 0 (length L)).
  (** the ranks that keep a copy *)
  Definition sharing (m : nat) : list nat := filter (fun r => touches r (domains m)) (seq 0 n).

  (** a vector that holds [v r m] for the multiplier [m] on rank [r] *)
  Definition vector {T} (v : nat -> nat -> T) (r : nat) : list T := map (v r) (held r).

  (** domains in non-decreasing order, each on some rank *)
  Record gluing : Prop := {
    first_mono : forall r, r < n -> first r <= first (r + 1);
    domains_sorted : forall m i j, m < length L -> i < j < length (domains m) -> nth i (domains m) 0 <= nth j (domains m) 0;
    domains_ranks : forall m d, m < length L -> In d (domains m) -> first 0 <= d < first n;
    domains_some : forall m, m < length L -> domains m <> []
  }.

  (** [feti.lambdas.cmap]: blocks of consecutive multipliers with the same domains *)
  Definition cmap_of (blocks : list (nat * list nat)) : list nat := flat_map (fun b => fst b :: length (snd b) :: snd b) blocks.
  Definition expand (blocks : list (nat * list nat)) : list (list nat) := flat_map (fun b => repeat (snd b) (fst b)) blocks.
  Definition describes (cmap : list nat) (r : nat) : Prop := exists blocks, cmap = cmap_of blocks /\ expand blocks = map domains (held r) /\ Forall (fun b => 0 < fst b) blocks.

  Variable nb : nat -> list nat.
  (** the neighbours are known and a rank is not its own neighbour *)
  Definition knows_sharing : Prop :=
    forall r q m, r < n -> q < n -> m < length L -> touches r (domains m) = true -> touches q (domains m) = true -> r <> q -> In q (nb r).
  Definition decomposed (r : nat) : decomposition :=
    {| dbegin := first r; dend := first (r + 1); neighbors := nb r; neighDomain := map first (nb r) ++ [first r] |}.

  (** everything [synchronize] relies on *)
  Record consistent (cmap : nat -> list nat) : Prop := {
    c_gluing : gluing;
    c_neighbours : neighbourhood n nb;
    c_not_me : forall r, r < n -> ~ In r (nb r);
    c_sharing : knows_sharing;
    c_cmap : forall r, r < n -> describes (cmap r) r
  }.

  (** buffers of [initBuffers] with any content *)
  Definition buffers {T} (M : dual_map) (b : list (list T)) : Prop := map (@length T) b = nsize M.

  (** the multipliers common to two ranks *)
  Definition common (r q : nat) : list nat := filter (fun m => touches q (domains m)) (held r).

  (** ** Owners *)
  (** the rank of the first domain *)
  Definition owned (r m : nat) : bool := touches r (firstn 1 (domains m)).
  (** groups of multipliers (equalities, inequalities) that fill [L] *)
  Fixpoint groups (from : nat) (sizes : list nat) : list (nat * nat) :=
    match sizes with [] => [] | s :: sizes => (from, s) :: groups (from + s) sizes end.
  (** the multipliers of rank [r] in a group *)
  Definition held_in (r : nat) (g : nat * nat) : list nat := filter (fun m => touches r (domains m)) (seq (fst g) (snd g)).
  (** [feti.lambdas.intervals]: (halo, size) of every group; the multipliers owned by others are in front *)
  Definition interval_of (r : nat) (g : nat * nat) (i : nat * nat) : Prop :=
    exists halo own, held_in r g = halo ++ own /\ i = (length halo, length own) /\
      (forall m, In m halo -> owned r m = false) /\ (forall m, In m own -> owned r m = true).
  Definition intervals_ok (sizes : list nat) (r : nat) (intervals : list (nat * nat)) : Prop :=
    list_sum sizes = length L /\ Forall2 (interval_of r) (groups 0 sizes) intervals.
End Sharing.

(** what a reduction by MPI_Allreduce may return: any order, any bracketing *)
Inductive reduction {T} (op : T -> T -> T) : list T -> T -> Prop :=
| red_one x : reduction op [x] x
| red_app l l' x y : reduction op l x -> reduction op l' y -> reduction op (l ++ l') (op x y)
| red_perm l l' x : Permutation l l' -> reduction op l x -> reduction op l' x.
