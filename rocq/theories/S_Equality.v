(** * Which constraints glue the domains and fix the Dirichlet values

    [N] degrees of freedom (DOFs) of the whole problem; DOF [g] has one copy in each of the domains [copies g] (in increasing order), it is
    stored at the position [index r d g] of the vector of domain [d] (of rank [r]).  Some DOFs are [fixed] by Dirichlet conditions.
    Domains and ranks as in S_Dual. *)
From Coq Require Import List Arith Bool Permutation Sorted Reals.
From Verif Require Import Base S_Order S_Dual M_Dual.
Import ListNotations.

(** a constraint: the copies of a DOF in its first [size] domains, or the copy of a fixed DOF in a domain *)
Inductive multiplier := Glue (g size : nat) | Fix (d g : nat).

(** lexicographical order of lists (a proper prefix is smaller) *)
Fixpoint lex_lt (a b : list nat) : bool :=
  match a, b with
  | _, [] => false
  | [], _ :: _ => true
  | x :: a, y :: b => (x <? y) || ((x =? y) && lex_lt a b)
  end.

Section Equality.
  Variables (n : nat) (first : nat -> nat) (N : nat) (copies : nat -> list nat) (fixed : nat -> bool) (index : nat -> nat -> nat -> nat).

  Record mesh : Prop := {
    mesh_first : forall r, r < n -> first r <= first (r + 1);
    mesh_copies : forall g, g < N -> StronglySorted lt (copies g);
    mesh_domains : forall g d, g < N -> In d (copies g) -> first 0 <= d < first n
  }.

  (** ** What a rank knows: its DOFs in the common order, their copies and the fixed ones *)
  Definition local (r : nat) : list nat := filter (fun g => touches first r (copies g)) (seq 0 N).
  Definition dmap_of (r : nat) : list (list (nat * nat)) := map (fun g => map (fun d => (d, index r d g)) (copies g)) (local r).
  Definition fixed_of (r : nat) : list nat := filter (fun p => fixed (nth p (local r) 0)) (seq 0 (length (local r))).

  (** the fixed DOFs with their values *)
  Definition dirichlet_of {T} (value : nat -> T) (r : nat) : list (nat * T) := map (fun p => (p, value (nth p (local r) 0))) (fixed_of r).

  (** ** All constraints *)
  Definition domains_of (m : multiplier) : list nat := match m with Glue g size => firstn size (copies g) | Fix d _ => [d] end.
  (** DOF [g] with k copies is glued by k - 1 constraints *)
  Definition all_glue : list (nat * nat) :=
    flat_map (fun g => if fixed g then [] else map (fun size => (g, size)) (seq 2 (length (copies g) - 1))) (seq 0 N).
  (** ordered by their domains, then by the DOF *)
  Definition before (p q : nat * nat) : bool :=
    let a := firstn (snd p) (copies (fst p)) in let b := firstn (snd q) (copies (fst q)) in
    lex_lt a b || (negb (lex_lt b a) && (fst p <? fst q)).
  Definition ordered (glued : list (nat * nat)) : Prop := Permutation glued all_glue /\ strictly_sorted before glued.
  (** followed by the fixed copies, domain by domain *)
  Definition fixed_in (d : nat) : list nat := filter (fun g => fixed g && existsb (Nat.eqb d) (copies g)) (seq 0 N).
  Definition fixes : list multiplier := flat_map (fun d => map (Fix d) (fixed_in d)) (seq (first 0) (first n - first 0)).
  Definition multipliers (glued : list (nat * nat)) : list multiplier := map (fun p => Glue (fst p) (snd p)) glued ++ fixes.

  (** the constraints of a rank: [held] of S_Dual *)
  Definition held_multipliers (r : nat) (ms : list multiplier) : list multiplier := filter (fun m => touches first r (domains_of m)) ms.

  (** ** The matrix *)
  Section Matrix.
    Context {T : Type}.
    Variables (one : T) (low diag : nat -> T).
    (** [k = size - 1] times [low k] and once [diag k] *)
    Definition coefficient (size c : nat) : T := if c <? size - 1 then low (size - 1) else diag (size - 1).
    (** the entries of a constraint in a domain of rank [r]: (column, value) *)
    Definition entries (r d : nat) (m : multiplier) : list (nat * T) :=
      match m with
      | Glue g size => map (fun c => (index r d g, coefficient size c)) (filter (fun c => nth c (copies g) 0 =? d) (seq 0 size))
      | Fix d' g => if d' =? d then [(index r d g, one)] else []
      end.
    (** the rows of a domain: (position of the constraint on the rank, (column, value)) *)
    Definition rows_of (r d : nat) (ms : list multiplier) : list (nat * (nat * T)) :=
      flat_map (fun x => map (pair (fst x)) (entries r d (snd x))) (combine (seq 0 (length ms)) ms).
  End Matrix.

  (** ** The matrix as linear algebra over the real numbers

      [ix d g]: the position of DOF [g] in the vector of domain [d]; [len d]: the length of that vector; [u d]: the vector *)
  Section Reals.
    Local Open Scope R_scope.
    Definition Sum {A} (l : list A) (f : A -> R) : R := fold_right (fun x s => f x + s) 0 l.
    Variables (low diag : nat -> R) (ix : nat -> nat -> nat) (len : nat -> nat).
    Definition all_domains : list nat := seq (first 0) (first n - first 0).
    Definition own_domains (r : nat) : list nat := seq (first r) (first (r + 1) - first r).
    (** the element of the constraint [m] at the position [j] of domain [d] *)
    Definition entry (m : multiplier) (d j : nat) : R :=
      match m with
      | Glue g size => Sum (seq 0 size) (fun c => if (nth c (copies g) O =? d)%nat && (ix d g =? j)%nat then coefficient low diag size c else 0)
      | Fix d' g => if (d' =? d)%nat && (ix d g =? j)%nat then 1 else 0
      end.
    (** the part of B u of the domains [ds] *)
    Definition product (ds : list nat) (u : nat -> list R) (m : multiplier) : R :=
      Sum ds (fun d => Sum (seq 0 (len d)) (fun j => entry m d j * nth j (u d) 0)).
    (** the product of two rows *)
    Definition row_product (m m' : multiplier) : R :=
      Sum all_domains (fun d => Sum (seq 0 (len d)) (fun j => entry m d j * entry m' d j)).
    (** the vectors have the right length, and different DOFs of a domain different positions in it *)
    Definition numbered : Prop :=
      (forall d g, (g < N)%nat -> In d (copies g) -> (ix d g < len d)%nat) /\
      (forall d g g', (g < N)%nat -> (g' < N)%nat -> In d (copies g) -> In d (copies g') -> ix d g = ix d g' -> g = g').
    (** the copies of a DOF are the same; the copies of a fixed DOF have the prescribed value *)
    Definition continuous (u : nat -> list R) : Prop :=
      forall g d d', (g < N)%nat -> fixed g = false -> In d (copies g) -> In d' (copies g) -> nth (ix d g) (u d) 0 = nth (ix d' g) (u d') 0.
    Definition prescribed (value : nat -> R) (u : nat -> list R) : Prop :=
      forall g d, (g < N)%nat -> fixed g = true -> In d (copies g) -> nth (ix d g) (u d) 0 = value g.
  End Reals.
  (** the right-hand side of a constraint *)
  Definition rhs {T} (zero : T) (value : nat -> T) (m : multiplier) : T := match m with Glue _ _ => zero | Fix _ g => value g end.
End Equality.
