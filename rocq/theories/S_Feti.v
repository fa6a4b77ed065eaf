(** * The dual problem of FETI over the real numbers

    Domains, ranks and multipliers as in S_Dual: [L] are the domains of the multipliers in the common order.  The vector of domain [d] has
    [len d] elements; [row m d] are the entries (column, value) of multiplier [m] in domain [d]; [kplus d i j] are the elements of the matrix
    K+ (what the solver of domain [d] multiplies by).  Vectors are functions: [u d j], [lambda m]. *)
From Coq Require Import List Arith Bool Sorted Reals.
From Verif Require Import Base S_Dual S_Equality M_TotalFeti.
Import ListNotations.
Local Open Scope R_scope.

Section Feti.
  Variables (n : nat) (first : nat -> nat) (L : list (list nat)).
  Variables (len : nat -> nat) (row : nat -> nat -> list (nat * R)).

  (** the element of B in the row of multiplier [m] and the column [j] of domain [d] *)
  Definition B (m d j : nat) : R := Sum (row m d) (fun e => if (fst e =? j)%nat then snd e else 0).
  (** entries are in the vectors of the domains of the multiplier *)
  Definition entries_ok : Prop :=
    forall m d, (m < length L)%nat -> (forall e, In e (row m d) -> (fst e < len d)%nat) /\ (~ In d (domains L m) -> row m d = []).
  Definition columns_sorted : Prop := forall m d, (m < length L)%nat -> StronglySorted lt (map fst (row m d)).

  (** what rank [r] stores: for every own domain its multipliers (their positions on the rank) with their entries *)
  Definition stored_rows (r d : nat) : list (nat * list (nat * R)) :=
    map (fun pm => (fst pm, row (snd pm) d))
      (filter (fun pm => existsb (Nat.eqb d) (domains L (snd pm))) (combine (seq 0 (length (held first L r))) (held first L r))).

  Definition stored (r : nat) : feti R :=
    {| B1 := map (stored_rows r) (own_domains first r); Kn := map len (own_domains first r); lambdas := length (held first L r) |}.

  Definition everything : list nat := all_domains n first.
  Definition own (r : nat) : list nat := own_domains first r.
  Definition multiplier_list : list nat := seq 0 (length L).

  (** B u, B^T lambda *)
  Definition B_of (u : nat -> nat -> R) (m : nat) : R := Sum everything (fun d => Sum (seq 0 (len d)) (fun j => B m d j * u d j)).
  Definition Bt_of (lambda : nat -> R) (d j : nat) : R := Sum multiplier_list (fun m => B m d j * lambda m).

  (** K+ v *)
  Variable kplus : nat -> nat -> nat -> R.
  Definition Kplus_of (v : nat -> nat -> R) (d i : nat) : R := Sum (seq 0 (len d)) (fun j => kplus d i j * v d j).
  (** F = B K+ B^T *)
  Definition F_of (lambda : nat -> R) (m : nat) : R := B_of (Kplus_of (Bt_of lambda)) m.

  (** the vectors of a rank *)
  Definition dual (x : nat -> R) (r : nat) : list R := vector first L (fun _ => x) r.
  Definition dense (u : nat -> nat -> R) (d : nat) : list R := map (u d) (seq 0 (len d)).
  (** what the solver of an own domain does (the domains of a rank are numbered from 0) *)
  Definition solves (r : nat) (solve : nat -> list R -> list R) : Prop :=
    forall d v, In d (own r) -> length v = len d -> solve (d - first r)%nat v = dense (Kplus_of (fun _ j => nth j v 0)) d.
End Feti.
