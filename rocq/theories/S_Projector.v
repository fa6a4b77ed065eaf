(** * The projector of FETI over the real numbers

    Notation as in S_Feti.  [Rk d k j]: element [j] of the kernel [k] of domain [d] (row [k] of R1); domain [d] has [ksize d] kernels.
    A vector of all kernels is a function of the domain and the kernel. *)
From Coq Require Import List Arith Bool Reals.
From Verif Require Import Base S_Dual S_Equality M_TotalFeti S_Feti M_Projector.
Import ListNotations.
Local Open Scope R_scope.

Section Projection.
  Variables (n : nat) (first : nat -> nat) (L : list (list nat)).
  Variables (len : nat -> nat) (row : nat -> nat -> list (nat * R)).
  Variables (ksize : nat -> nat) (Rk : nat -> nat -> nat -> R).

  (** G = - R B^T *)
  Definition G (d k m : nat) : R := - Sum (seq 0 (len d)) (fun j => Rk d k j * B row m d j).
  (** G x, G^T a, R^T a, e = - R f *)
  Definition G_of (x : nat -> R) (d k : nat) : R := Sum (multiplier_list L) (fun m => G d k m * x m).
  Definition Gt_of (a : nat -> nat -> R) (m : nat) : R := Sum (everything n first) (fun d => Sum (seq 0 (ksize d)) (fun k => G d k m * a d k)).
  Definition R_of (a : nat -> nat -> R) (d j : nat) : R := Sum (seq 0 (ksize d)) (fun k => Rk d k j * a d k).
  Definition e_of (f : nat -> nat -> R) (d k : nat) : R := - Sum (seq 0 (len d)) (fun j => Rk d k j * f d j).
  Definition GGt (d k d' k' : nat) : R := Sum (multiplier_list L) (fun m => G d k m * G d' k' m).

  (** a matrix of all kernels times a vector *)
  Definition kernel_product (A : nat -> nat -> nat -> nat -> R) (w : nat -> nat -> R) (d k : nat) : R :=
    Sum (everything n first) (fun d' => Sum (seq 0 (ksize d')) (fun k' => A d k d' k' * w d' k')).
  (** how a = (G G^T)^-1 w is computed: one matrix, two factors, or not at all (without kernels) *)
  Inductive inverse := Whole (A : nat -> nat -> nat -> nat -> R) | Factors (Lo Up : nat -> nat -> nat -> nat -> R) | Nothing.
  Definition inverse_of (J : inverse) (w : nat -> nat -> R) : nat -> nat -> R :=
    match J with Whole A => kernel_product A w | Factors Lo Up => kernel_product Up (kernel_product Lo w) | Nothing => fun _ _ => 0 end.
  (** [J] is the inverse of G G^T *)
  Definition inverts (J : inverse) : Prop :=
    forall w d k, In d (everything n first) -> (k < ksize d)%nat -> inverse_of J (kernel_product GGt w) d k = w d k /\ kernel_product GGt (inverse_of J w) d k = w d k.
  (** P = I - G^T J G *)
  Definition P_of (J : inverse) (x : nat -> R) (m : nat) : R := x m - Gt_of (inverse_of J (G_of x)) m.

  (** ** What a rank stores *)
  (** vectors of the kernels of some domains *)
  Definition kernel_vector (ds : list nat) (w : nat -> nat -> R) : list R := flat_map (fun d => map (w d) (seq 0 (ksize d))) ds.
  (** rows of the own kernels, columns of all kernels *)
  Definition kernel_rows (ds : list nat) (A : nat -> nat -> nat -> nat -> R) : list R :=
    flat_map (fun d => flat_map (fun k => kernel_vector (everything n first) (A d k)) (seq 0 (ksize d))) ds.
  Definition kernels_before (r : nat) : nat := length (kernel_vector (seq (first 0%nat) (first r - first 0%nat)) (fun _ _ => 0)).
  (** the row of a kernel of an own domain: the multipliers of the domain *)
  Definition G_line (r d k : nat) : list (nat * R) :=
    map (fun pm => (fst pm, G d k (snd pm))) (filter (fun pm => existsb (Nat.eqb d) (domains L (snd pm))) (combine (seq 0 (length (held first L r))) (held first L r))).
  Definition G_stored (r : nat) : list (list (nat * R)) := flat_map (fun d => map (G_line r d) (seq 0 (ksize d))) (own first r).
  Definition R_stored (r : nat) : list (kernel R) :=
    map (fun d => {| nrows := ksize d; ncols := len d; vals := flat_map (fun k => map (Rk d k) (seq 0 (len d))) (seq 0 (ksize d)) |}) (own first r).
End Projection.
