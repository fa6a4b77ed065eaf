(** * Vocabulary of the theorems about PCPG *)
From Coq Require Import List Reals Bool.
From Verif Require Import Base M_DualVector M_Pcpg S_Mprgp.
Import ListNotations.
Local Open Scope R_scope.

(** a linear map of vectors of size n to vectors of size m *)
Definition linear_map (n m : nat) (H : list R -> list R) : Prop :=
  (forall x, length x = n -> length (H x) = m) /\
  (forall x a y, length x = n -> length y = n ->
     H (combination x a y) = combination (H x) a (H y)).

(** exact division, undefined for a zero denominator *)
Definition quotient (a b : R) : outcome R := if Req_EM_T b 0 then UB else Ok (a / b).

(** the point x + c1 p1 + c2 p2 + ... *)
Fixpoint walk (x : list R) (cs : list R) (ps : list (list R)) : list R :=
  match cs, ps with
  | c :: cs, p :: ps => walk (combination x c p) cs ps
  | _, _ => x
  end.

Section Problem.
Variable h : R.
Local Notation K := (exact h).
Variable n m : nat.
Variable A : operators K.
Variable d e : list R.

(** what constrains the solution: G x = e, or G F x = G d for the conjugate projector *)
Definition constrained (x : list R) : list R := if conjugate K A then G K A (F K A x) else G K A x.
Definition admissible (x : list R) : Prop :=
  length x = n /\ constrained x = if conjugate K A then G K A d else e.

(** the solution: the admissible point with the least energy *)
Definition solution (x : list R) : Prop :=
  admissible x /\ forall z, admissible z -> energy (F K A) d x <= energy (F K A) d z.

(** sizes, linearity; [inv] inverts G Gt, or G F Gt for the conjugate projector *)
Record linear_problem : Prop := {
  lp_d : length d = n;
  lp_e : length e = m;
  lp_F : linear_map n n (F K A);
  lp_S : forall x, length x = n -> length (S K A x) = n;
  lp_G : linear_map n m (G K A);
  lp_Gt : linear_map m n (Gt K A);
  lp_inv : forall u, length u = m -> length (inv K A u) = m;
  lp_coarse : forall u, length u = m -> constrained (Gt K A (inv K A u)) = u
}.

(** the dual operator and the preconditioner are symmetric and positive definite (the operator on the
    directions that keep the constraints, the preconditioner on the kernel of G: projected residuals
    are in it), Gt is the transpose of G *)
Record spd_problem : Prop := {
  sp_linear : linear_problem;
  sp_Fsym : symmetric n (F K A);
  sp_Fdef : forall v, length v = n -> is_zero (constrained v) -> ~ is_zero v ->
              0 < scalar_product v (F K A v);
  sp_Ssym : symmetric n (S K A);
  sp_Sdef : forall v, length v = n -> is_zero (G K A v) -> ~ is_zero v ->
              0 < scalar_product v (S K A v);
  sp_adjoint : forall v u, length v = n -> length u = m ->
                 scalar_product v (Gt K A u) = scalar_product (G K A v) u;
  sp_invsym : symmetric m (inv K A)
}.
End Problem.
