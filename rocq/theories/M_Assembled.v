(** * The matrices B1 of the gluing and Dirichlet constraints as input of the solver *)
From Coq Require Import List Arith.
From Verif Require Import Base M_Equality M_TotalFeti.
Import ListNotations.

(** equalityconstrains.cpp:120-125: B1 of a domain has one entry in every row; [E]: what [EqualityConstrains::set] collected, [sizes]: the
    sizes of the matrices K of the own domains *)
Definition feti_of {T} (E : constraints T) (sizes : list nat) : feti T :=
  {| B1 := map (fun d => match domain_rows E d with Ok rows => map (fun x => (fst x, [snd x])) rows | _ => [] end) (seq 0 (length sizes));
     Kn := sizes; lambdas := e_size E |}.
