(** * What the DOFs of a domain, their couplings and the assembled matrix are

    A rank has nodes; [ndoms]: for each node the domains that contain it.  Every node has [dofs] DOFs: node [n] the DOFs [n * dofs], ...,
    [n * dofs + dofs - 1].  An element is the list of its nodes. *)
From Coq Require Import List Arith Bool Sorted.
From Verif Require Import Base S_Order M_Indexing.
Import ListNotations.

Definition memb (x : nat) (l : list nat) : bool := existsb (Nat.eqb x) l.

Section Numbering.
  Variables (dofs : nat) (ndoms : list (list nat)) (surface : list nat).
  Definition all_dofs : list nat := seq 0 (dofs * length ndoms).
  Definition dof_domains (k : nat) : list nat := nth (k / dofs) ndoms [].
  (** the DOFs of domain [d] in the order of their numbers: those of the surface first *)
  Definition domain_dofs (d : nat) : list nat :=
    let l := filter (fun k => memb d (dof_domains k)) all_dofs in
    filter (fun k => memb k surface) l ++ filter (fun k => negb (memb k surface)) l.
  (** [surface]: DOFs in increasing order; all copies of another DOF are one and it is in a domain of this rank *)
  Definition is_surface (dbegin dend : nat) : Prop :=
    StronglySorted lt surface /\ Forall (fun k => k < dofs * length ndoms) surface /\
    (surface <> [] -> forall k, k < dofs * length ndoms -> ~ In k surface -> exists d, dof_domains k = [d] /\ dbegin <= d < dend).
End Numbering.

(** the DOFs of an element in the order of the rows of its matrix *)
Definition element_dofs (dofs : nat) (e : list nat) : list nat := flat_map (fun d => map (fun n => n * dofs + d) e) (seq 0 dofs).

(** intervals (begin, end) that follow each other from [b] to [e] *)
Fixpoint consecutive (b : nat) (intervals : list (nat * nat)) (e : nat) : Prop :=
  match intervals with [] => b = e | (b', e') :: t => b' = b /\ b <= e' /\ consecutive e' t e end.

(** a domain of the mesh: [domain] is its number on this rank; its elements are [ebegin], ..., [eend - 1], split into intervals; the nodes of its
    elements are in the domain, and only these *)
Record mesh_domain (dofs dbegin dend : nat) (ndoms : list (list nat)) (surface : list nat) (domain : nat) (elements : list (list nat)) (ebegin eend : nat) (intervals : list (nat * nat)) : Prop := {
  md_dofs : 0 < dofs;
  md_sets : Forall (@NoDup nat) ndoms;
  md_surface : is_surface dofs ndoms surface dbegin dend;
  md_own : dbegin + domain < dend;
  md_range : eend <= length elements;
  md_intervals : consecutive ebegin intervals eend;
  md_nodes : forall e n, In e (slice ebegin eend elements) -> In n e -> n < length ndoms /\ In (dbegin + domain) (nth n ndoms []);
  md_used : forall n, n < length ndoms -> In (dbegin + domain) (nth n ndoms []) -> exists e, In e (slice ebegin eend elements) /\ In n e;
  md_some : ebegin < eend /\ Forall (fun e => e <> []) (slice ebegin eend elements) }.

(** [ks]: the DOFs of the domain, the row [i] of its matrix belongs to the DOF at the position [i] *)
Section Matrix.
  Variables (dofs : nat) (ks : list nat).
  Definition row_of (k i : nat) : Prop := nth_error ks i = Some k.
  (** the rows [i] and [j] are coupled by an element *)
  Definition coupled (elements : list (list nat)) (i j : nat) : Prop :=
    exists e k l, In e elements /\ row_of k i /\ row_of l j /\ In k (element_dofs dofs e) /\ In l (element_dofs dofs e).

  (** a matrix in the CSR format, with indices from Indexing::CSR: the columns of row [i] *)
  Definition csr_row (rows cols : list nat) (i : nat) : list nat := map (fun c => c - Indexing_CSR) (slice (nth i rows 0 - Indexing_CSR) (nth (i + 1) rows 0 - Indexing_CSR) cols).

  (** the value of an element [e] with the matrix [m] (of [n] rows, row by row) for the DOFs [k] and [l]; [full = false]: the upper triangle of [m] only *)
  Section Values.
    Context {T : Type}.
    Variables (zero : T) (add : T -> T -> T) (full : bool).
    Fixpoint index_of (k : nat) (l : list nat) : nat := match l with [] => 0 | x :: l => if k =? x then 0 else S (index_of k l) end.
    Definition contribution (k l : nat) (em : list nat * list T) : list T :=
      let ks := element_dofs dofs (fst em) in
      if memb k ks && memb l ks then
        let r := index_of k ks in let c := index_of l ks in
        [if full then nth (r * length ks + c) (snd em) zero else nth (Nat.min r c * length ks + Nat.max r c) (snd em) zero]
      else [].
    (** the sum over the elements *)
    Definition assembled (ems : list (list nat * list T)) (k l : nat) (start : T) : T := fold_left add (flat_map (contribution k l) ems) start.
  End Values.
End Matrix.
