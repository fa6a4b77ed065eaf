(** * What the copies of a DOF in the domains of a rank are *)
From Coq Require Import List Arith Bool.
From Verif Require Import Base S_Assembly M_Assembly M_Distributed S_Distributed M_VectorFeti.
Import ListNotations.

(** the domains [t_begin], ..., [t_end - 1] of a rank; [t_ndoms]: for each node the domains that contain it (of all ranks); [t_surface]: see C101 *)
Record torn := { t_begin : nat; t_end : nat; t_ndoms : list (list nat); t_surface : list nat }.
Definition no_torn : torn := {| t_begin := 0; t_end := 0; t_ndoms := []; t_surface := [] |}.

Section Rank.
  Variables (dofs : nat) (t : torn).
  Definition t_size : nat := dofs * length (t_ndoms t).
  Definition t_own (d : nat) : bool := (t_begin t <=? d) && (d <? t_end t).
  (** the domains of the DOF [k]; the DOFs of the domain [d] *)
  Definition t_domains (k : nat) : list nat := dof_domains dofs (t_ndoms t) k.
  Definition t_dofs (d : nat) : list nat := domain_dofs dofs (t_ndoms t) (t_surface t) d.
  Definition torn_ok : Prop := Forall (@NoDup nat) (t_ndoms t) /\ is_surface dofs (t_ndoms t) (t_surface t) (t_begin t) (t_end t).
  (** the decomposition that the code computes *)
  Definition decomposed (f : feti) : Prop :=
    exists N, fill_decomposition dofs (t_begin t) (t_end t) (t_ndoms t) (t_surface t) = Ok N /\ f = {| f_begin := t_begin t; f_end := t_end t; f_rows := dmap_rows N |}.

  Context {T : Type}.
  (** a vector for every domain *)
  Definition is_domains (doms : list (list T)) : Prop :=
    length doms = t_end t - t_begin t /\ forall d, t_begin t <= d < t_end t -> length (nth (d - t_begin t) doms []) = length (t_dofs d).
  (** the value of the DOF [k] in the domain [d] *)
  Definition copy_in (doms : list (list T)) (d k : nat) (x : T) : Prop :=
    t_begin t <= d < t_end t /\ exists i, nth_error (t_dofs d) i = Some k /\ nth_error (nth (d - t_begin t) doms []) i = Some x.
  (** the values of the DOF [k] in the domains of this rank, in the order in which the node lists them *)
  Definition copies (doms : list (list T)) (k : nat) : list T :=
    flat_map (fun d => if t_own d then map snd (filter (fun x : nat * T => fst x =? k) (combine (t_dofs d) (nth (d - t_begin t) doms []))) else []) (t_domains k).
End Rank.

(** [ts]: the domains of every rank *)
Definition torn_mesh (dofs : nat) (us : list uniq_info) (ts : list torn) : Prop :=
  length ts = length us /\ forall r, r < length us ->
    torn_ok dofs (nth r ts no_torn) /\ length (t_ndoms (nth r ts no_torn)) = length (halo_nodes (nth r us no_info)) + u_size (nth r us no_info).
(** the sums of the copies on every rank *)
Definition local_sums {T} (zero : T) (add : T -> T -> T) (dofs : nat) (ts : list torn) (doms : list (list (list T))) : list (list T) :=
  map (fun x : torn * list (list T) => map (fun k => fold_left add (copies dofs (fst x) (snd x) k) zero) (seq 0 (t_size dofs (fst x)))) (combine ts doms).

(** the ranks agree on the domains of nodes: [node r n]: the global number of the node [n] of the rank [r] *)
Definition node_of (u : uniq_info) (n p : nat) : Prop := nth_error (halo_nodes u ++ seq (u_offset u) (u_size u)) n = Some p.
Record same_domains (us : list uniq_info) (ts : list torn) : Prop := {
  sd_some : forall r n, r < length us -> n < length (t_ndoms (nth r ts no_torn)) -> nth n (t_ndoms (nth r ts no_torn)) [] <> [];
  sd_same : forall r s n m p, r < length us -> s < length us -> node_of (nth r us no_info) n p -> node_of (nth s us no_info) m p ->
    nth n (t_ndoms (nth r ts no_torn)) [] = nth m (t_ndoms (nth s ts no_torn)) [];
  (** a domain of a node is on exactly one rank, and the node is there *)
  sd_owner : forall r n p d, r < length us -> node_of (nth r us no_info) n p -> In d (nth n (t_ndoms (nth r ts no_torn)) []) ->
    exists s m, s < length us /\ t_own (nth s ts no_torn) d = true /\ node_of (nth s us no_info) m p;
  sd_disjoint : forall r s d, r < length us -> s < length us -> t_own (nth r ts no_torn) d = true -> t_own (nth s ts no_torn) d = true -> r = s }.

(** the data of the synchronization after any sequence of calls (C104) *)
Definition history {T} (zero : T) (add : T -> T -> T) (dofs : nat) (nb : list (list nat)) (us : list uniq_info) (ys : list (sync_data T)) : Prop :=
  exists ds ys0 calls, decompose dofs nb us = Ok ds /\ init zero ds = Ok ys0 /\ Forall (fun c => is_vector dofs us (snd c)) calls /\ run_calls add calls ys0 = Ok ys.
(** a FETI vector on every rank *)
Definition is_feti_vector {T} (dofs : nat) (ts : list torn) (doms : list (list (list T))) : Prop :=
  length doms = length ts /\ forall r, r < length ts -> is_domains dofs (nth r ts no_torn) (nth r doms []).
Definition decomposed_ranks (dofs : nat) (ts : list torn) (fs : list feti) : Prop :=
  length fs = length ts /\ forall r, r < length ts -> decomposed dofs (nth r ts no_torn) (nth r fs {| f_begin := 0; f_end := 0; f_rows := [] |}).
(** the DOFs of all ranks, each one once *)
Definition global_dofs (dofs : nat) (us : list uniq_info) : list nat := flat_map (fun u => seq (dofs * u_offset u) (dofs * u_size u)) us.
(** the copies of a DOF have the value of the vector [X] *)
Definition consistent {T} (dofs : nat) (us : list uniq_info) (ts : list torn) (doms : list (list (list T))) (X : nat -> T) : Prop :=
  forall r d k g x, r < length us -> nth_error (stored_dofs dofs (nth r us no_info)) k = Some g -> copy_in dofs (nth r ts no_torn) (nth r doms []) d k x -> x = X g.
(** the data of the product with a matrix *)
Definition is_apply_data {T} (dofs : nat) (ts : list torn) (data : list (apply_data T)) : Prop :=
  length data = length ts /\ forall r a, nth_error data r = Some a ->
    is_domains dofs (nth r ts no_torn) (a_in a) /\ is_domains dofs (nth r ts no_torn) (a_out a) /\ length (a_direct a) = t_size dofs (nth r ts no_torn).
(** the matrix of every domain of every rank *)
Definition is_matrices {M} (ts : list torn) (mss : list (list M)) : Prop :=
  length mss = length ts /\ forall r, r < length ts -> length (nth r mss []) = t_end (nth r ts no_torn) - t_begin (nth r ts no_torn).
(** the products with the matrices of domains: [outs] has in the domain [d] of the rank [r] the product of its matrix and the values of [xs] for the DOFs of the domain *)
Definition products {T M} (mv : M -> T -> list T -> list T) (dofs : nat) (ts : list torn) (mss : list (list M)) (alpha : T) (xs : list (list T)) (outs : list (list (list T))) : Prop :=
  is_feti_vector dofs ts outs /\
  forall r d m, r < length ts -> nth_error (nth r mss []) d = Some m -> exists x, nth_error (nth r outs []) d = Some (mv m alpha x) /\
    Forall2 (fun k v => nth_error (nth r xs []) k = Some v) (t_dofs dofs (nth r ts no_torn) (t_begin (nth r ts no_torn) + d)) x.
