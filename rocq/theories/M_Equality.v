(** * Gluing and Dirichlet constraints of FETI

    /repo/src/analysis/linearsystem/constrains/equalityconstrains.cpp and /repo/src/feti/common/applyB.h.

    Simplifications: domains, degrees of freedom (DOFs), indices and sizes are natural numbers ([int] does not overflow and the index -1 of a
    DOF in a domain of another rank is any number); [set] is called once with empty [feti.lambdas.cmap], [feti.D2C] and
    [feti.lambdas.intervals] (fetisolver.cpp:88; nobody clears them); the matrix B1 of a domain is the list of its entries, one in every
    row ([rows] is 0, 1, 2, ...); [std::sort] is a parameter. *)
From Coq Require Import List Arith Bool Reals.
From Verif Require Import Base M_Dual.
Import ListNotations.
Local Open Scope out_scope.

(** decomposition.feti.h:11-21: [DIndex] is (domain, index); one list for every local DOF *)
(** equalityconstrains.cpp:24: [__lambda__] is (dof, size) *)

Section EqualityConstrains.
  Context {T : Type}.
  Variables (zero one : T) (low diag : nat -> T).
  Variable sort : (nat * nat -> nat * nat -> bool) -> list (nat * nat) -> list (nat * nat).   (** std::sort *)
  Variable D : decomposition.

  (** push_back to the i-th vector *)
  Definition push_at {A} (l : list (list A)) (i : nat) (x : A) : outcome (list (list A)) := row <- rd l i ;; wr l i (row ++ [x]).

  (** equalityconstrains.cpp:29: [fuel]: the number of Dirichlet DOFs *)
  Fixpoint advance (fuel : nat) (indices : list nat) (dof dindex : nat) : nat :=
    match fuel with
    | 0 => dindex
    | S fuel =>
      if (dindex <? length indices) && (nth dindex indices 0 <? dof) then advance fuel indices dof (dindex + 1) else dindex
    end.

  (** equalityconstrains.cpp:31-35 *)
  Definition push_fixed (FIXED : list (list nat)) (di : nat * nat) : outcome (list (list nat)) :=
    if ismy D (fst di) then push_at FIXED (fst di - dbegin D) (snd di) else Ok FIXED.

  (** equalityconstrains.cpp:39; [fuel]: the length of the list *)
  Fixpoint first_my (dmap : list (nat * nat)) : nat :=
    match dmap with [] => 0 | di :: dmap => if ismy D (fst di) then 0 else S (first_my dmap) end.

  (** equalityconstrains.cpp:28-44: one DOF; the state is (dindex, maxMultiplicity, FIXED, permutation) *)
  Definition collect_dof (indices : list nat) (st : nat * nat * list (list nat) * list (nat * nat)) (x : nat * list (nat * nat))
    : outcome (nat * nat * list (list nat) * list (nat * nat)) :=
    let '(dindex, maxm, FIXED, permutation) := st in
    let '(dof, dmap) := x in
    let dindex := advance (length indices) indices dof dindex in
    if (dindex <? length indices) && (nth dindex indices 0 =? dof) then
      FIXED <- foldM push_fixed dmap FIXED ;; Ok (dindex, maxm, FIXED, permutation)
    else
      let i := Nat.max (first_my dmap) 1 in
      Ok (dindex, Nat.max maxm (length dmap), FIXED, permutation ++ map (fun i => (dof, i + 1)) (seq i (length dmap - i))).

  (** equalityconstrains.cpp:27-45 *)
  Definition collect (indices : list nat) (domains : nat) (dmap : list (list (nat * nat))) :=
    foldM (collect_dof indices) (combine (seq 0 (length dmap)) dmap) (0, 2, repeat [] domains, []).

  (** equalityconstrains.cpp:47-60; the vectors have more than [size] elements *)
  Fixpoint less_domains (size : nat) (a b : list (nat * nat)) (rest : bool) : bool :=
    match size with
    | 0 => rest
    | S size =>
      let da := fst (hd (0, 0) a) in let db := fst (hd (0, 0) b) in
      if negb (da =? db) then da <? db else less_domains size (tl a) (tl b) rest
    end.
  Definition less (dmap : list (list (nat * nat))) (i j : nat * nat) : bool :=
    less_domains (Nat.min (snd i) (snd j)) (nth (fst i) dmap []) (nth (fst j) dmap [])
      (if negb (snd i =? snd j) then snd i <? snd j else fst i <? fst j).

  (** equalityconstrains.cpp:62-71: the matrix [lambdas], row by row *)
  Definition lambdas_row (maxm : nat) (vals : list T) (r : nat) : outcome (list T) :=
    let nc := r + 1 in
    vals <- foldM (fun vals c => wr vals (r * maxm + c) (low nc)) (seq 0 nc) vals ;;
    wr vals (r * maxm + nc) (diag nc).
  Definition lambdas_vals (maxm : nat) : outcome (list T) :=
    foldM (lambdas_row maxm) (seq 0 (maxm - 1)) (repeat zero ((maxm - 1) * maxm)).

  (** D2C, COLS, VALS *)
  Local Notation brows := (list (list nat) * list (list nat) * list (list T))%type.
  Definition push_row (B : brows) (d l col : nat) (v : T) : outcome brows :=
    let '(D2C, COLS, VALS) := B in
    D2C <- push_at D2C d l ;; COLS <- push_at COLS d col ;; VALS <- push_at VALS d v ;; Ok (D2C, COLS, VALS).

  (** equalityconstrains.cpp:82-88: one domain of a multiplier; the state is (cmap, B) *)
  Definition push_domain (maxm : nat) (vals : list T) (dm : list (nat * nat)) (l sz : nat) (st : list nat * brows) (c : nat)
    : outcome (list nat * brows) :=
    let '(cmap, B) := st in
    dc <- rd dm c ;;
    let cmap := cmap ++ [fst dc] in
    if ismy D (fst dc) then
      v <- rd vals ((sz - 2) * maxm + c) ;;
      B <- push_row B (fst dc - dbegin D) l (snd dc) v ;;
      Ok (cmap, B)
    else Ok (cmap, B).

  Fixpoint eqb_list (a b : list nat) : bool :=
    match a with [] => true | x :: a => match b with [] => false | y :: b => (x =? y) && eqb_list a b end end.
  (** equalityconstrains.cpp:89-100: the result is (cmap, prev); std::equal does not read behind the end: the old block is in front of the new one *)
  Definition merge_block (cmap : list nat) (prev cbegin : nat) : outcome (list nat * nat) :=
    a <- rd cmap (prev + 1) ;; b <- rd cmap (cbegin + 1) ;;
    if a =? b then
      if eqb_list (skipn (cbegin + 1) cmap) (skipn (prev + 1) cmap) then
        if negb (prev =? cbegin) then
          count <- rd cmap prev ;;
          cmap <- wr cmap prev (count + 1) ;;
          Ok (firstn cbegin cmap, prev)
        else Ok (cmap, prev)
      else Ok (cmap, cbegin)
    else Ok (cmap, cbegin).

  (** equalityconstrains.cpp:74-101: one multiplier; the state is (size, prev, halo, cmap, B) *)
  Definition push_lambda (maxm : nat) (vals : list T) (dmap : list (list (nat * nat))) (st : nat * nat * nat * list nat * brows) (p : nat * nat)
    : outcome (nat * nat * nat * list nat * brows) :=
    let '(size, prev, halo, cmap, B) := st in
    dm <- rd dmap (fst p) ;;
    let cbegin := length cmap in
    d0 <- rd dm 0 ;;
    let halo := if fst d0 <? dbegin D then size + 1 else halo in
    '(cmap, B) <- foldM (push_domain maxm vals dm size (snd p)) (seq 0 (snd p)) (cmap ++ [1; snd p], B) ;;
    '(cmap, prev) <- merge_block cmap prev cbegin ;;
    Ok (size + 1, prev, halo, cmap, B).

  (** equalityconstrains.cpp:103-115: one domain; the state is (size, cmap, B, doffset) *)
  Definition push_fixed_row (d : nat) (st : nat * brows) (col : nat) : outcome (nat * brows) :=
    let '(size, B) := st in
    B <- push_row B d size col one ;; Ok (size + 1, B).
  Definition fixed_domain (FIXED : list (list nat)) (st : nat * list nat * brows * list nat) (d : nat)
    : outcome (nat * list nat * brows * list nat) :=
    let '(size, cmap, B, doffset) := st in
    fixed <- rd FIXED d ;;
    '(size', B) <- foldM (push_fixed_row d) fixed (size, B) ;;
    Ok (size', if length fixed =? 0 then cmap else cmap ++ [length fixed; 1; dbegin D + d], B, doffset ++ [size]).

  (** what [set] stores in [feti] (and [doffset]) *)
  Record constraints := {
    e_size : nat; e_interval : nat * nat; e_cmap : list nat;
    e_D2C : list (list nat); e_COLS : list (list nat); e_VALS : list (list T); e_doffset : list nat
  }.

  (** equalityconstrains.cpp:12-127; [feti.K.size()] is the number of own domains; [indices]: the Dirichlet DOFs *)
  Definition equality_set (dmap : list (list (nat * nat))) (indices : list nat) : outcome constraints :=
    let domains := dend D - dbegin D in
    '(_, maxm, FIXED, permutation) <- collect indices domains dmap ;;
    vals <- lambdas_vals maxm ;;
    '(size, _, halo, cmap, B) <- foldM (push_lambda maxm vals dmap) (sort (less dmap) permutation)
                                      (0, 0, 0, [], (repeat [] domains, repeat [] domains, repeat [] domains)) ;;
    '(size, cmap, B, doffset) <- foldM (fixed_domain FIXED) (seq 0 domains) (size, cmap, B, []) ;;
    let '(D2C, COLS, VALS) := B in
    Ok {| e_size := size; e_interval := (halo, size - halo); e_cmap := cmap; e_D2C := D2C; e_COLS := COLS; e_VALS := VALS;
          e_doffset := doffset |}.

  (** equalityconstrains.cpp:138-146: one Dirichlet DOF; the state is (c, dindex) *)
  Definition update_copy (v : T) (st : list T * list nat) (di : nat * nat) : outcome (list T * list nat) :=
    let '(c, dindex) := st in
    if ismy D (fst di) then
      k <- rd dindex (fst di - dbegin D) ;;
      c <- wr c k v ;;
      dindex <- wr dindex (fst di - dbegin D) (k + 1) ;;
      Ok (c, dindex)
    else Ok (c, dindex).
  (** equalityconstrains.cpp:129-147; the iterator [map] is at [indices[i]] *)
  Definition equality_update (E : constraints) (dmap : list (list (nat * nat))) (dirichlet : list (nat * T)) : outcome (list T) :=
    '(c, _) <- foldM (fun st iv => dm <- rd dmap (fst iv) ;; foldM (update_copy (snd iv)) dm st) dirichlet
                     (repeat zero (e_size E), e_doffset E) ;;
    Ok c.

  (** equalityconstrains.cpp:149-163 *)
  Definition enforce_copy (v : T) (x : list (list T)) (di : nat * nat) : outcome (list (list T)) :=
    if ismy D (fst di) then
      xd <- rd x (fst di - dbegin D) ;;
      xd <- wr xd (snd di) v ;;
      wr x (fst di - dbegin D) xd
    else Ok x.
  Definition equality_enforce (dmap : list (list (nat * nat))) (dirichlet : list (nat * T)) (x : list (list T)) : outcome (list (list T)) :=
    foldM (fun x iv => dm <- rd dmap (fst iv) ;; foldM (enforce_copy (snd iv)) dm x) dirichlet x.
End EqualityConstrains.
Arguments constraints T : clear implicits.

(** equalityconstrains.cpp:66-70, without rounding *)
Local Open Scope R_scope.
Definition scale (nc : nat) : R := sqrt (1 + INR nc / (INR nc * INR nc)).
Definition low (nc : nat) : R := scale nc / (INR nc + 1).
Definition diag (nc : nat) : R := - scale nc * INR nc / (INR nc + 1).
Local Close Scope R_scope.

Section ApplyB.
  Context {T : Type}.
  Variables (zero : T) (add mul : T -> T -> T).
  Variable E : constraints T.

  (** the rows of domain [d]: (multiplier, (column, value)) *)
  Definition domain_rows (d : nat) : outcome (list (nat * (nat * T))) :=
    l <- rd (e_D2C E) d ;; cols <- rd (e_COLS E) d ;; vals <- rd (e_VALS E) d ;; Ok (combine l (combine cols vals)).

  (** applyB.h:13-22 *)
  Definition bt_row (alpha : T) (lambda : list T) (out : list T) (row : nat * (nat * T)) : outcome (list T) :=
    o <- rd out (fst (snd row)) ;; x <- rd lambda (fst row) ;; wr out (fst (snd row)) (add o (mul (mul alpha (snd (snd row))) x)).
  Definition applyBt (d : nat) (alpha : T) (lambda : list T) (out : list T) : outcome (list T) :=
    rows <- domain_rows d ;; foldM (bt_row alpha lambda) rows (repeat zero (length out)).

  (** applyB.h:35-45; [in_]: the vectors of the own domains *)
  Definition b_row (x : list T) (out : list T) (row : nat * (nat * T)) : outcome (list T) :=
    o <- rd out (fst row) ;; v <- rd x (fst (snd row)) ;; wr out (fst row) (add o (mul (snd (snd row)) v)).
  Definition b_domain (in_ : list (list T)) (out : list T) (d : nat) : outcome (list T) :=
    x <- rd in_ d ;; rows <- domain_rows d ;; foldM (b_row x) rows out.
  Definition applyB (domains : nat) (in_ : list (list T)) (size : nat) : outcome (list T) :=
    foldM (b_domain in_) (seq 0 domains) (repeat zero size).
  (** applyB.h:47-57 *)
  Definition applyB_filter (filter : list nat) (in_ : list (list T)) (size : nat) : outcome (list T) :=
    foldM (b_domain in_) filter (repeat zero size).
End ApplyB.
