(** * Specification vocabulary for dense matrices *)
From Coq Require Import List Bool Arith.
From Verif Require Import Base M_Csx M_Dnx S_Csx.
Import ListNotations.

Section Spec.
Context {T : Type}.

(** where element (row i, column j) is kept *)
Definition pos (m : dnx T) (i j : nat) : nat := match d_ord m with OrdR => i * d_ld m + j | OrdC => j * d_ld m + i end.
Definition at_ (m : dnx T) (i j : nat) : option T := nth_error (d_vals m) (pos m i j).

(** the declared sizes lie within the array *)
Definition fits (m : dnx T) : Prop :=
  d_sec m <= d_ld m /\ forall i j, i < d_rows m -> j < d_cols m -> pos m i j < length (d_vals m).

(** the stored part: everything, or one triangle with the diagonal *)
Definition in_part (u : uplo) (i j : nat) : bool :=
  match u with UploNone => true | UploL => j <=? i | UploU => i <=? j end.

(** [dst'] is [dst] with exactly the elements selected by [inside] replaced by [g]; every other
    cell of the array, inside or outside of the declared matrix, keeps its contents *)
Definition updates (dst dst' : dnx T) (inside : nat -> nat -> bool) (g : nat -> nat -> option T) : Prop :=
  d_rows dst' = d_rows dst /\ d_cols dst' = d_cols dst /\ d_ld dst' = d_ld dst /\ d_ord dst' = d_ord dst /\
  d_upl dst' = d_upl dst /\ d_sym dst' = d_sym dst /\ length (d_vals dst') = length (d_vals dst) /\
  (forall i j, i < d_rows dst -> j < d_cols dst -> inside i j = true -> at_ dst' i j = g i j) /\
  (forall k, (forall i j, i < d_rows dst -> j < d_cols dst -> inside i j = true -> k <> pos dst i j) ->
     nth_error (d_vals dst') k = nth_error (d_vals dst) k).

(** contract of math::blas::transpose: the destination is an [nc] x [nr] matrix of the same order *)
Definition transposes (cplx : bool) (conj : T -> T)
  (btrans : nat -> nat -> list T -> nat -> list T -> nat -> order -> bool -> list T) : Prop :=
  forall nr nc sv sld dv dld o c,
    let s := Dnx nr nc sld o UploNone SymGeneral sv in
    let d := Dnx nc nr dld o UploNone SymGeneral dv in
    fits s -> fits d ->
    updates d (with_vals d (btrans nr nc sv sld dv dld o c)) (fun _ _ => true)
            (fun i j => option_map (cnj cplx conj c) (at_ s j i)).

(** contract of math::blas::transpose_inplace *)
Definition transposes_inplace (cplx : bool) (conj : T -> T)
  (btrans : nat -> list T -> nat -> order -> bool -> list T) : Prop :=
  forall n v ld o c,
    let s := Dnx n n ld o UploNone SymGeneral v in
    fits s -> updates s (with_vals s (btrans n v ld o c)) (fun _ _ => true) (fun i j => option_map (cnj cplx conj c) (at_ s j i)).

(** contract of the allocation of a dense matrix *)
Definition allocates (alloc : nat -> nat -> order -> dnx T) : Prop :=
  forall r c o, d_rows (alloc r c o) = r /\ d_cols (alloc r c o) = c /\ d_ord (alloc r c o) = o /\
                d_upl (alloc r c o) = UploNone /\ fits (alloc r c o).

(** the value stored for a position of a sparse matrix, if any *)
Definition lookup (m : csx T) (i j : nat) : option T :=
  option_map e_val (find (fun e => (e_row e =? i) && (e_col e =? j)) (entries m)).

(** all values stored for a position, in storage order *)
Definition values_at (m : csx T) (i j : nat) : list T :=
  map e_val (filter (fun e => (e_row e =? i) && (e_col e =? j)) (entries m)).

(** is something stored for the position? *)
Definition stored_at (m : csx T) (i j : nat) : bool := existsb (fun e => (e_row e =? i) && (e_col e =? j)) (entries m).

(** element (i, j) of a matrix of which one triangle may be stored: the other one is its mirror image *)
Definition meaning (mirror : T -> T) (m : dnx T) (i j : nat) : option T :=
  if in_part (d_upl m) i j then at_ m i j else option_map mirror (at_ m j i).

(** source index of a destination index *)
Definition from_perm (p : option perm) (i : nat) : nat := match p with None => i | Some p => nth i (dst_to_src p) 0 end.
Definition from_map (mp : option (list nat)) (i : nat) : nat := match mp with None => i | Some l => nth i l 0 end.
Definition opt_perm_ok (p : option perm) (n : nat) : Prop := match p with None => True | Some p => perm_ok p n end.
Definition map_into (mp : option (list nat)) (n : nat) : Prop :=
  match mp with None => True | Some l => forall x, In x l -> x < n end.

(** the elements of a dense matrix in storage order *)
Definition dense_entries (m : dnx T) : list (entry T) :=
  flat_map (fun p => flat_map (fun s => match nth_error (d_vals m) (p * d_ld m + s) with
                                        | Some v => [coords (d_ord m) p (s, v)]
                                        | None => []
                                        end) (seq 0 (d_sec m))) (seq 0 (d_prim m)).

(** an entry moved by maps of rows and columns *)
Definition placed (rows cols : option (list nat)) (e : entry T) : entry T := (from_map rows (e_row e), from_map cols (e_col e), e_val e).

(** values of the entries at a position, in the order of the list *)
Definition values_in (E : list (entry T)) (i j : nat) : list T :=
  map e_val (filter (fun e => (e_row e =? i) && (e_col e =? j)) E).
End Spec.

(** linear combinations: element of an operand; a missing operand counts as zero, [Some None] is the matrix [x] itself *)
Definition operand_at {T} (zero : T) (x : dnx T) (a : operand) (i j : nat) : T :=
  match match a with None => None | Some None => at_ x i j | Some (Some m) => at_ m i j end with Some v => v | None => zero end.

(** an operand of the same size and order as [x] *)
Definition operand_ok {T} (x : dnx T) (a : operand (T := T)) : Prop :=
  match a with
  | Some (Some m) => fits m /\ d_rows m = d_rows x /\ d_cols m = d_cols x /\ d_ord m = d_ord x
  | _ => True
  end.

(** product of row [i] of a sparse matrix with a vector *)
Definition row_times {T} (zero : T) (add mul : T -> T -> T) (a : csx T) (x : list T) (i : nat) : T :=
  fold_right add zero (map (fun e => mul (e_val e) (nth (e_col e) x zero)) (filter (fun e => e_row e =? i) (entries a))).
