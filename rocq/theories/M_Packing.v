(** * Model of the binary packing helpers, /repo/src/basis/utilities/packing.h

    A message buffer is a list of bytes (integers in [0,256)), the cursor [p] is a position in it.
    Reading or writing outside the buffer is [UB].  Lengths are [nat] (nothing in memory is longer
    than 2^63 bytes); the *stored* lengths are 8-byte little-endian words. *)
From Coq Require Import ZArith List Bool Arith.
From Verif Require Import Base.
Import ListNotations.
Local Open Scope out_scope.

(** C++ types accepted by the helpers: objects copied as [n] raw bytes, std::string, std::vector *)
Inductive ty := TFixed (n : nat) | TString | TVec (t : ty).

(** values of these types; a raw object is its object representation *)
Fixpoint den (t : ty) : Type :=
  match t with
  | TFixed _ => list Z
  | TString => list Z
  | TVec t => list (den t)
  end.
(** value-initialised object, [Ttype{}] *)
Definition dflt (t : ty) : den t :=
  match t with
  | TFixed n => repeat 0%Z n
  | TString => []
  | TVec _ => []
  end.

(** object representation of an unsigned integer of [n] bytes, little endian *)
Fixpoint le_bytes (n : nat) (v : Z) : list Z :=
  match n with
  | O => []
  | S k => (v mod 256)%Z :: le_bytes k (v / 256)%Z
  end.
Fixpoint of_le (l : list Z) : Z :=
  match l with
  | [] => 0%Z
  | b :: t => (b + 256 * of_le t)%Z
  end.

(** std::memcpy into and out of the message, followed by the advance of the cursor *)
Definition store '((buf, p) : list Z * nat) (bytes : list Z) : outcome (list Z * nat) :=
  if p + length bytes <=? length buf
  then Ok (put p (p + length bytes) buf bytes, p + length bytes) else UB.
Definition load (buf : list Z) (p n : nat) : outcome (list Z * nat) :=
  if p + n <=? length buf then Ok (slice p (p + n) buf, p + n) else UB.

Definition sizeof_size_t : nat := 8.

(** packing.h:12-45, packedSize: overloads for std::string, for raw types and for vectors.
    (The explicit specialisation for vector<string>, lines 27-35, belongs to the primary template
    and is never chosen by overload resolution; the text is the same as that of lines 37-45.) *)
Fixpoint packedSize (t : ty) : den t -> nat :=
  match t with
  | TFixed n => fun _ => n
  | TString => fun s => sizeof_size_t + length s
  | TVec t => fun l => fold_left (fun size d => size + packedSize t d) l sizeof_size_t
  end.

(** packing.h:47-89, pack *)
Fixpoint pack (t : ty) : den t -> list Z * nat -> outcome (list Z * nat) :=
  match t with
  | TFixed n => fun data s => store s data
  | TString => fun data s =>
      s <- store s (le_bytes sizeof_size_t (Z.of_nat (length data))) ;;
      store s data
  | TVec t => fun data s =>
      s <- store s (le_bytes sizeof_size_t (Z.of_nat (length data))) ;;
      foldM (fun s d => pack t d s) data s
  end.

(** packing.h:91-137, unpack into the object [old].  (The specialisation for vector<string>, lines
    109-122, is never chosen by overload resolution.) *)
Fixpoint unpack (t : ty) : den t -> list Z -> nat -> outcome (den t * nat) :=
  match t with
  | TFixed n => fun _ buf p => load buf p n
  | TString => fun _ buf p =>
      '(w, p) <- load buf p sizeof_size_t ;;
      load buf p (Z.to_nat (of_le w))
  | TVec t => fun data buf p =>
      '(w, p) <- load buf p sizeof_size_t ;;
      let data := resize (Z.to_nat (of_le w)) data (dflt t) in
      foldM (fun '(data, p) i =>
          d <- rd data i ;;
          '(d, p) <- unpack t d buf p ;;
          data <- wr data i d ;;
          Ok (data, p))
        (seq 0 (length data)) (data, p)
  end.

(** a message: a sequence of pack / unpack calls with one cursor, as in e.g.
    /repo/src/mesh/store/elementstore.cpp:38-150 *)
Definition item := {t : ty & den t}.
Definition packAll (l : list item) (s : list Z * nat) : outcome (list Z * nat) :=
  foldM (fun s x => pack (projT1 x) (projT2 x) s) l s.
Fixpoint unpackAll (l : list item) (buf : list Z) (p : nat) : outcome (list item * nat) :=
  match l with
  | [] => Ok ([], p)
  | x :: r =>
    '(v, p) <- unpack (projT1 x) (projT2 x) buf p ;;
    '(vs, p) <- unpackAll r buf p ;;
    Ok (existT _ (projT1 x) v :: vs, p)
  end.
