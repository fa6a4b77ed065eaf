(** * Model of tarray::distribute, /repo/src/basis/containers/tarray.hpp:10-25

    The quotient [size / (double)threads] is computed in IEEE-754 binary64 (round to nearest, ties to
    even).  All operands are non-negative integers, hence a double is a pair (m, e) that stands for
    m * 2^e; neither overflow nor subnormal numbers can occur for operands below 2^64. *)
From Coq Require Import ZArith List Bool Arith.
From Verif Require Import Base.
Import ListNotations.
Local Open Scope out_scope.
Local Open Scope Z_scope.

(** the integer nearest to a / b, ties to even (b > 0) *)
Definition nearest_even (a b : Z) : Z :=
  let q := a / b in
  let r := a mod b in
  if 2 * r <? b then q
  else if b <? 2 * r then q + 1
  else if Z.even q then q else q + 1.

(** exponent of the double nearest to a / b: a / b = x * 2^e with 2^52 <= x < 2^53 *)
Definition exponent (a b : Z) : Z :=
  let e := Z.log2 a - Z.log2 b - 52 in
  let lo := if 0 <=? e then a / (b * 2 ^ e) else a * 2 ^ (- e) / b in
  if lo <? 2 ^ 52 then e - 1 else e.
(** the double nearest to the quotient a / b of two non-negative integers *)
Definition fdiv (a b : Z) : Z * Z :=
  if a =? 0 then (0, 0) else
  let e := exponent a b in
  (if 0 <=? e then nearest_even a (b * 2 ^ e) else nearest_even (a * 2 ^ (- e)) b, e).
(** std::ceil, as an integer *)
Definition fceil '((m, e) : Z * Z) : Z :=
  if 0 <=? e then m * 2 ^ e else - ((- m) / 2 ^ (- e)).
(** conversion of an integer to double; the result is an integer again *)
Definition of_int (n : Z) : Z :=
  if n =? 0 then 0 else
  let e := Z.log2 n - 52 in
  if e <=? 0 then n else nearest_even n (2 ^ e) * 2 ^ e.

(** integer types: unsigned and signed of W bits *)
Inductive ity := Unsigned (W : Z) | Signed (W : Z).
(** a result in the given type: unsigned arithmetic wraps, signed overflow is undefined *)
Definition fit (ty : ity) (z : Z) : outcome Z :=
  match ty with
  | Unsigned W => Ok (z mod 2 ^ W)
  | Signed W => if (- 2 ^ (W - 1) <=? z) && (z <? 2 ^ (W - 1)) then Ok z else UB
  end.
(** conversion of a floating point number: undefined when the value does not fit *)
Definition of_float (ty : ity) (z : Z) : outcome Z :=
  match ty with
  | Unsigned W => if (0 <=? z) && (z <? 2 ^ W) then Ok z else UB
  | Signed W => if (- 2 ^ (W - 1) <=? z) && (z <? 2 ^ (W - 1)) then Ok z else UB
  end.

(** tarray.hpp:16-20, body of the loop *)
Definition distribute_step (ty : ity) (chunksize size : Z) (distribution : list Z) (t : nat) : outcome (list Z) :=
  d <- fit ty (Z.of_nat t * chunksize) ;;
  wr distribution t (if size <? d then size else d).
(** tarray.hpp:11-25; [threads] is a positive int (a negative one makes a vector of negative length) *)
Definition distribute (ty : ity) (threads : nat) (size minchunk : Z) : outcome (list Z) :=
  if (threads =? 0)%nat then UB                 (* division by zero: infinity or NaN is converted to TType *)
  else
  c <- of_float ty (fceil (fdiv (of_int size) (Z.of_nat threads))) ;;
  let chunksize := Z.max c minchunk in
  d <- foldM (distribute_step ty chunksize size) (seq 1 (threads - 1)) (repeat 0 (threads + 1)) ;;
  wr d threads size.
