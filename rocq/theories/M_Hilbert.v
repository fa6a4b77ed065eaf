(** * Model of the Hilbert curve conversions, /repo/src/basis/sfc/hilbertcurve.cpp.

    [size_t] values are integers in [0, 2^W); every arithmetic operation is followed by [wrap W].
    [W] is the width of [size_t] (64 on the supported platforms); it is a parameter so that the
    theorems are not limited to one word size. *)
From Coq Require Import ZArith Bool.
From Verif Require Import Base.
Local Open Scope Z_scope.

Section Hilbert.
Variable W : Z.

(** hilbertcurve.cpp:7-15, rotateD2 *)
Definition rotateD2 (n x y rx ry : Z) : Z * Z :=
  if ry =? 0 then
    let '(x, y) :=
      if rx =? 1 then (wrap W (n - 1 - x), wrap W (n - 1 - y)) else (x, y) in
    (y, x)
  else (x, y).

(** hilbertcurve.cpp:17-37, rotateD3 *)
Definition rotateD3 (n x y z rx ry rz : Z) : Z * Z * Z :=
  if rz =? 0 then
    if rx =? 1 then
      (* swap(x, z); x = n - 1 - x; z = n - 1 - z *)
      let '(x, z) := (z, x) in
      (wrap W (n - 1 - x), y, wrap W (n - 1 - z))
    else
      let '(y, z) :=
        if ry =? 1 then (wrap W (n - 1 - y), wrap W (n - 1 - z)) else (y, z) in
      (x, z, y)
  else
    let '(x, y) := (y, x) in
    if ry =? 1 then (wrap W (n - 1 - x), wrap W (n - 1 - y), z) else (x, y, z).

(** [rx = (x & s) > 0], hilbertcurve.cpp:45-46, 60-62 *)
Definition bit_of (x s : Z) : Z := if Z.land x s >? 0 then 1 else 0.

(** hilbertcurve.cpp:39-52, D2toD1.  The loop [for (s = n / 2; s > 0; s /= 2)] halves a W-bit
    value, so [W] iterations are enough; [fuel] counts them. *)
Fixpoint D2toD1_loop (fuel : nat) (s x y d : Z) : Z :=
  match fuel with
  | O => d
  | S f =>
    if s >? 0 then
      let rx := bit_of x s in
      let ry := bit_of y s in
      let d := wrap W (d + wrap W (s * s * Z.lxor (3 * rx) ry)) in
      let '(x, y) := rotateD2 s x y rx ry in
      D2toD1_loop f (s / 2) x y d
    else d
  end.
Definition D2toD1 (n x y : Z) : Z := D2toD1_loop (Z.to_nat W) (n / 2) x y 0.

(** hilbertcurve.cpp:54-68, D3toD1 *)
Fixpoint D3toD1_loop (fuel : nat) (s x y z d : Z) : Z :=
  match fuel with
  | O => d
  | S f =>
    if s >? 0 then
      let rx := bit_of x s in
      let ry := bit_of y s in
      let rz := bit_of z s in
      let d := wrap W (d + wrap W (s * s * s *
                 (4 * ry + Z.lxor (3 * Z.lxor ry rx) rz))) in
      let '(x, y, z) := rotateD3 s x y z rx ry rz in
      D3toD1_loop f (s / 2) x y z d
    else d
  end.
Definition D3toD1 (n x y z : Z) : Z := D3toD1_loop (Z.to_nat W) (n / 2) x y z 0.

(** hilbertcurve.cpp:70-82, D1toD2.  The loop [for (s = 1, t = d; s < n; s *= 2, t /= 4)] doubles
    [s]; for n < 2^W it ends within W iterations. *)
Fixpoint D1toD2_loop (fuel : nat) (n s t x y : Z) : Z * Z :=
  match fuel with
  | O => (x, y)
  | S f =>
    if s <? n then
      let rx := Z.land 1 (t / 2) in
      let ry := Z.land 1 (Z.lxor t rx) in
      let '(x, y) := rotateD2 s x y rx ry in
      let x := wrap W (x + s * rx) in
      let y := wrap W (y + s * ry) in
      D1toD2_loop f n (wrap W (s * 2)) (t / 4) x y
    else (x, y)
  end.
Definition D1toD2 (n d : Z) : Z * Z := D1toD2_loop (Z.to_nat W) n 1 d 0 0.

(** hilbertcurve.cpp:84-98, D1toD3 *)
Fixpoint D1toD3_loop (fuel : nat) (n s t x y z : Z) : Z * Z * Z :=
  match fuel with
  | O => (x, y, z)
  | S f =>
    if s <? n then
      let rx := Z.lxor (Z.land 1 (t / 4)) (Z.land 1 (t / 2)) in
      let ry := Z.land 1 (t / 4) in
      let rz := Z.lxor (Z.land 1 (t / 2)) (Z.land 1 t) in
      let '(x, y, z) := rotateD3 s x y z rx ry rz in
      let x := wrap W (x + s * rx) in
      let y := wrap W (y + s * ry) in
      let z := wrap W (z + s * rz) in
      D1toD3_loop f n (wrap W (s * 2)) (t / 8) x y z
    else (x, y, z)
  end.
Definition D1toD3 (n d : Z) : Z * Z * Z := D1toD3_loop (Z.to_nat W) n 1 d 0 0 0.

End Hilbert.
