(** * Model of the automatic optimization: parameter manager, search algorithms and proxy
    (/repo/src/autoopt/proxy.cpp, evolution.cpp)

    Simplifications common to the file:
    - the arithmetic of doubles is an arbitrary [arith]: no law of it is built into the model
      (the theorems say which laws they need);
    - random numbers are arguments of the functions that draw them;
    - iterators of [std::vector] are positions, [--]/[++] on counters of type int do not overflow;
    - OutputManager::writeConfiguration only logs and is omitted;
    - [std::vector::operator=] between vectors of the same size keeps the iterators valid
      (evolution.cpp:250-251). *)
From Coq Require Import ZArith List Bool.
From Verif Require Import Base.
Import ListNotations.
Local Open Scope Z_scope.
Local Open Scope out_scope.

Record arith := {
  num : Type;
  add : num -> num -> num;
  sub : num -> num -> num;
  mul : num -> num -> num;
  div : num -> num -> num;
  lt : num -> num -> bool;
  ofZ : Z -> num;
  trunc : num -> Z                                 (* rounding towards zero *)
}.

Definition int_min : Z := - 2 ^ 31.
Definition int_max : Z := 2 ^ 31 - 1.

(** conversion of a double to int: undefined outside of the range of int *)
Definition to_int (z : Z) : outcome Z :=
  if (int_min <=? z) && (z <=? int_max) then Ok z else UB.

(** p->metadata.datatype.front() and p->metadata.options.size() *)
Inductive dtype :=
| INTEGER | POSITIVE_INTEGER | NONNEGATIVE_INTEGER | FLOAT
| OPTION (n : Z) | ENUM_FLAGS (n : Z) | BOOL.

(** proxy.cpp:103-137, getParameterMin *)
Definition parameter_min (p : dtype) : outcome Z :=
  match p with
  | INTEGER => Ok int_min
  | POSITIVE_INTEGER => Ok 1
  | NONNEGATIVE_INTEGER => Ok 0
  | OPTION _ => Ok 0
  | ENUM_FLAGS _ => Ok 0
  | BOOL => Ok 0
  | FLOAT => Fail
  end.

(** proxy.cpp:139-175, getParameterMax *)
Definition parameter_max (p : dtype) : outcome Z :=
  match p with
  | INTEGER => Ok int_max
  | POSITIVE_INTEGER => Ok int_max
  | NONNEGATIVE_INTEGER => Ok int_max
  | OPTION n => Ok (n - 1)
  | ENUM_FLAGS n => Ok (n - 1)
  | BOOL => Ok 1
  | FLOAT => Fail
  end.

(** ** AllPermutationsAlgorithm (evolution.cpp:30-63)
    All doubles that the algorithm computes with are integers, they are modelled by Z; the reported
    values are only appended to the vector. *)

(** evolution.cpp:34-36 *)
Definition ap_init_step (last : list Z) (p : dtype) : outcome (list Z) :=
  m <- parameter_min p ;; Ok (last ++ [m]).
Definition ap_init (ps : list dtype) : outcome (list Z) := foldM ap_init_step ps [].

(** evolution.cpp:49-62, the loop over the parameters from the last one *)
Fixpoint ap_carry (ps : list dtype) (i : nat) (last : list Z) : outcome (list Z) :=
  match i with
  | O => Ok last
  | S i =>
    x <- rd last i ;;
    p <- to_int (x + 1) ;;
    d <- rd ps i ;;
    M <- parameter_max d ;;
    if M <? p
    then (m <- parameter_min d ;; last <- wr last i m ;; ap_carry ps i last)
    else wr last i p
  end.

(** evolution.cpp:44-63 *)
Definition ap_evaluate (ps : list dtype) (last : list Z) (value : Z) : outcome (list Z) :=
  ap_carry ps (length ps) (last ++ [value]).

(** ** ParameterManager *)
Section Manager.
Variable A : arith.
Local Notation T := (num A).

(** proxy.cpp:206-254 *)
Definition check_immediate (p : dtype) (value : T) : outcome T :=
  match p with
  | INTEGER => v <- to_int (trunc A value) ;; Ok (ofZ A v)
  | POSITIVE_INTEGER => v <- to_int (trunc A value) ;; Ok (ofZ A (if v <? 1 then 1 else v))
  | NONNEGATIVE_INTEGER => v <- to_int (trunc A value) ;; Ok (ofZ A (if v <? 0 then 0 else v))
  | OPTION n | ENUM_FLAGS n =>
    v <- to_int (trunc A value) ;;
    Ok (ofZ A (if v <? 0 then 0 else if n <=? v then n - 1 else v))
  | BOOL => v <- to_int (trunc A value) ;; Ok (ofZ A (if v <? 0 then 0 else if 1 <? v then 1 else v))
  | FLOAT => Ok value
  end.

(** proxy.cpp:256-282; [a >= b] of doubles is [!(a < b)] (no NaN) *)
Definition check_no_rounding (p : dtype) (value : T) : T :=
  match p with
  | POSITIVE_INTEGER => if lt A value (ofZ A 1) then ofZ A 1 else value
  | NONNEGATIVE_INTEGER => if lt A value (ofZ A 0) then ofZ A 0 else value
  | OPTION n | ENUM_FLAGS n =>
    if lt A value (ofZ A 0) then ofZ A 0
    else if negb (lt A value (ofZ A n)) then ofZ A (n - 1) else value
  | BOOL =>
    if lt A value (ofZ A 0) then ofZ A 0
    else if lt A (ofZ A 1) value then ofZ A 1 else value
  | INTEGER | FLOAT => value
  end.

(** proxy.cpp:177-181 *)
Definition check_parameter (immediate : bool) (p : dtype) (value : T) : outcome T :=
  if immediate then check_immediate p value else Ok (check_no_rounding p value).

(** proxy.cpp:54-101, one parameter; [g1], [g2] are outputs of std::mt19937 (32 bits, of the 64-bit
    type uint_fast32_t), [r] a decimal and [k] the output of uniform_int_distribution *)
Definition generate_value (p : dtype) (g1 g2 : Z) (r : T) (k : Z) : T :=
  match p with
  | INTEGER => ofZ A (wrap 64 (g1 - g2))
  | POSITIVE_INTEGER => ofZ A (Z.modulo g1 (2 ^ 32 - 1) + 1)
  | NONNEGATIVE_INTEGER => ofZ A g1
  | FLOAT => add A (ofZ A (wrap 64 (g1 - g2))) r
  | OPTION _ | ENUM_FLAGS _ | BOOL => ofZ A k
  end.

(** proxy.cpp:183-204 *)
Definition values_equal (p : dtype) (a b : T) : outcome bool :=
  match p with
  | FLOAT => Fail
  | _ => x <- to_int (trunc A a) ;; y <- to_int (trunc A b) ;; Ok (x =? y)
  end.

(** proxy.cpp:437-442, the loop over the parameters *)
Fixpoint same_configuration (ps : list dtype) (c f : list T) (i : nat) : outcome bool :=
  match ps with
  | [] => Ok true
  | p :: ps =>
    a <- rd c i ;; b <- rd f i ;; e <- values_equal p a b ;;
    if e then same_configuration ps c f (S i) else Ok false
  end.

(** proxy.cpp:432-451, isForbidden *)
Fixpoint is_forbidden (ps : list dtype) (forbiddens : list (list T)) (c : list T) : outcome bool :=
  match forbiddens with
  | [] => Ok false
  | f :: fs => e <- same_configuration ps c f 0 ;; if e then Ok true else is_forbidden ps fs c
  end.

(** proxy.cpp:387-411, what is passed to setValue: an index of an option, a logical value, an integer
    or the double itself *)
Inductive setting := SOption (i : nat) | SBool (b : bool) | SFloat (v : T) | SInt (z : Z).
Definition set_value (p : dtype) (v : T) : outcome setting :=
  match p with
  | OPTION n | ENUM_FLAGS n =>
    z <- to_int (trunc A v) ;;
    if (0 <=? z) && (z <? n) then Ok (SOption (Z.to_nat z)) else UB
  | BOOL => z <- to_int (trunc A v) ;; Ok (SBool (negb (z =? 0)))
  | FLOAT => Ok (SFloat v)
  | INTEGER | POSITIVE_INTEGER | NONNEGATIVE_INTEGER => z <- to_int (trunc A v) ;; Ok (SInt z)
  end.
Fixpoint set_values (ps : list dtype) (c : list T) (i : nat) : outcome (list setting) :=
  match ps with
  | [] => Ok []
  | p :: ps => v <- rd c i ;; s <- set_value p v ;; r <- set_values ps c (S i) ;; Ok (s :: r)
  end.

(** std::vector::back *)
Definition back (l : list T) : outcome T := rd l (length l - 1).

(** ** PSOAlgorithm (evolution.cpp:66-167) *)
Record pso := {
  p_specimens : list (list T);
  p_current : nat;
  p_initializing : bool;
  p_best : list (list T);                          (* pBest *)
  p_velocity : list (list T);
  p_gbest : list T;                                (* gBest *)
  p_w : T;
  p_generation : Z
}.

Record pso_conf := { p_C1 : T; p_C2 : T; p_wstart : T; p_wend : T; p_generations : Z }.

(** evolution.cpp:66-89; the generated specimens and velocities are arguments *)
Definition pso_init (specimens velocity : list (list T)) : pso :=
  {| p_specimens := specimens; p_current := 0; p_initializing := true; p_best := [];
     p_velocity := velocity; p_gbest := []; p_w := ofZ A 1; p_generation := 0 |}.

(** evolution.cpp:103-115, one component of the particle [s]; the state is its position and velocity *)
Definition pso_move (im : bool) (c : pso_conf) (w : T) (pbest gbest : list T) (r1 r2 : T)
    (sv : list T * list T) (ip : nat * dtype) : outcome (list T * list T) :=
  let '(s, v) := sv in
  let '(i, p) := ip in
  vi <- rd v i ;; pb <- rd pbest i ;; gb <- rd gbest i ;; x <- rd s i ;;
  let vel := add A (add A (mul A w vi) (mul A (mul A (p_C1 c) r1) (sub A pb x)))
                   (mul A (mul A (p_C2 c) r2) (sub A gb x)) in
  v <- wr v i vel ;;
  x' <- check_parameter im p (add A x vel) ;;
  s <- wr s i x' ;;
  Ok (s, v).

(** evolution.cpp:91-119 *)
Definition pso_get (im : bool) (ps : list dtype) (c : pso_conf) (r1 r2 : T) (st : pso)
    : outcome (list T * pso) :=
  cur <- rd (p_specimens st) (p_current st) ;;
  if p_initializing st then Ok (cur, st)
  else
    v <- rd (p_velocity st) (p_current st) ;;
    pb <- rd (p_best st) (p_current st) ;;
    '(s, v) <- foldM (pso_move im c (p_w st) pb (p_gbest st) r1 r2)
                     (combine (seq 0 (length ps)) ps) (cur, v) ;;
    ss <- wr (p_specimens st) (p_current st) s ;;
    vs <- wr (p_velocity st) (p_current st) v ;;
    Ok (s, {| p_specimens := ss; p_current := p_current st; p_initializing := false;
              p_best := p_best st; p_velocity := vs; p_gbest := p_gbest st; p_w := p_w st;
              p_generation := p_generation st |}).

(** evolution.cpp:138, 165 *)
Definition pso_weight (c : pso_conf) (generation : Z) : T :=
  sub A (p_wstart c)
      (div A (mul A (sub A (p_wstart c) (p_wend c)) (ofZ A generation)) (ofZ A (p_generations c))).

(** evolution.cpp:123-140 *)
Definition pso_evaluate_init (c : pso_conf) (value : T) (st : pso) : outcome pso :=
  cur <- rd (p_specimens st) (p_current st) ;;
  let cur := cur ++ [value] in
  ss <- wr (p_specimens st) (p_current st) cur ;;
  let gbest := match p_gbest st with [] => cur | g => g end in
  g <- back gbest ;;
  let gbest := if lt A value g then cur else gbest in
  let done := Nat.eqb (S (p_current st)) (length ss) in
  Ok {| p_specimens := ss; p_current := if done then O else S (p_current st);
        p_initializing := negb done; p_best := p_best st ++ [cur]; p_velocity := p_velocity st;
        p_gbest := gbest; p_w := if done then pso_weight c (p_generation st) else p_w st;
        p_generation := p_generation st |}.

(** evolution.cpp:141-167; [d] is the dimension *)
Definition pso_evaluate_next (d : nat) (c : pso_conf) (value : T) (st : pso) : outcome pso :=
  cur <- rd (p_specimens st) (p_current st) ;;
  cur <- wr cur d value ;;
  ss <- wr (p_specimens st) (p_current st) cur ;;
  v <- rd cur d ;;
  pb <- rd (p_best st) (p_current st) ;;
  b <- back pb ;;
  pbs <- (if lt A v b then wr (p_best st) (p_current st) cur else Ok (p_best st)) ;;
  pb <- rd pbs (p_current st) ;;
  b <- back pb ;;
  g <- back (p_gbest st) ;;
  let gbest := if lt A b g then pb else p_gbest st in
  let done := Nat.eqb (S (p_current st)) (length ss) in
  let generation := if done then p_generation st + 1 else p_generation st in
  Ok {| p_specimens := ss; p_current := if done then O else S (p_current st);
        p_initializing := false; p_best := pbs; p_velocity := p_velocity st;
        p_gbest := gbest; p_w := if done then pso_weight c generation else p_w st;
        p_generation := generation |}.

(** evolution.cpp:121-167 *)
Definition pso_evaluate (d : nat) (c : pso_conf) (value : T) (st : pso) : outcome pso :=
  if p_initializing st then pso_evaluate_init c value st else pso_evaluate_next d c value st.

(** ** DEAlgorithm (evolution.cpp:169-254) *)
Record de := {
  d_specimens : list (list T);
  d_current : nat;
  d_initializing : bool;
  d_new : list (list T);                           (* new_generation *)
  d_trial : list T;                                (* trial_vector *)
  d_best : list T
}.

(** evolution.cpp:169-178 *)
Definition de_init (specimens : list (list T)) : de :=
  {| d_specimens := specimens; d_current := 0; d_initializing := true; d_new := []; d_trial := [];
     d_best := [] |}.

(** evolution.cpp:196-202 *)
Definition de_mutate (im : bool) (F : T) (x y z : list T) (noisy : list T) (ip : nat * dtype)
    : outcome (list T) :=
  let '(i, p) := ip in
  a <- rd x i ;; b <- rd y i ;; c <- rd z i ;;
  v <- check_parameter im p (add A a (mul A F (sub A b c))) ;;
  wr noisy i v.

(** evolution.cpp:180-213; [k1 k2 k3] are the drawn specimens, [k] the drawn parameter, [r] the
    drawn decimal *)
Definition de_get (im : bool) (ps : list dtype) (F CR : T) (k1 k2 k3 k : nat) (r : T) (st : de)
    : outcome (list T * de) :=
  cur <- rd (d_specimens st) (d_current st) ;;
  if d_initializing st then Ok (cur, st)
  else
    x <- rd (d_specimens st) k1 ;; y <- rd (d_specimens st) k2 ;; z <- rd (d_specimens st) k3 ;;
    noisy <- foldM (de_mutate im F x y z) (combine (seq 0 (length ps)) ps)
                   (repeat (ofZ A 0) (length ps)) ;;
    tk <- rd noisy k ;;
    ck <- rd cur k ;;
    trial <- wr noisy k (if lt A r CR then tk else ck) ;;
    Ok (trial, {| d_specimens := d_specimens st; d_current := d_current st;
                  d_initializing := false; d_new := d_new st; d_trial := trial;
                  d_best := d_best st |}).

(** evolution.cpp:217-229 *)
Definition de_evaluate_init (value : T) (st : de) : outcome de :=
  cur <- rd (d_specimens st) (d_current st) ;;
  let cur := cur ++ [value] in
  ss <- wr (d_specimens st) (d_current st) cur ;;
  let best := match d_best st with [] => cur | b => b end in
  b <- back best ;;
  let best := if lt A value b then cur else best in
  let done := Nat.eqb (S (d_current st)) (length ss) in
  Ok {| d_specimens := ss; d_current := if done then O else S (d_current st);
        d_initializing := negb done; d_new := d_new st; d_trial := d_trial st; d_best := best |}.

(** evolution.cpp:230-253 *)
Definition de_evaluate_next (value : T) (st : de) : outcome de :=
  let trial := d_trial st ++ [value] in
  cur <- rd (d_specimens st) (d_current st) ;;
  t <- back trial ;;
  c <- back cur ;;
  let selected := if lt A t c then trial else cur in
  let new := d_new st ++ [selected] in
  b <- back (d_best st) ;;
  s <- back selected ;;
  let best := if lt A s b then selected else d_best st in
  let done := Nat.eqb (S (d_current st)) (length (d_specimens st)) in
  Ok {| d_specimens := if done then new else d_specimens st;
        d_current := if done then O else S (d_current st);
        d_initializing := false; d_new := if done then [] else new; d_trial := trial;
        d_best := best |}.

(** evolution.cpp:215-254 *)
Definition de_evaluate (value : T) (st : de) : outcome de :=
  if d_initializing st then de_evaluate_init value st else de_evaluate_next value st.

(** ** SOMAAlgorithm (evolution.cpp:256-339) *)
Record soma := {
  s_specimens : list (list T);
  s_current : nat;
  s_initializing : bool;
  s_journeys : list (list T);
  s_journey : nat;                                 (* current_journey *)
  s_bestj : nat;                                   (* best_journey *)
  s_best : list T
}.

Record soma_conf := { s_PRT : T; s_STEP : T; s_PATH : T }.

(** evolution.cpp:256-265 *)
Definition soma_init (specimens : list (list T)) : soma :=
  {| s_specimens := specimens; s_current := 0; s_initializing := true; s_journeys := [];
     s_journey := 0; s_bestj := 0; s_best := [] |}.

(** evolution.cpp:267-271 *)
Definition soma_get (st : soma) : outcome (list T * soma) :=
  x <- (if s_initializing st then rd (s_specimens st) (s_current st)
        else rd (s_journeys st) (s_journey st)) ;;
  Ok (x, st).

(** evolution.cpp:282-291, 296-299: one component of the journey [j]; [r] is the drawn decimal.
    The check is applied to the component at once instead of in a second loop. *)
Definition soma_jump (im : bool) (c : soma_conf) (cur best : list T) (j : nat) (r : nat -> nat -> T)
    (journey : list T) (ip : nat * dtype) : outcome (list T) :=
  let '(i, p) := ip in
  let prt := ofZ A (if lt A (r j i) (s_PRT c) then 1 else 0) in
  let step := mul A (ofZ A (Z.of_nat j)) (s_STEP c) in
  x <- rd cur i ;;
  b <- rd best i ;;
  v <- check_parameter im p (add A x (mul A (mul A (sub A b x) step) prt)) ;;
  wr journey i v.

(** evolution.cpp:280-293, one journey *)
Definition soma_journey (im : bool) (ps : list dtype) (c : soma_conf) (cur best : list T)
    (r : nat -> nat -> T) (js : list (list T)) (j : nat) : outcome (list (list T)) :=
  journey <- foldM (soma_jump im c cur best j r) (combine (seq 0 (length ps)) ps)
                   (repeat (ofZ A 0) (length ps + 1)) ;;
  Ok (js ++ [journey]).

(** evolution.cpp:275-303, produceJourneys *)
Definition produce_journeys (im : bool) (ps : list dtype) (c : soma_conf) (cur best : list T)
    (r : nat -> nat -> T) : outcome (list (list T)) :=
  jumps <- to_int (trunc A (div A (s_PATH c) (s_STEP c))) ;;
  foldM (soma_journey im ps c cur best r) (seq 1 (Z.to_nat jumps)) [].

(** evolution.cpp:306-318 *)
Definition soma_evaluate_init (im : bool) (ps : list dtype) (c : soma_conf) (r : nat -> nat -> T)
    (value : T) (st : soma) : outcome soma :=
  cur <- rd (s_specimens st) (s_current st) ;;
  let cur := cur ++ [value] in
  ss <- wr (s_specimens st) (s_current st) cur ;;
  let best := match s_best st with [] => cur | b => b end in
  b <- back best ;;
  let best := if lt A value b then cur else best in
  if Nat.eqb (S (s_current st)) (length ss) then
    cur <- rd ss 0 ;;
    js <- produce_journeys im ps c cur best r ;;
    Ok {| s_specimens := ss; s_current := 0; s_initializing := false; s_journeys := js;
          s_journey := 0; s_bestj := 0; s_best := best |}
  else
    Ok {| s_specimens := ss; s_current := S (s_current st); s_initializing := true;
          s_journeys := s_journeys st; s_journey := s_journey st; s_bestj := s_bestj st;
          s_best := best |}.

(** evolution.cpp:319-338 *)
Definition soma_evaluate_next (im : bool) (ps : list dtype) (c : soma_conf) (r : nat -> nat -> T)
    (value : T) (st : soma) : outcome soma :=
  let d := length ps in
  j <- rd (s_journeys st) (s_journey st) ;;
  j <- wr j d value ;;
  js <- wr (s_journeys st) (s_journey st) j ;;
  bj <- rd js (s_bestj st) ;;
  bv <- rd bj d ;;
  let bestj := if lt A value bv then s_journey st else s_bestj st in
  if Nat.eqb (S (s_journey st)) (length js) then
    bj <- rd js bestj ;;
    fitness <- rd bj d ;;
    cur <- rd (s_specimens st) (s_current st) ;;
    cv <- rd cur d ;;
    ss <- (if lt A fitness cv then wr (s_specimens st) (s_current st) bj else Ok (s_specimens st)) ;;
    b <- rd (s_best st) d ;;
    let best := if lt A fitness b then bj else s_best st in
    let current := if Nat.eqb (S (s_current st)) (length ss) then O else S (s_current st) in
    cur <- rd ss current ;;
    js <- produce_journeys im ps c cur best r ;;
    Ok {| s_specimens := ss; s_current := current; s_initializing := false; s_journeys := js;
          s_journey := 0; s_bestj := 0; s_best := best |}
  else
    Ok {| s_specimens := s_specimens st; s_current := s_current st; s_initializing := false;
          s_journeys := js; s_journey := S (s_journey st); s_bestj := bestj; s_best := s_best st |}.

(** evolution.cpp:273-339 *)
Definition soma_evaluate (im : bool) (ps : list dtype) (c : soma_conf) (r : nat -> nat -> T)
    (value : T) (st : soma) : outcome soma :=
  if s_initializing st then soma_evaluate_init im ps c r value st
  else soma_evaluate_next im ps c r value st.

(** ** SOMAT3AAlgorithm::produceLeader (evolution.cpp:380-395)
    A pointer to a specimen, or to the local variable [candidate] whose life time has ended. *)
Inductive leader := Specimen (i : nat) | Dangling.

Definition deref (specimens : list (list T)) (l : leader) : outcome (list T) :=
  match l with Specimen i => rd specimens i | Dangling => UB end.

(** evolution.cpp:383-390, [k] is the drawn specimen *)
Definition leader_step (d : nat) (specimens : list (list T)) (l : leader) (k : nat) : outcome leader :=
  candidate <- rd specimens k ;;
  a <- rd candidate d ;;
  ld <- deref specimens l ;;
  b <- rd ld d ;;
  Ok (if lt A a b then Dangling else l).

(** evolution.cpp:380-395 *)
Definition produce_leader (d : nat) (specimens : list (list T)) (k : nat) (ks : list nat)
    : outcome leader :=
  foldM (leader_step d specimens) ks (Specimen k).

(** ** OptimizationProxy
    [x_alg] is [None] while the member [m_alg] was not initialized (proxy.cpp:326). *)
Record proxy (S : Type) := { x_rank : nat; x_alg : option S; x_forbiddens : list (list T) }.

(** proxy.cpp:424-430; [get] and [evaluate] are the functions of the algorithm *)
Definition set_forbidden {S : Type} (get : S -> outcome (list T * S)) (evaluate : T -> S -> outcome S)
    (max : T) (x : proxy S) : outcome (proxy S) :=
  if Nat.eqb (x_rank S x) 0 then Ok x
  else
    match x_alg S x with
    | None => UB
    | Some a =>
      '(c, a) <- get a ;;
      a <- evaluate max a ;;
      Ok {| x_rank := x_rank S x; x_alg := Some a; x_forbiddens := x_forbiddens S x ++ [c] |}
    end.

(** proxy.cpp:317-362: the constructor creates the algorithm on the rank 0 only *)
Definition proxy_init {S : Type} (rank : nat) (a : S) : proxy S :=
  {| x_rank := rank; x_alg := if Nat.eqb rank 0 then Some a else None; x_forbiddens := [] |}.

(** proxy.cpp:364-367: delete of an uninitialized pointer *)
Definition proxy_delete {S : Type} (x : proxy S) : outcome unit :=
  match x_alg S x with Some _ => Ok tt | None => UB end.

End Manager.
