(** * Base: outcomes, bounds-checked arrays and machine words.

    Shared vocabulary of all models.  Nothing here models a particular file of /repo;
    the definitions fix how C++ effects are represented. *)
From Coq Require Import ZArith List Lia Bool.
Import ListNotations.

(** Result of running a piece of C++:
    - [Ok a]  : it returned [a];
    - [Fail]  : it terminated the program by [eslog::error] and friends
                (/repo/src/esinfo/eslog.cpp:285-327, all are [[noreturn]]);
    - [UB]    : it performed an operation that C++ leaves undefined
                (out-of-bounds access, dereferencing an end iterator, ...). *)
Inductive outcome (A : Type) : Type :=
| Ok (a : A)
| Fail
| UB.
Arguments Ok {A} a.
Arguments Fail {A}.
Arguments UB {A}.

Definition obind {A B} (m : outcome A) (f : A -> outcome B) : outcome B :=
  match m with
  | Ok a => f a
  | Fail => Fail
  | UB => UB
  end.

Declare Scope out_scope.
Delimit Scope out_scope with out.
Notation "x <- m ;; k" := (obind m (fun x => k))
  (at level 61, m at next level, right associativity) : out_scope.
Notation "' p <- m ;; k" := (obind m (fun x => let p := x in k))
  (at level 61, p pattern, m at next level, right associativity) : out_scope.

(** Bounds-checked read and write of an array (std::vector, raw pointer with known extent). *)
Definition rd {A} (l : list A) (i : nat) : outcome A :=
  match nth_error l i with
  | Some a => Ok a
  | None => UB
  end.

Fixpoint upd {A} (l : list A) (i : nat) (v : A) : list A :=
  match l, i with
  | [], _ => []
  | _ :: t, O => v :: t
  | a :: t, S j => a :: upd t j v
  end.

Definition wr {A} (l : list A) (i : nat) (v : A) : outcome (list A) :=
  if Nat.ltb i (length l) then Ok (upd l i v) else UB.

(** Unsigned machine words of [W] bits (size_t has W = 64 on the supported platforms). *)
Definition wrap (W z : Z) : Z := Z.modulo z (2 ^ W).

(** ** Elementary facts about the array operations *)
Lemma upd_length {A} (l : list A) i v : length (upd l i v) = length l.
Proof. revert i; induction l; destruct i; simpl; auto. Qed.

Lemma nth_error_upd_eq {A} (l : list A) i v :
  (i < length l)%nat -> nth_error (upd l i v) i = Some v.
Proof. revert i; induction l; destruct i; simpl; intros; try lia; auto. apply IHl; lia. Qed.

Lemma nth_error_upd_neq {A} (l : list A) i j v :
  i <> j -> nth_error (upd l i v) j = nth_error l j.
Proof. revert i j; induction l; destruct i, j; simpl; intros; auto; try lia. Qed.

Lemma nth_upd_eq {A} (l : list A) i v d :
  (i < length l)%nat -> nth i (upd l i v) d = v.
Proof. revert i; induction l; destruct i; simpl; intros; try lia; auto. apply IHl; lia. Qed.

Lemma nth_upd_neq {A} (l : list A) i j v d :
  i <> j -> nth j (upd l i v) d = nth j l d.
Proof. revert i j; induction l; destruct i, j; simpl; intros; auto; try lia. Qed.

Lemma nth_upd {A} (l : list A) i j v d :
  (i < length l)%nat ->
  nth j (upd l i v) d = if Nat.eqb i j then v else nth j l d.
Proof.
  intros H. destruct (Nat.eqb_spec i j).
  - subst; apply nth_upd_eq; auto.
  - apply nth_upd_neq; auto.
Qed.

Lemma wr_ok {A} (l : list A) i v : (i < length l)%nat -> wr l i v = Ok (upd l i v).
Proof. intros; unfold wr. destruct (Nat.ltb_spec i (length l)); auto; lia. Qed.

Lemma wr_inv {A} (l l' : list A) i v :
  wr l i v = Ok l' -> (i < length l)%nat /\ l' = upd l i v.
Proof. unfold wr. destruct (Nat.ltb_spec i (length l)); intros E; inversion E; auto. Qed.

Lemma rd_ok {A} (l : list A) i d : (i < length l)%nat -> rd l i = Ok (nth i l d).
Proof.
  intros H. unfold rd. destruct (nth_error l i) eqn:E.
  - now rewrite (nth_error_nth _ _ _ E).
  - apply nth_error_None in E; lia.
Qed.

Lemma rd_inv {A} (l : list A) i a :
  rd l i = Ok a -> nth_error l i = Some a.
Proof. unfold rd. destruct (nth_error l i); intros E; inversion E; auto. Qed.

(** ** Loops and slices *)

(** [for (a : l) s = f(s, a)] with early termination on [Fail]/[UB] *)
Fixpoint foldM {S A} (f : S -> A -> outcome S) (l : list A) (s : S) : outcome S :=
  match l with
  | [] => Ok s
  | a :: t => obind (f s a) (foldM f t)
  end.

(** the half-open range [b, e) of an array, and its replacement *)
Definition slice {A} (b e : nat) (l : list A) : list A := firstn (e - b) (skipn b l).
Definition put {A} (b e : nat) (l new : list A) : list A := firstn b l ++ new ++ skipn e l.

(** std::vector::resize(n, d) *)
Definition resize {A} (n : nat) (l : list A) (d : A) : list A :=
  firstn n l ++ repeat d (n - length l).

Lemma foldM_app {S A} (f : S -> A -> outcome S) l1 l2 s :
  foldM f (l1 ++ l2) s = obind (foldM f l1 s) (foldM f l2).
Proof. revert s; induction l1; simpl; intros; auto. destruct (f s a); simpl; auto. Qed.

(** loop invariant indexed by the processed prefix *)
Lemma foldM_inv {S A} (f : S -> A -> outcome S) (I : list A -> S -> Prop) l s :
  I [] s ->
  (forall pre a post s, l = pre ++ a :: post -> I pre s ->
     exists s', f s a = Ok s' /\ I (pre ++ [a]) s') ->
  exists s', foldM f l s = Ok s' /\ I l s'.
Proof.
  intros H0 Hs.
  assert (G : forall post pre s, l = pre ++ post -> I pre s ->
            exists s', foldM f post s = Ok s' /\ I l s').
  { induction post as [|a post IH]; intros pre s0 E HI.
    - rewrite app_nil_r in E. subst. simpl. eauto.
    - destruct (Hs pre a post s0 E HI) as (s' & Ef & HI').
      simpl. rewrite Ef. simpl. apply (IH (pre ++ [a])); auto.
      rewrite <- app_assoc. exact E. }
  apply (G l []); auto.
Qed.

Lemma foldM_seq_inv {S} (f : S -> nat -> outcome S) (I : nat -> S -> Prop) b n s :
  I b s ->
  (forall i s, b <= i < b + n -> I i s -> exists s', f s i = Ok s' /\ I (Datatypes.S i) s')%nat ->
  exists s', foldM f (seq b n) s = Ok s' /\ I (b + n)%nat s'.
Proof.
  revert b s. induction n; intros b s H0 Hs; simpl.
  - exists s. rewrite Nat.add_0_r. auto.
  - destruct (Hs b s) as (s' & E & H'); [lia|auto|]. rewrite E. simpl.
    destruct (IHn (Datatypes.S b) s') as (s'' & E' & H''); auto.
    + intros; apply Hs; auto; lia.
    + exists s''. split; auto. replace (b + Datatypes.S n)%nat with (Datatypes.S b + n)%nat by lia. auto.
Qed.

Lemma skipn_skipn {A} x y (l : list A) : skipn x (skipn y l) = skipn (x + y) l.
Proof.
  revert l; induction y; intros; simpl.
  - now rewrite Nat.add_0_r.
  - rewrite Nat.add_succ_r. destruct l; simpl; [apply skipn_nil|apply IHy].
Qed.

Lemma slice_length {A} b e (l : list A) : (b <= e <= length l)%nat -> length (slice b e l) = (e - b)%nat.
Proof. intros. unfold slice. rewrite firstn_length, skipn_length. lia. Qed.

Lemma slice_app {A} b m e (l : list A) : (b <= m <= e)%nat -> slice b e l = slice b m l ++ slice m e l.
Proof.
  intros. unfold slice.
  replace (skipn m l) with (skipn (m - b) (skipn b l)).
  - replace (e - b)%nat with ((m - b) + (e - m))%nat by lia.
    generalize (m - b)%nat, (e - m)%nat, (skipn b l). clear. intros n p k. revert k.
    induction n; intros; simpl; auto. destruct k; simpl; [now rewrite firstn_nil|]. now rewrite IHn.
  - rewrite skipn_skipn. f_equal. lia.
Qed.

Lemma slice_whole {A} (l : list A) : slice 0 (length l) l = l.
Proof. unfold slice. rewrite Nat.sub_0_r. simpl. apply firstn_all. Qed.

Lemma slice_nil {A} b (l : list A) : slice b b l = [].
Proof. unfold slice. now rewrite Nat.sub_diag. Qed.

Lemma split_slice {A} b e (l : list A) : (b <= e)%nat ->
  l = firstn b l ++ slice b e l ++ skipn e l.
Proof.
  intros. rewrite <- (firstn_skipn b l) at 1. f_equal.
  unfold slice. replace (skipn e l) with (skipn (e - b) (skipn b l)).
  - symmetry; apply firstn_skipn.
  - rewrite skipn_skipn. f_equal. lia.
Qed.

Lemma put_slice {A} b e (l : list A) : (b <= e)%nat -> put b e l (slice b e l) = l.
Proof. intros. unfold put. symmetry. now apply split_slice. Qed.

Lemma put_length {A} b e (l new : list A) :
  (b <= e <= length l)%nat -> length new = (e - b)%nat -> length (put b e l new) = length l.
Proof. intros. unfold put. rewrite !app_length, firstn_length, skipn_length. lia. Qed.

Lemma slice_put_same {A} b e (l new : list A) :
  (b <= e <= length l)%nat -> length new = (e - b)%nat -> slice b e (put b e l new) = new.
Proof.
  intros. unfold slice, put.
  rewrite skipn_app, firstn_length, skipn_all2 by (rewrite firstn_length; lia).
  replace (b - Nat.min b (length l))%nat with 0%nat by lia. simpl.
  rewrite firstn_app, firstn_all2 by lia.
  replace (e - b - length new)%nat with 0%nat by lia. simpl. apply app_nil_r.
Qed.

Lemma slice_put_before {A} b e b' e' (l new : list A) :
  (e' <= b <= length l)%nat -> slice b' e' (put b e l new) = slice b' e' l.
Proof.
  intros. unfold slice, put.
  destruct (le_lt_dec e' b') as [Hle|Hlt].
  { replace (e' - b')%nat with 0%nat by lia. reflexivity. }
  rewrite skipn_app, firstn_app.
  rewrite skipn_length, firstn_length.
  replace (e' - b' - (Nat.min b (length l) - b'))%nat with 0%nat by lia. simpl.
  rewrite app_nil_r. rewrite skipn_firstn_comm, firstn_firstn. f_equal. lia.
Qed.

Lemma slice_put_after {A} b e b' e' (l new : list A) :
  (b <= e)%nat -> (e <= b')%nat -> (e <= length l)%nat -> length new = (e - b)%nat ->
  slice b' e' (put b e l new) = slice b' e' l.
Proof.
  intros. unfold slice, put. f_equal.
  rewrite skipn_app, firstn_length, skipn_all2 by (rewrite firstn_length; lia). simpl.
  rewrite skipn_app, skipn_all2 by lia. simpl.
  rewrite skipn_skipn. f_equal. lia.
Qed.

Lemma nth_slice {A} b e (l : list A) i d :
  (i < e - b)%nat -> nth i (slice b e l) d = nth (b + i) l d.
Proof.
  intros. unfold slice.
  assert (G : forall n (k : list A) i, (i < n)%nat -> nth i (firstn n k) d = nth i k d).
  { clear. induction n; intros; try lia. destruct k; simpl; [now destruct i|]. destruct i; auto. apply IHn; lia. }
  rewrite G by auto. clear G H. revert l; induction b; intros; simpl; auto.
  destruct l; simpl; auto. now destruct i.
Qed.

Lemma app_inv_len {A} (a b c d : list A) :
  length a = length c -> a ++ b = c ++ d -> a = c /\ b = d.
Proof.
  revert c. induction a as [|x a IH]; intros [|y c] HL H; simpl in *; try lia; auto.
  inversion H; subst. destruct (IH c) as [-> ->]; auto.
Qed.

Lemma nth_repeat_lt {A} (a d : A) n k : (k < n)%nat -> nth k (repeat a n) d = a.
Proof. revert k; induction n; intros; try lia. destruct k; simpl; auto. apply IHn; lia. Qed.
