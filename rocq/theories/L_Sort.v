(** * An insertion sort that meets the std::sort contract; used in examples only *)
From Coq Require Import List Bool Arith Lia Permutation Sorted.
From Verif Require Import Base S_Order.
Import ListNotations.

Fixpoint insert {A} (ltb : A -> A -> bool) (x : A) (l : list A) : list A :=
  match l with [] => [x] | y :: t => if ltb y x then y :: insert ltb x t else x :: l end.
Definition isort {A} (ltb : A -> A -> bool) (l : list A) : list A := fold_right (insert ltb) [] l.

Lemma insert_perm {A} ltb (x : A) l : Permutation (x :: l) (insert ltb x l).
Proof. induction l as [|y l IH]; simpl; auto. destruct (ltb y x); auto. rewrite perm_swap. constructor. auto. Qed.

Lemma insert_sorted {A} ltb (x : A) l : strict_weak_order ltb -> sorted ltb l -> sorted ltb (insert ltb x l).
Proof.
  intros W. unfold sorted. induction l as [|y l IH]; intros H; simpl; [repeat constructor|]. inversion H; subst.
  destruct (ltb y x) eqn:E.
  - constructor; auto. rewrite Forall_forall in *. intros z Hz.
    eapply Permutation_in in Hz; [|symmetry; apply insert_perm]. destruct Hz as [<-|Hz]; auto.
    unfold le_of. apply (swo_asym _ W). auto.
  - constructor; auto. constructor; auto. rewrite Forall_forall in *. intros z Hz. apply (swo_le_trans _ W) with y; auto.
Qed.

Lemma isort_contract {A} (ltb : A -> A -> bool) : strict_weak_order ltb -> sort_contract ltb (isort ltb).
Proof.
  intros W l. induction l as [|x l [IH1 IH2]]; simpl; [split; [auto|constructor]|]. split.
  - rewrite <- insert_perm. constructor. auto.
  - apply insert_sorted; auto.
Qed.
