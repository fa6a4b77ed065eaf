(** * What the ranks keep for the projector *)
From Coq Require Import List Arith Bool Reals.
From Verif Require Import Base S_Nb M_Dual S_Dual S_Equality M_TotalFeti S_Feti M_Projector S_Projector M_ProjectorRanks.
Import ListNotations.
Local Open Scope R_scope.

Section Keeps.
  Variables (n : nat) (first : nat -> nat) (L : list (list nat)) (nb : nat -> list nat) (cmap : nat -> list nat) (sz : nat -> nat) (itv : nat -> list (nat * nat)) (sizes : list nat).
  Variables (len : nat -> nat) (row : nat -> nat -> list (nat * R)) (ksize : nat -> nat) (Rk : nat -> nat -> nat -> R) (J : inverse).

  Definition kernels (ds : list nat) : nat := length (kernel_vector ksize ds (fun _ _ => 0)).
  (** the matrices of rank [r] *)
  Definition inverse_stored (r : nat) (type : ggt_type) (q : projector R) : Prop :=
    match J with
    | Whole A => type = GGT /\ invGGt q = kernel_rows n first ksize (own first r) A
    | Factors Lo Up => type = LU /\ invL q = kernel_rows n first ksize (own first r) Lo /\ invU q = kernel_rows n first ksize (own first r) Up
    | Nothing => type = NONE /\ forall d, In d (everything n first) -> ksize d = 0%nat
    end.
  Record keeps (type : ggt_type) (r : nat) (q : projector R) : Prop := {
    k_threads : distribution (threads q) (dist q) (kernels (own first r));
    k_offset : koffset q = kernels_before first ksize r;
    k_local : ksize_local q = kernels (own first r);
    k_total : ktotal q = kernels (everything n first);
    k_G : mG q = G_stored first L len row ksize Rk r;
    k_R : mR1 q = R_stored first len ksize Rk r;
    k_inverse : inverse_stored r type q;
    k_Gx : length (arrGx q) = kernels (everything n first);
    k_iGGtGx : length (arrIGGtGx q) = kernels (own first r);
    k_mid : length (arrMid q) = kernels (everything n first);
    k_deco : deco q = decomposed first nb r;
    k_map : dual_map_set (decomposed first nb r) (sz r) (itv r) (cmap r) = Ok (dmap q);
    k_intervals : intervals_ok first L sizes r (itv r);
    k_send : buffers (dmap q) (sendBuffer q);
    k_recv : buffers (dmap q) (recvBuffer q) }.
End Keeps.
