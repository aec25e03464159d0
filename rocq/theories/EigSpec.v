(** Vocabulary for eigenvalues of Hermitian matrices.  A matrix is a function of row and column
    together with its size. *)
From Coq Require Import Reals List Arith.
From Coquelicot Require Import Complex.
From Verif Require Import Sums.
Import ListNotations.
Local Open Scope R_scope.

Definition kron (i j : nat) : C := if (i =? j)%nat then RtoC 1 else RtoC 0.
Definition hermitian (n : nat) (H : nat -> nat -> C) : Prop :=
  forall i j, (i < n)%nat -> (j < n)%nat -> H j i = Cconj (H i j).
(** The B columns of the n-row matrix Q are orthonormal. *)
Definition orthonormal_columns (n B : nat) (Q : nat -> nat -> C) : Prop :=
  forall i j, (i < B)%nat -> (j < B)%nat -> sumC (seq 0 n) (fun g => Cconj (Q g i) * Q g j)%C = kron i j.
(** Q^H A Q. *)
Definition compress (n : nat) (A Q : nat -> nat -> C) (i j : nat) : C :=
  sumC (seq 0 n) (fun g => sumC (seq 0 n) (fun g' => Cconj (Q g i) * A g g' * Q g' j)%C).
Definition ascending (n : nat) (lam : nat -> R) : Prop :=
  forall i j, (i <= j)%nat -> (j < n)%nat -> lam i <= lam j.
(** [lam] lists the eigenvalues of H in ascending order, with multiplicity: H = V diag(lam) V^H
    for a unitary V. *)
Definition spectrum (n : nat) (H : nat -> nat -> C) (lam : nat -> R) : Prop :=
  ascending n lam /\ exists V, orthonormal_columns n n V /\
    (forall i j, (i < n)%nat -> (j < n)%nat -> sumC (seq 0 n) (fun m => V i m * Cconj (V j m))%C = kron i j) /\
    (forall i j, (i < n)%nat -> (j < n)%nat -> H i j = sumC (seq 0 n) (fun m => V i m * RtoC (lam m) * Cconj (V j m))%C).
