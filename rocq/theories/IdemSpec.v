(** Which occupations the idempotent method describes (C149). *)
From Coq Require Import Reals List Arith.
From Verif Require Import Base Sums Tensor OccSpec.
Import ListNotations.
Local Open Scope R_scope.

(** Contract of jnp.linalg.qr for one real matrix: the matrix is Q times some R. *)
Definition qr_product (qr : tensor R -> tensor R) : Prop :=
  forall w M m, tshape w = [M; m] -> exists r : nat -> nat -> R,
    forall i j, (i < M)%nat -> (j < Nat.min M m)%nat -> tget w [i; j] = sumR (seq 0 (Nat.min M m)) (fun l => tget (qr w) [i; l] * r l j).
