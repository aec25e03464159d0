(** Which occupations the capped-simplex method describes (C145). *)
From Coq Require Import Reals List Arith ZArith.
From Verif Require Import Base Tensor OccSpec.
Import ListNotations.
Local Open Scope R_scope.

(** A spin channel of K k-points and B bands has an empty state, a full state. *)
Definition has_empty (occ : tensor R) (s K B : nat) : Prop := exists k b, (k < K)%nat /\ (b < B)%nat /\ tget occ [s; k; b] = 0.
Definition has_full (occ : tensor R) (s K B : nat) : Prop := exists k b, (k < K)%nat /\ (b < B)%nat /\ tget occ [s; k; b] = 1 / INR K.
(** Occupations of two spin channels with the right number of electrons in each. *)
Definition admissible (occ : tensor R) (K B : nat) (N s : Z) : Prop :=
  tshape occ = [2; K; B]%nat /\ within 0 (1 / INR K) occ /\ channel occ 0 = IZR ((N + s) / 2) /\ channel occ 1 = IZR ((N - s) / 2).
