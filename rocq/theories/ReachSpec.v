(** The parameters of the orbitals (C144). *)
From Coq Require Import Reals.
From Coquelicot Require Import Complex.
From Coq Require Import List Arith.
From Verif Require Import Base Sums Tensor PwSpec.
Import ListNotations.
Local Open Scope C_scope.

(** Contract of jnp.linalg.qr, batched: the matrix is Q times an upper triangular R. *)
Definition qr_factors (qr : tensor C -> tensor C) : Prop :=
  forall w bs M m b, tshape w = bs ++ [M; m] -> inb b bs -> exists R : nat -> nat -> C,
    (forall l j, (j < l)%nat -> R l j = RtoC 0) /\
    forall i j, (i < M)%nat -> (j < Nat.min M m)%nat -> tget w (b ++ [i; j]) = sumC (seq 0 (Nat.min M m)) (fun l => tget (qr w) (b ++ [i; l]) * R l j).

(** Orthonormal orbitals made of the plane waves the mask selects. *)
Definition basis_orbitals (sp K B : nat) (mask : tensor bool) (c : tensor C) : Prop :=
  tshape c = [sp; K; B] ++ tshape mask /\ orthonormal_bands [sp; K] B (tshape mask) c /\
  forall b i, inb b [sp; K; B] -> inb i (tshape mask) -> tget mask i = false -> tget c (b ++ i) = RtoC 0.

(** The same orbitals up to a phase factor each. *)
Definition same_up_to_phase (sp K B : nat) (ns : list nat) (c c' : tensor C) : Prop :=
  tshape c' = tshape c /\ forall s k b, (s < sp)%nat -> (k < K)%nat -> (b < B)%nat ->
    exists u, Cmod u = 1%R /\ forall g, inb g ns -> tget c' ([s; k; b] ++ g) = u * tget c ([s; k; b] ++ g).
