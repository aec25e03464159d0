(** The ground-state energy as a function of the positions of the atoms (C147). *)
From Coq Require Import Reals.
From Coquelicot Require Import Coquelicot.
From Coq Require Import List Arith.
From Verif Require Import Base Sums Tensor BoundSpec ReachSpec.
Import ListNotations.
Local Open Scope R_scope.

(** Orthonormal orbitals of the basis, each occupied by a non-negative number of electrons, N in all. *)
Definition electron_state (sp K B : nat) (mask : tensor bool) (N : R) (c : tensor C) (occ : tensor R) : Prop :=
  basis_orbitals sp K B mask c /\ tshape occ = [sp; K; B] /\ (forall i, inb i [sp; K; B] -> 0 <= tget occ i) /\ electrons occ = N.
(** [m] is the greatest lower bound of the energies of the allowed states. *)
Definition ground (allowed : tensor C -> tensor R -> Prop) (energy : tensor C -> tensor R -> res R) (m : R) : Prop :=
  (forall c occ, allowed c occ -> exists e, energy c occ = Ok e /\ m <= e) /\
  forall d, 0 < d -> exists c occ e, allowed c occ /\ energy c occ = Ok e /\ e < m + d.
