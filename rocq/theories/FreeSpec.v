(** Plane waves as orbitals (C154). *)
From Coq Require Import Reals.
From Coquelicot Require Import Complex.
From Coq Require Import List Arith.
From Verif Require Import Base Sums Tensor Lin3.
Import ListNotations.
Local Open Scope R_scope.

(** Every orbital is a single plane wave: its only coefficient, of modulus one, is at grid point [sel s k b]. *)
Definition plane_waves (sp K B : nat) (ns : list nat) (sel : nat -> nat -> nat -> list nat) (c : tensor C) : Prop :=
  tshape c = [sp; K; B] ++ ns /\ forall s k b, (s < sp)%nat -> (k < K)%nat -> (b < B)%nat -> inb (sel s k b) ns /\
    exists u, Cmod u = 1 /\ tget c ([s; k; b] ++ sel s k b) = u /\ forall g, inb g ns -> g <> sel s k b -> tget c ([s; k; b] ++ g) = RtoC 0.
(** The kinetic energy of the plane wave at grid point [g] for the [k]-th k-point. *)
Definition free_energy (G : tensor v3) (kpts : list v3) (k : nat) (g : list nat) : R :=
  let q := vadd (tget G g) (nth k kpts vzero) in dot q q / 2.
