(** Potentials that are real on the grid (C152). *)
From Coq Require Import Reals.
From Coquelicot Require Import Complex.
From Coq Require Import List.
From Verif Require Import Base Tensor Lin3 GridModel PadModel PwModel EnergyModel EnergySpec.
Import ListNotations.

(** The potential with the Fourier coefficients [V] has no imaginary part on the grid. *)
Definition real_on_grid (V : tensor C) : Prop := forall v, ifftn3 V = Ok v -> real_valued v.
(** The Hartree potential of the density [d] has no imaginary part on the grid. *)
Definition hartree_real (d : tensor R) (G : tensor v3) : Prop :=
  forall D V, fftn3 (tmap RtoC d) = Ok D -> hartree_reciprocal D G true = Ok V -> real_on_grid V.
