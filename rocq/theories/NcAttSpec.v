(** The energy of the valence electrons (C150). *)
From Coq Require Import Reals.
From Coquelicot Require Import Coquelicot.
From Coq Require Import String List Arith.
From Verif Require Import Base Tensor Lin3 PwModel EnergyModel LocModel NlocModel.
Import ListNotations.
Local Open Scope R_scope.

(** The kinetic, Hartree, exchange-correlation, local and nonlocal energies of the orbitals [c] with
    the occupations [occ], in the potential [V] and the projectors [nl], added up. *)
Definition valence_energy (xcd : xcdens) (G : tensor v3) (kpts : list v3) (vol : R) (V nl : tensor C) (xt : string) (c : tensor C) (occ : tensor R) (e : R) : Prop :=
  exists d D ek eh el en ex, density_grid c vol (Some occ) = Ok d /\ density_grid_reciprocal c vol (Some occ) = Ok D /\
    e_kinetic G kpts c (Some occ) = Ok ek /\ e_hartree D G vol false = Ok eh /\ energy_local D V vol = Ok el /\ energy_nonlocal c nl vol (Some occ) = Ok en /\ e_xc xcd d G vol xt false = Ok ex /\
    e = tget ek [] + eh + el + en + ex.
