(** Free energies at a temperature (C155). *)
From Coq Require Import Reals.
From Coquelicot Require Import Coquelicot.
From Coq Require Import List Arith.
From Verif Require Import Base Tensor XcModel EnergyModel OccModel DrvModel DrvSpec.
Import ListNotations.
Local Open Scope R_scope.

(** Of all parameters the run can reach, [p] has the lowest free energy at temperature [T]. *)
Definition lowest_free (qr : tensor R -> tensor R) (cqr : tensor C -> tensor C) (xcd : xcdens) (pb : problem) (p0 : params) (T : R) (p : params) : Prop :=
  reachable pb p0 p /\ exists f e h, free_energy_of qr cqr xcd pb T p = Ok (f, (e, h)) /\
    forall p', reachable pb p0 p' -> exists f' e' h', free_energy_of qr cqr xcd pb T p' = Ok (f', (e', h')) /\ f <= f'.
(** The occupations stay below their largest value, so that the entropy is a sum of logarithms of
    positive numbers: any method but gamma, or a single k-point. *)
Definition entropy_defined (pb : problem) : Prop := pb_method pb <> MGamma \/ length (pb_k pb) = 1%nat.
(** [m] is the greatest lower bound of the free energies at temperature [T]. *)
Definition free_bound (qr : tensor R -> tensor R) (cqr : tensor C -> tensor C) (xcd : xcdens) (pb : problem) (p0 : params) (T m : R) : Prop :=
  (forall p, reachable pb p0 p -> exists f e h, free_energy_of qr cqr xcd pb T p = Ok (f, (e, h)) /\ m <= f) /\
  (forall d, 0 < d -> exists p f e h, reachable pb p0 p /\ free_energy_of qr cqr xcd pb T p = Ok (f, (e, h)) /\ f < m + d).
