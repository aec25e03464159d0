(** The lowest free energy as a function of the electronic temperature (C158). *)
From Coq Require Import Reals.
From Coquelicot Require Import Coquelicot.
From Coq Require Import List.
From Verif Require Import Base Tensor XcModel EnergyModel CalcModel DrvModel DrvSpec ReachSpec AttSpec TempSpec.
Local Open Scope R_scope.

(** [m T] is the greatest lower bound of the free energies the run can reach at temperature T.  It is concave.
    Parameters p with the lowest one at tau give a line through (tau, m tau) with slope minus their entropy h:
    m never rises above this line, and has this slope at tau wherever it has one. *)
Definition temperature_curve (qr : tensor R -> tensor R) (cqr : tensor C -> tensor C) (xcd : xcdens) (pb : problem) (p0 : params) (m : R -> R) : Prop :=
  (forall T, free_bound qr cqr xcd pb p0 T (m T)) /\
  (forall T T' l, 0 <= l <= 1 -> l * m T + (1 - l) * m T' <= m (l * T + (1 - l) * T')) /\
  (forall tau p e h, reachable pb p0 p -> free_energy_of qr cqr xcd pb tau p = Ok (m tau, (e, h)) ->
    (forall T, m T <= m tau - (T - tau) * h) /\ (forall l, is_derive m tau l -> l = - h)).
