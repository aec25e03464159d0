(** Vocabulary for stationary points of the energy and the free energy. *)
From Coq Require Import Reals.
From Coquelicot Require Import Coquelicot.
From Coq Require Import Ascii String List Arith.
From Verif Require Import Base Sums Tensor Lin3 OccModel EnergyModel.
Import ListNotations.
Local Open Scope R_scope.

(** The free energy (total energy minus temperature times entropy) does not change to first order
    when the occupation numbers change and their sum does not. *)
Definition occupations_stationary (xcd : tensor R -> tensor v3 -> bool -> string -> res (tensor C)) (c : tensor C) (pos : list v3) (ch : list R) (G : tensor v3)
  (kpts : list v3) (vol : R) (occ : tensor R) (xt : string) (eps T : R) : Prop :=
  forall o : tensor R, sumR (indices (tshape occ)) (tget o) = 0 ->
  exists E S : R -> R,
    (forall t, total_energy xcd c pos ch G kpts vol (Some (mkT (tshape occ) (fun i => tget occ i + t * tget o i))) false xt = Ok (E t)) /\
    (forall t, fermi_dirac (mkT (tshape occ) (fun i => tget occ i + t * tget o i)) eps = Ok (S t)) /\
    is_derive (fun t => E t - T * S t) 0 0.

(** The Fermi function: the share of a level of energy [h] that is filled at temperature [T] and
    chemical potential [mu]. *)
Definition fermi (T mu h : R) : R := / (1 + exp ((h - mu) / T)).

(** A change [e] of the orbitals that keeps them orthonormal to first order and moves none of them
    along another: every new direction is orthogonal to every orbital of its k-point. *)
Definition outward (ns : list nat) (K B : nat) (c e : tensor C) : Prop :=
  forall k b b', (k < K)%nat -> (b < B)%nat -> (b' < B)%nat -> sumC (indices ns) (fun g => Cconj (tget e ([0%nat; k; b] ++ g)) * tget c ([0%nat; k; b'] ++ g))%C = RtoC 0.
(** The total energy does not change to first order along such changes. *)
Definition orbitals_stationary (xcd : tensor R -> tensor v3 -> bool -> string -> res (tensor C)) (c : tensor C) (pos : list v3) (ch : list R) (G : tensor v3)
  (kpts : list v3) (vol : R) (occ : tensor R) (xt : string) (ns : list nat) (B : nat) : Prop :=
  forall e, outward ns (length kpts) B c e -> exists E : R -> R,
    (forall t, total_energy xcd (mkT (tshape c) (fun i => tget c i + RtoC t * tget e i)%C) pos ch G kpts vol (Some occ) false xt = Ok (E t)) /\ is_derive E 0 0.
