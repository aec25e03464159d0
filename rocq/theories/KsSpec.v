(** Kohn-Sham orbitals and the filling of the levels (C151). *)
From Coq Require Import Reals.
From Coquelicot Require Import Complex.
From Coq Require Import List Arith.
From Verif Require Import Base Sums Tensor HamSpec ReachSpec.
Import ListNotations.
Local Open Scope C_scope.

(** [matrix]: the matrix elements of the Hamiltonian between the bands of some orbitals.
    The orbitals [c] solve the Kohn-Sham equations of the basis: bands with different occupations
    are not coupled, and the Hamiltonian takes an occupied band into the space of the bands; its
    overlap with any vector [f] of the basis is that of sum_b' M[b',b] c_b'. *)
Definition kohn_sham_orbitals (matrix : tensor C -> res (tensor C)) (ns : list nat) (K B : nat) (mask : tensor bool) (c : tensor C) (occ : tensor R) : Prop :=
  exists M, matrix c = Ok M /\
    (forall k b b', (k < K)%nat -> (b < B)%nat -> (b' < B)%nat -> tget occ [0%nat; k; b] <> tget occ [0%nat; k; b'] -> tget M [0%nat; k; b'; b] = RtoC 0) /\
    forall f M', (forall k b g, (k < K)%nat -> (b < B)%nat -> inb g ns -> tget mask g = false -> tget f ([0%nat; k; b] ++ g) = RtoC 0) ->
      matrix (stack_bands B c f) = Ok M' ->
      forall k b, (k < K)%nat -> (b < B)%nat -> tget occ [0%nat; k; b] <> 0%R ->
        tget M' [0%nat; k; (B + b)%nat; b] =
        sumC (seq 0 B) (fun b' => sumC (indices ns) (fun g => Cconj (tget f ([0%nat; k; b] ++ g)) * tget c ([0%nat; k; b'] ++ g)) * tget M [0%nat; k; b'; b]).

(** One energy separates the levels: below it all states are full, above it all are empty. *)
Definition filled_from_below (matrix : tensor C -> res (tensor C)) (K B : nat) (w : R) (c : tensor C) (occ : tensor R) : Prop :=
  exists M mu, matrix c = Ok M /\ forall k b, (k < K)%nat -> (b < B)%nat ->
    (Re (tget M [0%nat; k; b; b]) < mu -> tget occ [0%nat; k; b] = w)%R /\ (mu < Re (tget M [0%nat; k; b; b]) -> tget occ [0%nat; k; b] = 0)%R.

(** The occupied levels are the lowest of the basis: however the empty bands are chosen, the level of a
    state that holds electrons is not above the level of a state with room. *)
Definition lowest_levels (matrix : tensor C -> res (tensor C)) (ns : list nat) (K B : nat) (mask : tensor bool) (w : R) (c : tensor C) (occ : tensor R) : Prop :=
  forall c' M', basis_orbitals 1 K B mask c' ->
    (forall k b g, (k < K)%nat -> (b < B)%nat -> inb g ns -> tget occ [0%nat; k; b] <> 0%R -> tget c' ([0%nat; k; b] ++ g) = tget c ([0%nat; k; b] ++ g)) ->
    matrix c' = Ok M' ->
    forall k b k' b', (k < K)%nat -> (b < B)%nat -> (k' < K)%nat -> (b' < B)%nat -> (0 < tget occ [0%nat; k; b])%R -> (tget occ [0%nat; k'; b'] < w)%R ->
      (Re (tget M' [0%nat; k; b; b]) <= Re (tget M' [0%nat; k'; b'; b']))%R.
