(** Vocabulary for the spin properties. *)
From Coq Require Import Reals Ascii String List Arith.
From Coquelicot Require Import Complex.
From Verif Require Import Base Tensor XcModel.
Import ListNotations.
Local Open Scope R_scope.

(** A spin-restricted state written with two equal channels: the same orbitals twice, and half the
    occupation in each. *)
Definition both_channels (c : tensor C) : tensor C := mkT (2%nat :: tl (tshape c)) (fun i => tget c (0%nat :: tl i)).
Definition half_occupation (o : tensor R) : tensor R := mkT (2%nat :: tl (tshape o)) (fun i => tget o (0%nat :: tl i) / 2).
(** The two channels exchanged. *)
Definition swap_channels {X} (t : tensor X) : tensor X := mkT (tshape t) (fun i => tget t ((1 - hd 0 i)%nat :: tl i)).

(** What a functional library promises.  Unpolarised: density and squared gradient.  Polarised: two
    densities and three products of gradients.  Names with "_x" in them are always used unpolarised. *)
Definition spin_consistent (lib : xclib) (t : string) : Prop :=
  exists f, lib t false = Some f /\ (is_exchange t = true \/
    exists g, lib t true = Some g /\ (forall r, g [r; r] [] = f [2 * r] []) /\ (forall r s, g [r; r] [s; s; s] = f [2 * r] [4 * s])).
Definition spin_symmetric (lib : xclib) (t : string) : Prop :=
  if is_exchange t then lib t false <> None else
  exists g, lib t true = Some g /\ (forall a b, g [a; b] [] = g [b; a] []) /\ (forall a b p q r, g [a; b] [p; q; r] = g [b; a] [r; q; p]).
