(** Fillings at a temperature (C156). *)
From Coq Require Import Reals.
From Coquelicot Require Import Complex.
From Coq Require Import List Arith.
From Verif Require Import Base Tensor.
Import ListNotations.
Local Open Scope R_scope.

(** What a state gains in -(entropy) per electron added, at filling [p] of at most [w]. *)
Definition entropy_slope (eps w p : R) : R := ln (eps + p) + p / (eps + p) - ln (eps + w - p) - (w - p) / (eps + w - p).

(** One energy mu governs the fillings of all states: a partly filled state has its level plus the
    temperature times the slope of its entropy at mu, an empty one not below, a full one not above. *)
Definition smeared (matrix : tensor C -> res (tensor C)) (K B : nat) (w eps T : R) (c : tensor C) (occ : tensor R) : Prop :=
  exists M mu, matrix c = Ok M /\ forall k b, (k < K)%nat -> (b < B)%nat ->
    let level := Re (tget M [0%nat; k; b; b]) in let p := tget occ [0%nat; k; b] in
    0 <= p <= w /\ (0 < p -> level + T * entropy_slope eps w p <= mu) /\ (p < w -> mu <= level + T * entropy_slope eps w p).

(** [occ'] has no empty state and no full state that [occ] does not have. *)
Definition no_new_ends (w : R) (occ occ' : tensor R) : Prop :=
  forall i, inb i (tshape occ) -> (tget occ' i = 0 -> tget occ i = 0) /\ (tget occ' i = w -> tget occ i = w).
