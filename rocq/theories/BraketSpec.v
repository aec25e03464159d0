(** Vocabulary for the braket and expectation properties. *)
From Coq Require Import List Arith Reals.
From Coquelicot Require Import Complex.
From Verif Require Import Base Sums Tensor DFT BraketModel.
Import ListNotations.
Local Open Scope C_scope.

(** An operator diagonal on the grid: one for all k-points, or one per k-point. *)
Definition ham_ok (ham : tensor C) (K : nat) (ns : list nat) : Prop := tshape ham = ns \/ tshape ham = K :: ns \/ tshape ham = 1%nat :: ns.
(** value of the operator at k-point k and grid point g *)
Definition ham_at (ham : tensor C) (k : nat) (g : list nat) : C :=
  if (ndim ham =? 3)%nat then tget ham g else if (hd 0%nat (tshape ham) =? 1)%nat then tget ham (0%nat :: g) else tget ham (k :: g).
(** The factor of the documented normalisation in each mode. *)
Definition efactor (mode : emode) (vol N : R) : R :=
  match mode with RealMode => vol / N | ReciprocalMode => vol / N * (1 / N) | _ => 1 end%R.
(** The operator has real entries. *)
Definition ham_real (ham : tensor C) : Prop := forall i, inb i (tshape ham) -> Im (tget ham i) = 0%R.
