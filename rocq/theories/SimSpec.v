(** Occupations on the capped simplex (C153). *)
From Coq Require Import Reals List Arith ZArith.
From Verif Require Import Base Sums Tensor OccSpec.
Import ListNotations.
Local Open Scope R_scope.

(** The occupations between 0 and their largest value (one electron to a state, two if the spins share
    it, divided by the number of k-points), with [N] electrons and, if the spins are apart, the
    imbalance [s]. *)
Definition capped (r : bool) (K B : nat) (N s : Z) (occ : tensor R) : Prop :=
  tshape occ = [num_spin r; K; B] /\ within 0 (INR (3 - num_spin r) / INR K) occ /\ total occ = IZR N /\
  (r = false -> channel occ 0 - channel occ 1 = IZR s).
(** No spin channel has both an empty state and a full one, of occupation [w]. *)
Definition never_both (K B : nat) (w : R) (occ : tensor R) : Prop :=
  forall c k b k' b', (c < hd 0 (tshape occ))%nat -> (k < K)%nat -> (b < B)%nat -> (k' < K)%nat -> (b' < B)%nat ->
    tget occ [c; k; b] = 0 -> tget occ [c; k'; b'] <> w.
