(** Bands at neighbouring k-points (C159). *)
From Coq Require Import Reals.
From Coquelicot Require Import Coquelicot.
From Coq Require Import Ascii String List Arith ZArith Bool.
From Verif Require Import Base Sums Tensor GridModel PadModel Lin3 VecModel PwModel PwSpec XcModel EnergyModel HamModel EigSpec BndSpec PropVar KbandProofs KbandProofs2.
Import ListNotations.
Local Open Scope R_scope.

(** [lam], [lam']: ascending eigenvalues at the k-points k and k' of one call.  No selected plane wave at k
    is longer than Q.  Every band changes by no more than |k'-k| Q + |k'-k|^2/2. *)
Theorem C159_continuous : forall xcd mask pos ch dens G kpts vol xt ks n1 n2 n3 v M, tshape mask = [n1; n2; n3] -> tshape G = [n1; n2; n3] -> 0 < vol ->
  effective_sum xcd dens pos ch G vol xt ks = Ok v -> tshape v = [1; n1; n2; n3]%nat -> hamiltonian_matrix_basis xcd mask pos ch dens G kpts vol xt ks = Ok M ->
  forall k k' lam lam' Q, let n := length (mask_positions mask) in (k < length kpts)%nat -> (k' < length kpts)%nat ->
  spectrum n (matrix_at M [k]) lam -> spectrum n (matrix_at M [k']) lam' ->
  (forall g, inb g [n1; n2; n3] -> tget mask g = true -> let q := vadd (tget G g) (nth k kpts vzero) in sqrt (dot q q) <= Q) ->
  let d := vsub (nth k' kpts vzero) (nth k kpts vzero) in forall i, (i < n)%nat -> Rabs (lam' i - lam i) <= sqrt (dot d d) * Q + dot d d / 2.
Proof. exact bands_close. Qed.
Print Assumptions C159_continuous.

(** k lies between k1 and k2.  The sum of the B lowest bands minus B free-electron parabolas |k|^2/2 is
    a concave function of the k-point; with B = 1, the lowest band bends upwards no more than a free electron. *)
Theorem C159_concave : forall xcd mask pos ch dens G kpts vol xt ks n1 n2 n3 v M, tshape mask = [n1; n2; n3] -> tshape G = [n1; n2; n3] -> 0 < vol ->
  effective_sum xcd dens pos ch G vol xt ks = Ok v -> tshape v = [1; n1; n2; n3]%nat -> hamiltonian_matrix_basis xcd mask pos ch dens G kpts vol xt ks = Ok M ->
  forall k k1 k2 lam lam1 lam2 l B, let n := length (mask_positions mask) in (k < length kpts)%nat -> (k1 < length kpts)%nat -> (k2 < length kpts)%nat -> (B <= n)%nat -> 0 <= l <= 1 ->
  nth k kpts vzero = vadd (vscale l (nth k1 kpts vzero)) (vscale (1 - l) (nth k2 kpts vzero)) ->
  spectrum n (matrix_at M [k]) lam -> spectrum n (matrix_at M [k1]) lam1 -> spectrum n (matrix_at M [k2]) lam2 ->
  let low (mu : nat -> R) j := sumR (seq 0 B) mu - INR B * (dot (nth j kpts vzero) (nth j kpts vzero) / 2) in l * low lam1 k1 + (1 - l) * low lam2 k2 <= low lam k.
Proof. exact bands_concave. Qed.
Print Assumptions C159_concave.

(** Three plane waves at three k-points in a line. *)
Example C159_example : let kpts := [V3 1 0 0; vzero; V3 (-1) 0 0] in let xcd := xc_density ex_lib ex_vg in exists G v M lam1 lam lam2 Q,
  g_vectors ex_A [1; 1; 3]%nat = Ok G /\ tshape G = [1; 1; 3]%nat /\ effective_sum xcd ex_dens [vzero] [2%R] G 8 "lda_x" true = Ok v /\ tshape v = [1; 1; 1; 3]%nat /\
  hamiltonian_matrix_basis xcd ex_full [vzero] [2%R] ex_dens G kpts 8 "lda_x" true = Ok M /\ length (mask_positions ex_full) = 3%nat /\
  spectrum 3 (matrix_at M [0%nat]) lam1 /\ spectrum 3 (matrix_at M [1%nat]) lam /\ spectrum 3 (matrix_at M [2%nat]) lam2 /\
  nth 1 kpts vzero = vadd (vscale (/ 2) (nth 0 kpts vzero)) (vscale (1 - / 2) (nth 2 kpts vzero)) /\
  (forall g, inb g [1; 1; 3]%nat -> tget ex_full g = true -> let q := vadd (tget G g) (nth 1 kpts vzero) in sqrt (dot q q) <= Q).
Proof. exact ex_kbands. Qed.
