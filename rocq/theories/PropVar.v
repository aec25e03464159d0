(** Bands of _hamiltonian_matrix_basis: size of the basis, size of the potential, reversal of k:
    properties C131-C133. *)
From Coq Require Import Reals Lra Lia.
From Coquelicot Require Import Coquelicot.
From Coq Require Import Ascii String List Arith ZArith Bool Permutation.
From Verif Require Import Base Sums Tensor DFT GridModel PadModel PadProofs Lin3 VecModel VecProofs PwModel PwSpec XcModel EnergyModel HamModel HamProofs3 EigSpec BndSpec SymSpec VarProofs.
Import ListNotations.
Local Open Scope R_scope.

(** C131.  [lam1], [lam2]: ascending eigenvalues at the k-point k in the plane waves of the masks
    [m1] and [m2], N1 and N2 of them.  A larger mask never raises the i-th band, and the bands of
    the two masks interlace. *)
Theorem C131_bigger_basis : forall xcd m1 m2 pos ch dens G kpts vol xt ks n1 n2 n3 v M1 M2 k lam1 lam2, let ns := [n1; n2; n3] in
  let N1 := length (mask_positions m1) in let N2 := length (mask_positions m2) in
  tshape m1 = ns -> tshape m2 = ns -> (forall g, inb g ns -> tget m1 g = true -> tget m2 g = true) -> tshape G = ns -> 0 < vol ->
  effective_sum xcd dens pos ch G vol xt ks = Ok v -> tshape v = 1%nat :: ns -> (k < length kpts)%nat ->
  hamiltonian_matrix_basis xcd m1 pos ch dens G kpts vol xt ks = Ok M1 -> hamiltonian_matrix_basis xcd m2 pos ch dens G kpts vol xt ks = Ok M2 ->
  spectrum N1 (matrix_at M1 [k]) lam1 -> spectrum N2 (matrix_at M2 [k]) lam2 ->
  (N1 <= N2)%nat /\ forall i, (i < N1)%nat -> lam2 i <= lam1 i <= lam2 (N2 - N1 + i)%nat.
Proof. exact bigger_basis. Qed.
Print Assumptions C131_bigger_basis.
(** The masks of two cutoff energies. *)
Theorem C131_cutoff : forall A E1 E2 xcd m1 m2 pos ch dens G kpts vol xt ks n1 n2 n3 v M1 M2 k lam1 lam2, let ns := [n1; n2; n3] in
  let N1 := length (mask_positions m1) in let N2 := length (mask_positions m2) in
  E1 <= E2 -> spherical_mask A ns E1 = Ok m1 -> spherical_mask A ns E2 = Ok m2 -> g_vectors A ns = Ok G -> 0 < vol ->
  effective_sum xcd dens pos ch G vol xt ks = Ok v -> tshape v = 1%nat :: ns -> (k < length kpts)%nat ->
  hamiltonian_matrix_basis xcd m1 pos ch dens G kpts vol xt ks = Ok M1 -> hamiltonian_matrix_basis xcd m2 pos ch dens G kpts vol xt ks = Ok M2 ->
  spectrum N1 (matrix_at M1 [k]) lam1 -> spectrum N2 (matrix_at M2 [k]) lam2 ->
  (N1 <= N2)%nat /\ forall i, (i < N1)%nat -> lam2 i <= lam1 i <= lam2 (N2 - N1 + i)%nat.
Proof. exact cutoff_bands. Qed.
Print Assumptions C131_cutoff.

(** C132.  Two settings with the same plane waves and k-points: if one potential is nowhere more
    than d above the other, neither are its bands. *)
Theorem C132_higher_potential : forall xcd xcd' mask pos pos' ch ch' dens dens' G kpts vol vol' xt xt' ks ks' n1 n2 n3 v v' M M' k lam lam' d, let ns := [n1; n2; n3] in
  let n := length (mask_positions mask) in
  tshape mask = ns -> tshape G = ns -> 0 < vol -> 0 < vol' -> (k < length kpts)%nat ->
  effective_sum xcd dens pos ch G vol xt ks = Ok v -> tshape v = 1%nat :: ns -> effective_sum xcd' dens' pos' ch' G vol' xt' ks' = Ok v' -> tshape v' = 1%nat :: ns ->
  (forall x, inb x ns -> Re (tget v (0%nat :: x)) <= Re (tget v' (0%nat :: x)) + d) ->
  hamiltonian_matrix_basis xcd mask pos ch dens G kpts vol xt ks = Ok M -> hamiltonian_matrix_basis xcd' mask pos' ch' dens' G kpts vol' xt' ks' = Ok M' ->
  spectrum n (matrix_at M [k]) lam -> spectrum n (matrix_at M' [k]) lam' -> forall i, (i < n)%nat -> lam i <= lam' i + d.
Proof. exact potential_shift. Qed.
Print Assumptions C132_higher_potential.
Theorem C132_close_potential : forall xcd xcd' mask pos pos' ch ch' dens dens' G kpts vol vol' xt xt' ks ks' n1 n2 n3 v v' M M' k lam lam' d, let ns := [n1; n2; n3] in
  let n := length (mask_positions mask) in
  tshape mask = ns -> tshape G = ns -> 0 < vol -> 0 < vol' -> (k < length kpts)%nat ->
  effective_sum xcd dens pos ch G vol xt ks = Ok v -> tshape v = 1%nat :: ns -> effective_sum xcd' dens' pos' ch' G vol' xt' ks' = Ok v' -> tshape v' = 1%nat :: ns ->
  (forall x, inb x ns -> Rabs (Re (tget v (0%nat :: x)) - Re (tget v' (0%nat :: x))) <= d) ->
  hamiltonian_matrix_basis xcd mask pos ch dens G kpts vol xt ks = Ok M -> hamiltonian_matrix_basis xcd' mask pos' ch' dens' G kpts vol' xt' ks' = Ok M' ->
  spectrum n (matrix_at M [k]) lam -> spectrum n (matrix_at M' [k]) lam' -> forall i, (i < n)%nat -> Rabs (lam i - lam' i) <= d.
Proof. exact potential_close. Qed.
Print Assumptions C132_close_potential.
(** Every band lies between its free-electron energy |G+k|^2/2 plus the least and plus the greatest
    value of the potential; [t] lists the free-electron energies of the mask in ascending order. *)
Theorem C132_bounds : forall xcd mask pos ch dens G kpts vol xt ks n1 n2 n3 v M k lam lo hi t, let ns := [n1; n2; n3] in
  let n := length (mask_positions mask) in
  tshape mask = ns -> tshape G = ns -> 0 < vol -> (k < length kpts)%nat -> effective_sum xcd dens pos ch G vol xt ks = Ok v -> tshape v = 1%nat :: ns ->
  (forall x, inb x ns -> lo <= Re (tget v (0%nat :: x)) <= hi) -> hamiltonian_matrix_basis xcd mask pos ch dens G kpts vol xt ks = Ok M -> spectrum n (matrix_at M [k]) lam ->
  ascending n t -> Permutation (map t (seq 0 n)) (map (fun g => let q := vadd (tget G g) (nth k kpts vzero) in dot q q / 2) (mask_positions mask)) ->
  forall i, (i < n)%nat -> t i + lo <= lam i <= t i + hi.
Proof. exact potential_bounds. Qed.
Print Assumptions C132_bounds.

(** C133.  [mask]: every selected frequency has its opposite on the grid, also selected.  The bands
    at -k are those at k. *)
Theorem C133_reversed : forall A xcd mask pos ch dens G kpts kpts' vol xt ks n1 n2 n3 v M M' k k' lam lam', let ns := [n1; n2; n3] in
  let n := length (mask_positions mask) in
  g_vectors A ns = Ok G -> tshape mask = ns -> (forall g, inb g ns -> tget mask g = true -> ~ unpaired ns g /\ tget mask (neg_index ns g) = true) ->
  0 < vol -> (k < length kpts)%nat -> (k' < length kpts')%nat -> nth k' kpts' vzero = vneg (nth k kpts vzero) ->
  effective_sum xcd dens pos ch G vol xt ks = Ok v -> tshape v = 1%nat :: ns ->
  hamiltonian_matrix_basis xcd mask pos ch dens G kpts vol xt ks = Ok M -> hamiltonian_matrix_basis xcd mask pos ch dens G kpts' vol xt ks = Ok M' ->
  spectrum n (matrix_at M [k]) lam -> spectrum n (matrix_at M' [k']) lam' -> forall i, (i < n)%nat -> lam i = lam' i.
Proof. exact bands_reversed. Qed.
Print Assumptions C133_reversed.
(** Odd grids with the mask of a cutoff energy are such masks. *)
Theorem C133_odd_grid : forall A E xcd mask pos ch dens G kpts kpts' vol xt ks n1 n2 n3 v M M' k k' lam lam', let ns := [n1; n2; n3] in
  let n := length (mask_positions mask) in
  Nat.odd n1 = true -> Nat.odd n2 = true -> Nat.odd n3 = true -> g_vectors A ns = Ok G -> spherical_mask A ns E = Ok mask ->
  0 < vol -> (k < length kpts)%nat -> (k' < length kpts')%nat -> nth k' kpts' vzero = vneg (nth k kpts vzero) ->
  effective_sum xcd dens pos ch G vol xt ks = Ok v -> tshape v = 1%nat :: ns ->
  hamiltonian_matrix_basis xcd mask pos ch dens G kpts vol xt ks = Ok M -> hamiltonian_matrix_basis xcd mask pos ch dens G kpts' vol xt ks = Ok M' ->
  spectrum n (matrix_at M [k]) lam -> spectrum n (matrix_at M' [k']) lam' -> forall i, (i < n)%nat -> lam i = lam' i.
Proof. exact bands_reversed_odd. Qed.
Print Assumptions C133_odd_grid.

(** On a grid of three points: the mask of one plane wave inside the mask of all three, whose
    matrices and bands exist; the full mask is symmetric. *)
Definition ex_lib : xclib := fun _ _ => Some (fun l _ => - nth 0 l 0)%R.
Definition ex_vg : list string -> tensor R -> tensor R -> tensor v3 -> res (tensor C) := fun _ _ _ _ => Err ValueErr.
Definition ex_dens : tensor R := mkT [1; 1; 1; 3]%nat (fun i => INR (nth 3 i 0%nat)).
Definition ex_small : tensor bool := mkT [1; 1; 3]%nat (fun i => (nth 2 i 0 =? 0)%nat).
Definition ex_full : tensor bool := mkT [1; 1; 3]%nat (fun _ => true).
Definition ex_A : m3 := M3 (V3 2 0 0) (V3 0 2 0) (V3 0 0 2).
Example C131_example : exists G v M1 M2 lam1 lam2,
  let H m := hamiltonian_matrix_basis (xc_density ex_lib ex_vg) m [vzero] [2%R] ex_dens G [V3 1 0 0; V3 (-1) 0 0] 8 "lda_x" true in
  g_vectors ex_A [1; 1; 3]%nat = Ok G /\ tshape v = [1; 1; 1; 3]%nat /\ effective_sum (xc_density ex_lib ex_vg) ex_dens [vzero] [2%R] G 8 "lda_x" true = Ok v /\
  H ex_small = Ok M1 /\ H ex_full = Ok M2 /\ spectrum 1 (matrix_at M1 [1%nat]) lam1 /\ spectrum 3 (matrix_at M2 [1%nat]) lam2 /\
  length (mask_positions ex_small) = 1%nat /\ length (mask_positions ex_full) = 3%nat.
Proof.
  destruct (proj2 (g_vectors_ok ex_A 1 1 3)) as (G & HG); [repeat split; lia|].
  assert (SG : tshape G = [1; 1; 3]%nat) by (unfold g_vectors in HG; exact (proj1 (vector_grid_get _ _ _ _ _ _ HG))).
  destruct (lda_channels ex_lib ex_vg "lda_x" ex_dens [vzero] [2%R] G 8 true 1 1 1 3 (or_introl eq_refl) eq_refl ltac:(intros; discriminate) eq_refl SG eq_refl) as (v & Hv & Sv).
  destruct (basis_spectrum (xc_density ex_lib ex_vg) ex_small [vzero] [2%R] ex_dens G [V3 1 0 0; V3 (-1) 0 0] 8 "lda_x" true 1 1 3 v 1 eq_refl SG Hv Sv ltac:(lra) ltac:(cbn; lia)) as (M1 & lam1 & H1 & L1).
  destruct (basis_spectrum (xc_density ex_lib ex_vg) ex_full [vzero] [2%R] ex_dens G [V3 1 0 0; V3 (-1) 0 0] 8 "lda_x" true 1 1 3 v 1 eq_refl SG Hv Sv ltac:(lra) ltac:(cbn; lia)) as (M2 & lam2 & H2 & L2).
  exists G, v, M1, M2, lam1, lam2. cbv zeta. repeat (split; [assumption|]). split; reflexivity.
Qed.
(** Ascending free-electron energies always exist. *)
Example C132_example : forall G k, exists t, ascending 3 t /\ Permutation (map t (seq 0 3)) (map (fun g => let q := vadd (tget G g) k in dot q q / 2) (mask_positions ex_full)).
Proof. intros G k. apply (sorted_energies (fun g => let q := vadd (tget G g) k in dot q q / 2) (mask_positions ex_full)). Qed.
Example C133_example : forall g, inb g [1; 1; 3]%nat -> tget ex_full g = true -> ~ unpaired [1; 1; 3]%nat g /\ tget ex_full (neg_index [1; 1; 3]%nat g) = true.
Proof. intros g _ _. split; [apply SymProofs2.odd_paired; repeat constructor|reflexivity]. Qed.
