(** Plane waves as orbitals and the empty lattice (C154). *)
From Coq Require Import Reals.
From Coquelicot Require Import Coquelicot.
From Coq Require Import Ascii String List Arith ZArith Bool.
From Verif Require Import Base Sums Tensor Lin3 VecModel OccModel OccSpec PadModel PwSpec PwModel XcModel XcSpec EnergyModel HamModel CalcModel DrvModel DrvSpec DrvProofs6 CalcProofs3 BoundProofs2 ReachSpec ReachProofs2 IdemSpec IdemProofs2 AttProofs5 KsProofs5 SimProofs5 FreeSpec FreeProofs FreeProofs2 FreeProofs3.
Import ListNotations.
Local Open Scope R_scope.

(** Orbitals that are single plane waves have a uniform density in each spin channel: the electrons
    of the channel over the volume. *)
Theorem C154_density : forall sp K B n1 n2 n3 sel c vol, let ns := [n1; n2; n3] in plane_waves sp K B ns sel c -> 0 < vol -> forall occ, tshape occ = [sp; K; B] ->
  exists d, density_grid c vol (Some occ) = Ok d /\ tshape d = sp :: ns /\ forall s x, (s < sp)%nat -> inb x ns -> tget d (s :: x) = channel occ s / vol.
Proof. exact wave_density. Qed.
Print Assumptions C154_density.

(** Their levels, for any density and any nuclei, are their kinetic energies plus the mean of the
    effective potential over the cell. *)
Theorem C154_levels : forall sp K B n1 n2 n3 sel c vol, let ns := [n1; n2; n3] in plane_waves sp K B ns sel c -> 0 < vol ->
  forall xcd pos ch dens G kpts xt ks v M, K = length kpts -> tshape G = ns -> effective_sum xcd dens pos ch G vol xt ks = Ok v -> tshape v = 1%nat :: ns ->
  hamiltonian_matrix xcd c pos ch dens G kpts vol xt ks = Ok M -> forall s k b, (s < sp)%nat -> (k < K)%nat -> (b < B)%nat ->
  tget M [s; k; b; b] = RtoC (free_energy G kpts k (sel s k b) + / INR (nprod ns) * sumR (indices ns) (fun x => Re (tget v (0%nat :: x)))).
Proof. exact wave_level. Qed.
Print Assumptions C154_levels.

(** Their total energy with a local functional, for any nuclei, is the kinetic energy plus the
    exchange-correlation energy of the uniform electron gas: neither the nuclei nor the Hartree term
    contribute. *)
Theorem C154_energy : forall B n1 n2 n3 sel c vol lib vg xt A pos ch G kpts occ, let ns := [n1; n2; n3] in let K := length kpts in plane_waves 1 K B ns sel c -> 0 < vol ->
  contains "gga" xt = false -> (forall t b, In t (split_on "+" xt) -> lib t b <> None) -> m3det A <> 0 -> g_vectors A ns = Ok G -> length ch = length pos -> tshape occ = [1%nat; K; B] ->
  total_energy (xc_density lib vg) c pos ch G kpts vol (Some occ) false xt =
  Ok (sumR (seq 0 K) (fun k => sumR (seq 0 B) (fun b => tget occ [0%nat; k; b] * free_energy G kpts k (sel 0%nat k b))) + total occ * local_particle lib (split_on "+" xt) (total occ / vol)).
Proof. exact wave_energy. Qed.
Print Assumptions C154_energy.

(** Without nuclear charges and at a uniform density the Hamiltonian of the plane-wave basis is
    diagonal: the free-electron energies, shifted by the local Kohn-Sham potential
    d(r eps(r))/dr = r eps'(r) + eps(r). *)
Theorem C154_empty_lattice : forall lib vg xt A mask pos ch G kpts vol dens r n1 n2 n3, let ns := [n1; n2; n3] in let n := length (mask_positions mask) in
  contains "gga" xt = false -> (forall t b, In t (split_on "+" xt) -> lib t b <> None) -> m3det A <> 0 -> 0 < vol -> g_vectors A ns = Ok G -> length ch = length pos -> (forall z, In z ch -> z = 0) ->
  tshape mask = ns -> tshape dens = 1%nat :: ns -> (forall x, inb x ns -> tget dens (0%nat :: x) = r) ->
  exists M, hamiltonian_matrix_basis (xc_density lib vg) mask pos ch dens G kpts vol xt true = Ok M /\
    forall k i j, (k < length kpts)%nat -> (i < n)%nat -> (j < n)%nat ->
      tget M [k; i; j] = if (i =? j)%nat then RtoC (free_energy G kpts k (nth i (mask_positions mask) []) + (Derive (local_particle lib (split_on "+" xt)) r * r + local_particle lib (split_on "+" xt) r)) else RtoC 0.
Proof. exact empty_lattice. Qed.
Print Assumptions C154_empty_lattice.

(** A spin-restricted all-electron calculation reaches, at any occupations it reaches, the orbitals
    that are any distinct plane waves of the basis and their energy, so the energy it can be trained
    to is no higher than that of the electron gas. *)
Theorem C154_driver : forall erfc pkg read devices rnd rpw c pb p0 p qr cqr lib vg sel occ, let K := length (pb_k pb) in let B := pb_bands pb in let N := IZR (kept_electrons (pb_method pb) (pb_electrons pb) (pb_spin pb)) in
  reduced_qr qr -> complex_qr cqr -> qr_factors cqr -> shape_ok rnd -> pair_shape_ok rpw ->
  ae_problem erfc pkg read devices c = Ok pb -> m3det (cr_cell (pb_crystal pb)) <> 0 -> length (cr_charges (pb_crystal pb)) = length (cr_positions (pb_crystal pb)) ->
  ae_init rnd rpw pb = Ok p0 -> bands_hold (pb_method pb) (pb_electrons pb) (pb_spin pb) (pb_bands pb) -> bands_fit_basis pb ->
  pb_restricted pb = true -> contains "gga" (pb_xc pb) = false -> (forall t b, In t (split_on "+" (pb_xc pb)) -> lib t b <> None) ->
  reachable pb p0 p -> get_occupation qr pb p = Ok occ ->
  (forall k b, (k < K)%nat -> (b < B)%nat -> inb (sel k b) (tshape (pb_mask pb)) /\ tget (pb_mask pb) (sel k b) = true) ->
  (forall k b b', (k < K)%nat -> (b < B)%nat -> (b' < B)%nat -> sel k b = sel k b' -> b = b') ->
  exists p' co, reachable pb p0 p' /\ get_occupation qr pb p' = Ok occ /\ get_coeff cqr pb p' = Ok co /\ plane_waves 1 K B (tshape (pb_mask pb)) (fun _ => sel) co /\
    objective qr cqr (xc_density lib vg) pb p' = Ok (sumR (seq 0 K) (fun k => sumR (seq 0 B) (fun b => tget occ [0%nat; k; b] * free_energy (pb_G pb) (pb_k pb) k (sel k b)))
      + N * local_particle lib (split_on "+" (pb_xc pb)) (N / pb_vol pb)).
Proof. exact waves_reached. Qed.
Print Assumptions C154_driver.

(** The example crystal without spin meets the hypotheses of the last theorem, and there are plane
    waves on a 3x3x3 grid. *)
Example C154_example : forall erfc pkg, reduced_qr real_gs_qr /\ complex_qr gs_qr /\ qr_factors gs_qr /\ shape_ok ex_rnd /\ pair_shape_ok ex_rpw /\ (forall t b, linear_lib t b <> None) /\
  (exists G, g_vectors m3id [3; 3; 3]%nat = Ok G /\ m3det m3id <> 0 /\ plane_waves 1 2 3 [3; 3; 3]%nat (fun _ k b => [k; b; 2%nat]) (waves 1 2 3 [3; 3; 3]%nat (fun _ k b => [k; b; 2%nat]))) /\
  exists pb p0 occ sel, let K := length (pb_k pb) in let B := pb_bands pb in
  ae_problem erfc pkg ex_ase 2 (ex_drv0 "simplex-projector" true false 8) = Ok pb /\ m3det (cr_cell (pb_crystal pb)) <> 0 /\ length (cr_charges (pb_crystal pb)) = length (cr_positions (pb_crystal pb)) /\
  ae_init ex_rnd ex_rpw pb = Ok p0 /\ bands_hold (pb_method pb) (pb_electrons pb) (pb_spin pb) (pb_bands pb) /\ bands_fit_basis pb /\
  pb_restricted pb = true /\ contains "gga" (pb_xc pb) = false /\ reachable pb p0 p0 /\ get_occupation real_gs_qr pb p0 = Ok occ /\
  (forall k b, (k < K)%nat -> (b < B)%nat -> inb (sel k b) (tshape (pb_mask pb)) /\ tget (pb_mask pb) (sel k b) = true) /\
  (forall k b b', (k < K)%nat -> (b < B)%nat -> (b' < B)%nat -> sel k b = sel k b' -> b = b').
Proof. intros erfc pkg. split; [exact real_gs_qr_ok|]. split; [exact gs_qr_orthonormal|]. split; [exact gs_qr_factors|]. split; [exact ex_rnd_ok|]. split; [exact ex_rpw_ok|]. split; [intros t b H; discriminate|]. split; [exact ex_empty|exact (ex_waves erfc pkg)]. Qed.
