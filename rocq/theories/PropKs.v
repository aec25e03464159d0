(** A state of lowest energy consists of Kohn-Sham orbitals, filled from below (C151). *)
From Coq Require Import Reals.
From Coquelicot Require Import Coquelicot.
From Coq Require Import Ascii String List Arith ZArith Bool.
From Verif Require Import Base Sums Tensor Lin3 VecModel OccModel OccSpec PwSpec PwModel XcModel XcSpec EnergyModel HamModel HamSpec CalcModel DrvModel DrvSpec DrvProofs6 CalcProofs3 BoundProofs2 ReachSpec ReachProofs2 IdemSpec IdemProofs2 KsSpec KsProofs4 KsLevels KsProofs5.
Import ListNotations.
Local Open Scope R_scope.

(** Orbitals whose energy is lowest among the orthonormal orbitals of the basis, the occupations being
    given, solve the Kohn-Sham equations of their own density. *)
Theorem C151_kohn_sham : forall lib vg xt A c pos ch G kpts vol occ d B n1 n2 n3 mask e0, let ns := [n1; n2; n3] in let K := length kpts in let ts := split_on "+" xt in let xcd := xc_density lib vg in
  contains "gga" xt = false -> (forall t b, In t ts -> lib t b <> None) -> m3det A <> 0 -> 0 < vol -> g_vectors A ns = Ok G -> length ch = length pos ->
  tshape mask = ns -> basis_orbitals 1 K B mask c -> tshape occ = [1%nat; K; B] -> density_grid c vol (Some occ) = Ok d ->
  (forall x, inb x ns -> ex_derive (local_particle lib ts) (tget d (0%nat :: x))) ->
  total_energy xcd c pos ch G kpts vol (Some occ) false xt = Ok e0 ->
  (forall c', basis_orbitals 1 K B mask c' -> exists e', total_energy xcd c' pos ch G kpts vol (Some occ) false xt = Ok e' /\ e0 <= e') ->
  kohn_sham_orbitals (fun x => hamiltonian_matrix xcd x pos ch d G kpts vol xt true) ns K B mask c occ.
Proof. exact lowest_orbitals. Qed.
Print Assumptions C151_kohn_sham.

(** Occupations whose energy is lowest among those between 0 and w with the same total, the orbitals
    being given, fill the levels from below. *)
Theorem C151_filling : forall lib vg xt A c pos ch G kpts vol occ d B n1 n2 n3 w e0, let ns := [n1; n2; n3] in let K := length kpts in let ts := split_on "+" xt in let xcd := xc_density lib vg in
  contains "gga" xt = false -> (forall t b, In t ts -> lib t b <> None) -> m3det A <> 0 -> 0 < vol -> g_vectors A ns = Ok G -> length ch = length pos ->
  tshape c = [1%nat; K; B] ++ ns -> tshape occ = [1%nat; K; B] -> density_grid c vol (Some occ) = Ok d ->
  (forall x, inb x ns -> ex_derive (local_particle lib ts) (tget d (0%nat :: x))) -> within 0 w occ ->
  total_energy xcd c pos ch G kpts vol (Some occ) false xt = Ok e0 ->
  (forall occ', tshape occ' = [1%nat; K; B] -> within 0 w occ' -> total occ' = total occ -> exists e', total_energy xcd c pos ch G kpts vol (Some occ') false xt = Ok e' /\ e0 <= e') ->
  filled_from_below (fun x => hamiltonian_matrix xcd x pos ch d G kpts vol xt true) K B w c occ.
Proof. exact lowest_filling. Qed.
Print Assumptions C151_filling.

(** If the energy is lowest with respect to both, the occupied levels are the lowest of the whole
    plane-wave basis: the empty bands may be replaced by any others. *)
Theorem C151_lowest_levels : forall lib vg xt A c pos ch G kpts vol occ d B n1 n2 n3 mask w e0, let ns := [n1; n2; n3] in let K := length kpts in let ts := split_on "+" xt in let xcd := xc_density lib vg in
  contains "gga" xt = false -> (forall t b, In t ts -> lib t b <> None) -> m3det A <> 0 -> 0 < vol -> g_vectors A ns = Ok G -> length ch = length pos ->
  tshape mask = ns -> basis_orbitals 1 K B mask c -> tshape occ = [1%nat; K; B] -> density_grid c vol (Some occ) = Ok d ->
  (forall x, inb x ns -> ex_derive (local_particle lib ts) (tget d (0%nat :: x))) -> within 0 w occ ->
  total_energy xcd c pos ch G kpts vol (Some occ) false xt = Ok e0 ->
  (forall c' occ', basis_orbitals 1 K B mask c' -> tshape occ' = [1%nat; K; B] -> within 0 w occ' -> total occ' = total occ -> exists e', total_energy xcd c' pos ch G kpts vol (Some occ') false xt = Ok e' /\ e0 <= e') ->
  lowest_levels (fun x => hamiltonian_matrix xcd x pos ch d G kpts vol xt true) ns K B mask w c occ.
Proof. exact lowest_basis. Qed.
Print Assumptions C151_lowest_levels.

(** The parameters of lowest energy of a spin-restricted calculation: their orbitals solve the
    Kohn-Sham equations, whatever the method of occupation, and the idempotent occupations fill the
    levels from below, two electrons to a state, the occupied levels being the lowest of the basis. *)
Theorem C151_driver : forall erfc pkg read devices rnd rpw c pb p0 p qr cqr lib vg e, reduced_qr qr -> qr_product qr -> complex_qr cqr -> qr_factors cqr -> shape_ok rnd -> pair_shape_ok rpw ->
  ae_problem erfc pkg read devices c = Ok pb -> m3det (cr_cell (pb_crystal pb)) <> 0 -> length (cr_charges (pb_crystal pb)) = length (cr_positions (pb_crystal pb)) ->
  ae_init rnd rpw pb = Ok p0 -> bands_hold (pb_method pb) (pb_electrons pb) (pb_spin pb) (pb_bands pb) -> bands_fit_basis pb ->
  pb_restricted pb = true -> contains "gga" (pb_xc pb) = false -> (forall t b, In t (split_on "+" (pb_xc pb)) -> lib t b <> None) ->
  reachable pb p0 p -> objective qr cqr (xc_density lib vg) pb p = Ok e ->
  (forall p', reachable pb p0 p' -> exists e', objective qr cqr (xc_density lib vg) pb p' = Ok e' /\ e <= e') ->
  exists co occ d, get_coeff cqr pb p = Ok co /\ get_occupation qr pb p = Ok occ /\ density_grid co (pb_vol pb) (Some occ) = Ok d /\
    ((forall x, inb x (tshape (pb_G pb)) -> ex_derive (local_particle lib (split_on "+" (pb_xc pb))) (tget d (0%nat :: x))) ->
     let matrix x := hamiltonian_matrix (xc_density lib vg) x (cr_positions (pb_crystal pb)) (map IZR (cr_charges (pb_crystal pb))) d (pb_G pb) (pb_k pb) (pb_vol pb) (pb_xc pb) true in
     kohn_sham_orbitals matrix (tshape (pb_G pb)) (length (pb_k pb)) (pb_bands pb) (pb_mask pb) co occ /\
     (pb_method pb = MIdempotent -> filled_from_below matrix (length (pb_k pb)) (pb_bands pb) (2 / INR (length (pb_k pb))) co occ /\ lowest_levels matrix (tshape (pb_G pb)) (length (pb_k pb)) (pb_bands pb) (pb_mask pb) (2 / INR (length (pb_k pb))) co occ)).
Proof. exact driver_lowest. Qed.
Print Assumptions C151_driver.

(** Gram-Schmidt and a functional falling linearly with the density meet the hypotheses; the example
    calculation has parameters of lowest energy. *)
Example C151_example : forall erfc pkg vg, reduced_qr real_gs_qr /\ qr_product real_gs_qr /\ complex_qr gs_qr /\ qr_factors gs_qr /\ shape_ok ex_rnd /\ pair_shape_ok ex_rpw /\
  (forall t b, linear_lib t b <> None) /\ (forall ts r, ex_derive (local_particle linear_lib ts) r) /\
  exists pb p0 p e, ae_problem erfc pkg ex_ase 2 (ex_drv "idempotent" true false 8) = Ok pb /\ m3det (cr_cell (pb_crystal pb)) <> 0 /\
  length (cr_charges (pb_crystal pb)) = length (cr_positions (pb_crystal pb)) /\ ae_init ex_rnd ex_rpw pb = Ok p0 /\ bands_hold (pb_method pb) (pb_electrons pb) (pb_spin pb) (pb_bands pb) /\ bands_fit_basis pb /\
  pb_restricted pb = true /\ pb_method pb = MIdempotent /\ contains "gga" (pb_xc pb) = false /\ reachable pb p0 p /\ objective real_gs_qr gs_qr (xc_density linear_lib vg) pb p = Ok e /\
  forall p', reachable pb p0 p' -> exists e', objective real_gs_qr gs_qr (xc_density linear_lib vg) pb p' = Ok e' /\ e <= e'.
Proof.
  intros erfc pkg vg. split; [exact real_gs_qr_ok|]. split; [exact real_gs_qr_product|]. split; [exact gs_qr_orthonormal|]. split; [exact gs_qr_factors|]. split; [exact ex_rnd_ok|]. split; [exact ex_rpw_ok|].
  split; [intros t b H; discriminate|]. split; [exact linear_smooth|exact (ex_lowest erfc pkg vg)].
Qed.
