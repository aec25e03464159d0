(** The state of lowest energy of a norm-conserving calculation consists of Kohn-Sham orbitals, filled from below (C152). *)
From Coq Require Import Reals.
From Coquelicot Require Import Coquelicot.
From Coq Require Import Ascii String List Arith ZArith Bool.
From Verif Require Import Base Sums Tensor Lin3 VecModel OccModel OccSpec PwSpec PwModel XcModel XcSpec EnergyModel EnergySpec HamModel HamSpec NlocModel CalcModel DrvModel DrvSpec DrvProofs6 CalcProofs3 BoundProofs2 ReachSpec ReachProofs2 IdemSpec IdemProofs2 AttProofs5 NcAttSpec KsSpec KsProofs5 NcKsSpec NcKsProofs2 NcKsProofs3.
Import ListNotations.
Local Open Scope R_scope.

(** Orbitals whose valence energy is lowest among the orthonormal orbitals of the basis, the
    occupations being given, solve the Kohn-Sham equations of the norm-conserving Hamiltonian at their
    own density. *)
Theorem C152_kohn_sham : forall lib vg xt A c V nl G kpts vol occ d B n1 n2 n3 nb nm mask e0, let ns := [n1; n2; n3] in let K := length kpts in let ts := split_on "+" xt in let xcd := xc_density lib vg in
  contains "gga" xt = false -> (forall t b, In t ts -> lib t b <> None) -> m3det A <> 0 -> 0 < vol -> g_vectors A ns = Ok G -> tshape V = ns -> tshape nl = [K; nb; nm] ++ ns -> real_on_grid V ->
  tshape mask = ns -> basis_orbitals 1 K B mask c -> tshape occ = [1%nat; K; B] -> density_grid c vol (Some occ) = Ok d -> hartree_real d G ->
  (forall x, inb x ns -> ex_derive (local_particle lib ts) (tget d (0%nat :: x))) ->
  valence_energy xcd G kpts vol V nl xt c occ e0 ->
  (forall c', basis_orbitals 1 K B mask c' -> exists e', valence_energy xcd G kpts vol V nl xt c' occ e' /\ e0 <= e') ->
  kohn_sham_orbitals (fun x => nl_hamiltonian_matrix xcd x d V nl G kpts vol xt true) ns K B mask c occ.
Proof. exact nc_lowest_orbitals. Qed.
Print Assumptions C152_kohn_sham.

(** Occupations whose valence energy is lowest among those between 0 and w with the same total, the
    orbitals being given, fill the levels from below. *)
Theorem C152_filling : forall lib vg xt A c V nl G kpts vol occ d B n1 n2 n3 nb nm w e0, let ns := [n1; n2; n3] in let K := length kpts in let ts := split_on "+" xt in let xcd := xc_density lib vg in
  contains "gga" xt = false -> (forall t b, In t ts -> lib t b <> None) -> m3det A <> 0 -> 0 < vol -> g_vectors A ns = Ok G -> tshape V = ns -> tshape nl = [K; nb; nm] ++ ns -> real_on_grid V ->
  tshape c = [1%nat; K; B] ++ ns -> tshape occ = [1%nat; K; B] -> density_grid c vol (Some occ) = Ok d -> hartree_real d G ->
  (forall x, inb x ns -> ex_derive (local_particle lib ts) (tget d (0%nat :: x))) -> within 0 w occ ->
  valence_energy xcd G kpts vol V nl xt c occ e0 ->
  (forall occ', tshape occ' = [1%nat; K; B] -> within 0 w occ' -> total occ' = total occ -> exists e', valence_energy xcd G kpts vol V nl xt c occ' e' /\ e0 <= e') ->
  filled_from_below (fun x => nl_hamiltonian_matrix xcd x d V nl G kpts vol xt true) K B w c occ.
Proof. exact nc_lowest_filling. Qed.
Print Assumptions C152_filling.

(** If the energy is lowest with respect to both, the occupied levels are the lowest of the whole
    plane-wave basis: the empty bands may be replaced by any others. *)
Theorem C152_lowest_levels : forall lib vg xt A c V nl G kpts vol occ d B n1 n2 n3 nb nm mask w e0, let ns := [n1; n2; n3] in let K := length kpts in let ts := split_on "+" xt in let xcd := xc_density lib vg in
  contains "gga" xt = false -> (forall t b, In t ts -> lib t b <> None) -> m3det A <> 0 -> 0 < vol -> g_vectors A ns = Ok G -> tshape V = ns -> tshape nl = [K; nb; nm] ++ ns -> real_on_grid V ->
  tshape mask = ns -> basis_orbitals 1 K B mask c -> tshape occ = [1%nat; K; B] -> density_grid c vol (Some occ) = Ok d -> hartree_real d G ->
  (forall x, inb x ns -> ex_derive (local_particle lib ts) (tget d (0%nat :: x))) -> within 0 w occ ->
  valence_energy xcd G kpts vol V nl xt c occ e0 ->
  (forall c' occ', basis_orbitals 1 K B mask c' -> tshape occ' = [1%nat; K; B] -> within 0 w occ' -> total occ' = total occ -> exists e', valence_energy xcd G kpts vol V nl xt c' occ' e' /\ e0 <= e') ->
  lowest_levels (fun x => nl_hamiltonian_matrix xcd x d V nl G kpts vol xt true) ns K B mask w c occ.
Proof. exact nc_lowest_basis. Qed.
Print Assumptions C152_lowest_levels.

(** The Hartree potential of every density is real if the grid has odd sizes or the cell vectors are
    at right angles. *)
Theorem C152_hartree_odd : forall A G d n1 n2 n3 sp, m3det A <> 0 -> g_vectors A [n1; n2; n3] = Ok G -> Nat.odd n1 = true -> Nat.odd n2 = true -> Nat.odd n3 = true ->
  tshape d = sp :: [n1; n2; n3] -> hartree_real d G.
Proof. exact hartree_real_odd. Qed.
Print Assumptions C152_hartree_odd.
Theorem C152_hartree_orthogonal : forall A G d n1 n2 n3 sp, m3det A <> 0 -> g_vectors A [n1; n2; n3] = Ok G -> dot (m0 A) (m1 A) = 0 -> dot (m1 A) (m2 A) = 0 -> dot (m2 A) (m0 A) = 0 ->
  tshape d = sp :: [n1; n2; n3] -> hartree_real d G.
Proof. exact hartree_real_orth. Qed.
Print Assumptions C152_hartree_orthogonal.

(** The parameters of lowest energy of a spin-restricted norm-conserving calculation: their orbitals
    solve the Kohn-Sham equations, whatever the method of occupation. *)
Theorem C152_driver : forall (PP : Type) erfc pkg read (nc us : crystal -> string -> res PP) valence pp_local pp_nonlocal devices rnd rpw c pb p0 p qr cqr lib vg pp V nl e,
  reduced_qr qr -> complex_qr cqr -> qr_factors cqr -> shape_ok rnd -> pair_shape_ok rpw -> on_grid pp_local pp_nonlocal ->
  nc_problem erfc pkg read nc us valence pp_local pp_nonlocal devices c = Ok pb -> m3det (cr_cell (pb_crystal pb)) <> 0 ->
  nc_init rnd rpw pb = Ok p0 -> (pb_electrons pb mod 2 = pb_spin pb mod 2)%Z -> bands_hold (pb_method pb) (pb_electrons pb) (pb_spin pb) (pb_bands pb) -> bands_fit_basis pb ->
  pb_restricted pb = true -> contains "gga" (pb_xc pb) = false -> (forall t b, In t (split_on "+" (pb_xc pb)) -> lib t b <> None) ->
  create_pseudopotential pkg read nc us c = Ok pp -> pp_local pp (pb_crystal pb) (pb_G pb) (pb_vol pb) = Ok V -> pp_nonlocal pp (pb_crystal pb) (pb_G pb) (pb_k pb) = Ok nl -> real_on_grid V ->
  reachable pb p0 p -> objective qr cqr (xc_density lib vg) pb p = Ok e ->
  (forall p', reachable pb p0 p' -> exists e', objective qr cqr (xc_density lib vg) pb p' = Ok e' /\ e <= e') ->
  exists co occ d, get_coeff cqr pb p = Ok co /\ get_occupation qr pb p = Ok occ /\ density_grid co (pb_vol pb) (Some occ) = Ok d /\
    (hartree_real d (pb_G pb) -> (forall x, inb x (tshape (pb_G pb)) -> ex_derive (local_particle lib (split_on "+" (pb_xc pb))) (tget d (0%nat :: x))) ->
     kohn_sham_orbitals (fun x => nl_hamiltonian_matrix (xc_density lib vg) x d V nl (pb_G pb) (pb_k pb) (pb_vol pb) (pb_xc pb) true) (tshape (pb_G pb)) (length (pb_k pb)) (pb_bands pb) (pb_mask pb) co occ).
Proof. exact nc_driver_lowest. Qed.
Print Assumptions C152_driver.

(** The example calculation has parameters of lowest energy and meets the hypotheses. *)
Example C152_example : forall erfc pkg vg, reduced_qr real_gs_qr /\ complex_qr gs_qr /\ qr_factors gs_qr /\ shape_ok ex_rnd /\ pair_shape_ok ex_rpw /\ on_grid ex_loc ex_nl /\
  (forall t b, linear_lib t b <> None) /\ (forall ts r, ex_derive (local_particle linear_lib ts) r) /\
  exists pb p0 p e pp V nl,
  nc_problem erfc pkg ex_ase ex_loader ex_loader (fun l => l) ex_loc ex_nl 2 (ex_drv "uniform" true true 8) = Ok pb /\ m3det (cr_cell (pb_crystal pb)) <> 0 /\ nc_init ex_rnd ex_rpw pb = Ok p0 /\
  (pb_electrons pb mod 2 = pb_spin pb mod 2)%Z /\ bands_hold (pb_method pb) (pb_electrons pb) (pb_spin pb) (pb_bands pb) /\ bands_fit_basis pb /\ pb_restricted pb = true /\ contains "gga" (pb_xc pb) = false /\
  create_pseudopotential pkg ex_ase ex_loader ex_loader (ex_drv "uniform" true true 8) = Ok pp /\ ex_loc pp (pb_crystal pb) (pb_G pb) (pb_vol pb) = Ok V /\ ex_nl pp (pb_crystal pb) (pb_G pb) (pb_k pb) = Ok nl /\ real_on_grid V /\
  reachable pb p0 p /\ objective real_gs_qr gs_qr (xc_density linear_lib vg) pb p = Ok e /\
  (forall p', reachable pb p0 p' -> exists e', objective real_gs_qr gs_qr (xc_density linear_lib vg) pb p' = Ok e' /\ e <= e') /\
  forall d, tshape d = 1%nat :: tshape (pb_G pb) -> hartree_real d (pb_G pb).
Proof.
  intros erfc pkg vg. split; [exact real_gs_qr_ok|]. split; [exact gs_qr_orthonormal|]. split; [exact gs_qr_factors|]. split; [exact ex_rnd_ok|]. split; [exact ex_rpw_ok|]. split; [exact ex_on_grid|].
  split; [intros t b H; discriminate|]. split; [exact linear_smooth|exact (ex_nc_lowest erfc pkg vg)].
Qed.
