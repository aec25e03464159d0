(** Fillings at lowest free energy (C156). *)
From Coq Require Import Reals.
From Coquelicot Require Import Coquelicot.
From Coq Require Import Ascii String List Arith ZArith Bool.
From Verif Require Import Base Sums Tensor Lin3 GridModel VecModel OccModel OccSpec PwSpec PwModel XcModel XcSpec EnergyModel EnergySpec HamModel HamSpec NlocModel CalcModel DrvModel DrvSpec DrvProofs6 CalcProofs3 BoundProofs2 ReachSpec ReachProofs2 IdemSpec IdemProofs2 AttSpec AttProofs5 NcAttSpec KsSpec KsProofs5 NcKsSpec
  StatSpec SimSpec SimProofs5 TempSpec SmearSpec SmearProofs SmearProofs2 SmearProofs3 SmearProofs4 SmearProofs5.
Import ListNotations.
Local Open Scope R_scope.

(** Orbitals and occupations such that no other occupations of the same total have a lower free energy:
    one energy governs all fillings.  Only occupations without new empty or full states are compared. *)
Theorem C156_filling : forall lib vg xt A c pos ch G kpts vol occ d B n1 n2 n3 eps T e0 h0, let ns := [n1; n2; n3] in let K := length kpts in let ts := split_on "+" xt in let xcd := xc_density lib vg in
  contains "gga" xt = false -> (forall t b, In t ts -> lib t b <> None) -> m3det A <> 0 -> 0 < vol -> g_vectors A ns = Ok G -> length ch = length pos ->
  tshape c = [1%nat; K; B] ++ ns -> tshape occ = [1%nat; K; B] -> density_grid c vol (Some occ) = Ok d ->
  (forall x, inb x ns -> ex_derive (local_particle lib ts) (tget d (0%nat :: x))) -> within 0 (2 / INR K) occ -> 0 < eps ->
  total_energy xcd c pos ch G kpts vol (Some occ) false xt = Ok e0 -> fermi_dirac occ eps = Ok h0 ->
  (forall occ', tshape occ' = [1%nat; K; B] -> within 0 (2 / INR K) occ' -> total occ' = total occ -> no_new_ends (2 / INR K) occ occ' ->
    exists e' h', total_energy xcd c pos ch G kpts vol (Some occ') false xt = Ok e' /\ fermi_dirac occ' eps = Ok h' /\ e0 - T * h0 <= e' - T * h') ->
  smeared (fun x => hamiltonian_matrix xcd x pos ch d G kpts vol xt true) K B (2 / INR K) eps T c occ.
Proof. exact smeared_filling. Qed.
Print Assumptions C156_filling.

(** The same with norm-conserving pseudopotentials. *)
Theorem C156_nc_filling : forall lib vg xt A c V nl G kpts vol occ d B n1 n2 n3 nb nm eps T e0 h0, let ns := [n1; n2; n3] in let K := length kpts in let ts := split_on "+" xt in let xcd := xc_density lib vg in
  contains "gga" xt = false -> (forall t b, In t ts -> lib t b <> None) -> m3det A <> 0 -> 0 < vol -> g_vectors A ns = Ok G -> tshape V = ns -> tshape nl = [K; nb; nm] ++ ns -> real_on_grid V ->
  tshape c = [1%nat; K; B] ++ ns -> tshape occ = [1%nat; K; B] -> density_grid c vol (Some occ) = Ok d -> hartree_real d G ->
  (forall x, inb x ns -> ex_derive (local_particle lib ts) (tget d (0%nat :: x))) -> within 0 (2 / INR K) occ -> 0 < eps ->
  valence_energy xcd G kpts vol V nl xt c occ e0 -> fermi_dirac occ eps = Ok h0 ->
  (forall occ', tshape occ' = [1%nat; K; B] -> within 0 (2 / INR K) occ' -> total occ' = total occ -> no_new_ends (2 / INR K) occ occ' ->
    exists e' h', valence_energy xcd G kpts vol V nl xt c occ' e' /\ fermi_dirac occ' eps = Ok h' /\ e0 - T * h0 <= e' - T * h') ->
  smeared (fun x => nl_hamiltonian_matrix xcd x d V nl G kpts vol xt true) K B (2 / INR K) eps T c occ.
Proof. exact nc_smeared_filling. Qed.
Print Assumptions C156_nc_filling.

(** A partly filled state then has a Fermi-Dirac filling of its level, with the capacity w stretched by
    eps at both ends and a chemical potential shifted by at most T. *)
Theorem C156_fermi : forall eps w T mu h p, 0 < T -> 0 < eps -> 0 <= p <= w ->
  (h + T * entropy_slope eps w p = mu <-> p = (w + 2 * eps) * fermi T (mu + T * (eps / (eps + p) - eps / (eps + w - p))) h - eps).
Proof. exact slope_level. Qed.
Print Assumptions C156_fermi.

(** States of higher level are filled no more, and strictly less unless empty or full. *)
Theorem C156_order : forall matrix K B w eps T c occ, 0 < T -> 0 < eps -> smeared matrix K B w eps T c occ -> exists M, matrix c = Ok M /\
  forall k b k' b', (k < K)%nat -> (b < B)%nat -> (k' < K)%nat -> (b' < B)%nat -> let p := tget occ [0%nat; k; b] in let p' := tget occ [0%nat; k'; b'] in
  (Re (tget M [0%nat; k; b; b]) <= Re (tget M [0%nat; k'; b'; b']) -> p' <= p) /\
  (Re (tget M [0%nat; k; b; b]) < Re (tget M [0%nat; k'; b'; b']) -> 0 < p -> p' < w -> p' < p).
Proof. exact smeared_order. Qed.
Print Assumptions C156_order.

(** All-electron parameters of lowest free energy have Kohn-Sham orbitals and such fillings. *)
Theorem C156_driver : forall erfc pkg read devices rnd rpw c pb p0 p qr cqr lib vg T, reduced_qr qr -> qr_product qr -> complex_qr cqr -> qr_factors cqr -> shape_ok rnd -> pair_shape_ok rpw ->
  ae_problem erfc pkg read devices c = Ok pb -> m3det (cr_cell (pb_crystal pb)) <> 0 -> length (cr_charges (pb_crystal pb)) = length (cr_positions (pb_crystal pb)) ->
  ae_init rnd rpw pb = Ok p0 -> bands_hold (pb_method pb) (pb_electrons pb) (pb_spin pb) (pb_bands pb) -> bands_fit_basis pb ->
  pb_restricted pb = true -> contains "gga" (pb_xc pb) = false -> (forall t b, In t (split_on "+" (pb_xc pb)) -> lib t b <> None) -> 0 < pb_eps pb ->
  lowest_free qr cqr (xc_density lib vg) pb p0 T p ->
  exists co occ d, get_coeff cqr pb p = Ok co /\ get_occupation qr pb p = Ok occ /\ density_grid co (pb_vol pb) (Some occ) = Ok d /\
    ((forall x, inb x (tshape (pb_G pb)) -> ex_derive (local_particle lib (split_on "+" (pb_xc pb))) (tget d (0%nat :: x))) ->
     let matrix x := hamiltonian_matrix (xc_density lib vg) x (cr_positions (pb_crystal pb)) (map IZR (cr_charges (pb_crystal pb))) d (pb_G pb) (pb_k pb) (pb_vol pb) (pb_xc pb) true in
     kohn_sham_orbitals matrix (tshape (pb_G pb)) (length (pb_k pb)) (pb_bands pb) (pb_mask pb) co occ /\
     (pb_method pb = MIdempotent \/ pb_method pb = MSimplex /\ pb_spin pb = 0%Z -> smeared matrix (length (pb_k pb)) (pb_bands pb) (2 / INR (length (pb_k pb))) (pb_eps pb) T co occ)).
Proof. exact driver_smeared. Qed.
Print Assumptions C156_driver.

(** The same with norm-conserving pseudopotentials. *)
Theorem C156_nc_driver : forall (PP : Type) erfc pkg read (nc us : crystal -> string -> res PP) valence pp_local pp_nonlocal devices rnd rpw c pb p0 p qr cqr lib vg pp V nl T, reduced_qr qr -> complex_qr cqr -> qr_factors cqr -> shape_ok rnd -> pair_shape_ok rpw -> on_grid pp_local pp_nonlocal ->
  nc_problem erfc pkg read nc us valence pp_local pp_nonlocal devices c = Ok pb -> m3det (cr_cell (pb_crystal pb)) <> 0 ->
  nc_init rnd rpw pb = Ok p0 -> (pb_electrons pb mod 2 = pb_spin pb mod 2)%Z -> bands_hold (pb_method pb) (pb_electrons pb) (pb_spin pb) (pb_bands pb) -> bands_fit_basis pb ->
  pb_restricted pb = true -> contains "gga" (pb_xc pb) = false -> (forall t b, In t (split_on "+" (pb_xc pb)) -> lib t b <> None) -> 0 < pb_eps pb ->
  create_pseudopotential pkg read nc us c = Ok pp -> pp_local pp (pb_crystal pb) (pb_G pb) (pb_vol pb) = Ok V -> pp_nonlocal pp (pb_crystal pb) (pb_G pb) (pb_k pb) = Ok nl -> real_on_grid V ->
  lowest_free qr cqr (xc_density lib vg) pb p0 T p ->
  exists co occ d, get_coeff cqr pb p = Ok co /\ get_occupation qr pb p = Ok occ /\ density_grid co (pb_vol pb) (Some occ) = Ok d /\
    (hartree_real d (pb_G pb) -> (forall x, inb x (tshape (pb_G pb)) -> ex_derive (local_particle lib (split_on "+" (pb_xc pb))) (tget d (0%nat :: x))) ->
     let matrix x := nl_hamiltonian_matrix (xc_density lib vg) x d V nl (pb_G pb) (pb_k pb) (pb_vol pb) (pb_xc pb) true in
     kohn_sham_orbitals matrix (tshape (pb_G pb)) (length (pb_k pb)) (pb_bands pb) (pb_mask pb) co occ /\
     (pb_method pb = MSimplex -> pb_spin pb = 0%Z -> smeared matrix (length (pb_k pb)) (pb_bands pb) (2 / INR (length (pb_k pb))) (pb_eps pb) T co occ)).
Proof. exact (@nc_driver_smeared). Qed.
Print Assumptions C156_nc_driver.

(** With capped-simplex occupations, which need not reach their lowest free energy: the bound is the free
    energy of a state on the capped simplex, lowest there, with Kohn-Sham orbitals and such fillings; if
    that state is one the calculation can describe, parameters of lowest free energy exist. *)
Theorem C156_simplex : forall erfc pkg read devices rnd rpw c pb p0 qr cqr lib vg T, reduced_qr qr -> complex_qr cqr -> qr_factors cqr -> shape_ok rnd -> pair_shape_ok rpw ->
  ae_problem erfc pkg read devices c = Ok pb -> m3det (cr_cell (pb_crystal pb)) <> 0 -> length (cr_charges (pb_crystal pb)) = length (cr_positions (pb_crystal pb)) ->
  ae_init rnd rpw pb = Ok p0 -> bands_hold (pb_method pb) (pb_electrons pb) (pb_spin pb) (pb_bands pb) -> bands_fit_basis pb -> pb_method pb = MSimplex -> (pb_restricted pb = true -> pb_spin pb = 0%Z) ->
  (forall t, In t (split_on "+" (pb_xc pb)) -> continuous_functional lib (contains "gga" (pb_xc pb)) t) -> 0 < pb_eps pb ->
  let K := length (pb_k pb) in let B := pb_bands pb in let sp := num_spin (pb_restricted pb) in let ts := split_on "+" (pb_xc pb) in
  let pos := cr_positions (pb_crystal pb) in let ch := map IZR (cr_charges (pb_crystal pb)) in let cap := capped (pb_restricted pb) K B (pb_electrons pb) (pb_spin pb) in
  let energy co occ := total_energy (xc_density lib vg) co pos ch (pb_G pb) (pb_k pb) (pb_vol pb) (Some occ) false (pb_xc pb) in
  exists co occ e h, basis_orbitals sp K B (pb_mask pb) co /\ cap occ /\ energy co occ = Ok e /\ fermi_dirac occ (pb_eps pb) = Ok h /\ free_bound qr cqr (xc_density lib vg) pb p0 T (e - T * h) /\
    (forall co' occ', basis_orbitals sp K B (pb_mask pb) co' -> cap occ' -> exists e' h', energy co' occ' = Ok e' /\ fermi_dirac occ' (pb_eps pb) = Ok h' /\ e - T * h <= e' - T * h') /\
    (never_both K B (INR (3 - sp) / INR K) occ -> exists p, lowest_free qr cqr (xc_density lib vg) pb p0 T p) /\
    (pb_restricted pb = true -> contains "gga" (pb_xc pb) = false -> forall d, density_grid co (pb_vol pb) (Some occ) = Ok d -> (forall x, inb x (tshape (pb_G pb)) -> ex_derive (local_particle lib ts) (tget d (0%nat :: x))) ->
     let matrix x := hamiltonian_matrix (xc_density lib vg) x pos ch d (pb_G pb) (pb_k pb) (pb_vol pb) (pb_xc pb) true in
     kohn_sham_orbitals matrix (tshape (pb_G pb)) K B (pb_mask pb) co occ /\ smeared matrix K B (2 / INR K) (pb_eps pb) T co occ).
Proof. exact sim_smeared. Qed.
Print Assumptions C156_simplex.

(** The same with norm-conserving pseudopotentials. *)
Theorem C156_nc_simplex : forall (PP : Type) erfc pkg read (nc us : crystal -> string -> res PP) valence pp_local pp_nonlocal devices rnd rpw c pb p0 qr cqr lib vg pp V nl T, reduced_qr qr -> complex_qr cqr -> qr_factors cqr -> shape_ok rnd -> pair_shape_ok rpw -> on_grid pp_local pp_nonlocal ->
  nc_problem erfc pkg read nc us valence pp_local pp_nonlocal devices c = Ok pb -> m3det (cr_cell (pb_crystal pb)) <> 0 ->
  nc_init rnd rpw pb = Ok p0 -> (pb_electrons pb mod 2 = pb_spin pb mod 2)%Z -> bands_hold (pb_method pb) (pb_electrons pb) (pb_spin pb) (pb_bands pb) -> bands_fit_basis pb -> pb_method pb = MSimplex -> (pb_restricted pb = true -> pb_spin pb = 0%Z) ->
  (forall t, In t (split_on "+" (pb_xc pb)) -> continuous_functional lib (contains "gga" (pb_xc pb)) t) -> 0 < pb_eps pb ->
  create_pseudopotential pkg read nc us c = Ok pp -> pp_local pp (pb_crystal pb) (pb_G pb) (pb_vol pb) = Ok V -> pp_nonlocal pp (pb_crystal pb) (pb_G pb) (pb_k pb) = Ok nl ->
  let K := length (pb_k pb) in let B := pb_bands pb in let sp := num_spin (pb_restricted pb) in let ts := split_on "+" (pb_xc pb) in
  let cap := capped (pb_restricted pb) K B (pb_electrons pb) (pb_spin pb) in let energy := valence_energy (xc_density lib vg) (pb_G pb) (pb_k pb) (pb_vol pb) V nl (pb_xc pb) in
  exists co occ e h, basis_orbitals sp K B (pb_mask pb) co /\ cap occ /\ energy co occ e /\ fermi_dirac occ (pb_eps pb) = Ok h /\ free_bound qr cqr (xc_density lib vg) pb p0 T (e - T * h) /\
    (forall co' occ', basis_orbitals sp K B (pb_mask pb) co' -> cap occ' -> exists e' h', energy co' occ' e' /\ fermi_dirac occ' (pb_eps pb) = Ok h' /\ e - T * h <= e' - T * h') /\
    (never_both K B (INR (3 - sp) / INR K) occ -> exists p, lowest_free qr cqr (xc_density lib vg) pb p0 T p) /\
    (pb_restricted pb = true -> contains "gga" (pb_xc pb) = false -> real_on_grid V -> forall d, density_grid co (pb_vol pb) (Some occ) = Ok d -> hartree_real d (pb_G pb) -> (forall x, inb x (tshape (pb_G pb)) -> ex_derive (local_particle lib ts) (tget d (0%nat :: x))) ->
     let matrix x := nl_hamiltonian_matrix (xc_density lib vg) x d V nl (pb_G pb) (pb_k pb) (pb_vol pb) (pb_xc pb) true in
     kohn_sham_orbitals matrix (tshape (pb_G pb)) K B (pb_mask pb) co occ /\ smeared matrix K B (2 / INR K) (pb_eps pb) T co occ).
Proof. exact (@sim_nc_smeared). Qed.
Print Assumptions C156_nc_simplex.

(** The example crystal meets the hypotheses at every temperature: idempotent and capped-simplex
    occupations, with and without pseudopotentials. *)
Example C156_example : forall erfc pkg vg T, reduced_qr real_gs_qr /\ qr_product real_gs_qr /\ complex_qr gs_qr /\ qr_factors gs_qr /\ shape_ok ex_rnd /\ pair_shape_ok ex_rpw /\ on_grid ex_loc ex_nl /\
  (forall t gga, continuous_functional linear_lib gga t) /\ (forall ts r, ex_derive (local_particle linear_lib ts) r) /\
  (exists pb p0 p, ae_problem erfc pkg ex_ase 2 (ex_drv "idempotent" true false 8) = Ok pb /\ m3det (cr_cell (pb_crystal pb)) <> 0 /\ length (cr_charges (pb_crystal pb)) = length (cr_positions (pb_crystal pb)) /\
  ae_init ex_rnd ex_rpw pb = Ok p0 /\ bands_hold (pb_method pb) (pb_electrons pb) (pb_spin pb) (pb_bands pb) /\ bands_fit_basis pb /\ pb_restricted pb = true /\ pb_method pb = MIdempotent /\ contains "gga" (pb_xc pb) = false /\ 0 < pb_eps pb /\
  lowest_free real_gs_qr gs_qr (xc_density linear_lib vg) pb p0 T p) /\
  (exists pb p0, ae_problem erfc pkg ex_ase 2 (ex_drv0 "simplex-projector" true false 8) = Ok pb /\ m3det (cr_cell (pb_crystal pb)) <> 0 /\
  length (cr_charges (pb_crystal pb)) = length (cr_positions (pb_crystal pb)) /\ ae_init ex_rnd ex_rpw pb = Ok p0 /\ bands_hold (pb_method pb) (pb_electrons pb) (pb_spin pb) (pb_bands pb) /\ bands_fit_basis pb /\
  pb_method pb = MSimplex /\ pb_restricted pb = true /\ pb_spin pb = 0%Z /\ contains "gga" (pb_xc pb) = false /\ 0 < pb_eps pb) /\
  (exists pb p0 p pp V nl,
  nc_problem erfc pkg ex_ase ex_loader ex_loader (fun l => l) ex_loc ex_nl 2 (ex_drv "uniform" true true 8) = Ok pb /\ m3det (cr_cell (pb_crystal pb)) <> 0 /\ nc_init ex_rnd ex_rpw pb = Ok p0 /\
  (pb_electrons pb mod 2 = pb_spin pb mod 2)%Z /\ bands_hold (pb_method pb) (pb_electrons pb) (pb_spin pb) (pb_bands pb) /\ bands_fit_basis pb /\ pb_restricted pb = true /\ contains "gga" (pb_xc pb) = false /\
  create_pseudopotential pkg ex_ase ex_loader ex_loader (ex_drv "uniform" true true 8) = Ok pp /\ ex_loc pp (pb_crystal pb) (pb_G pb) (pb_vol pb) = Ok V /\ ex_nl pp (pb_crystal pb) (pb_G pb) (pb_k pb) = Ok nl /\ real_on_grid V /\ 0 < pb_eps pb /\
  lowest_free real_gs_qr gs_qr (xc_density linear_lib vg) pb p0 T p /\
  forall d, tshape d = 1%nat :: tshape (pb_G pb) -> hartree_real d (pb_G pb)) /\
  (exists pb p0 pp V nl,
  nc_problem erfc pkg ex_ase ex_loader ex_loader (fun l => l) ex_loc ex_nl 2 (ex_drv0 "simplex-projector" true true 8) = Ok pb /\ m3det (cr_cell (pb_crystal pb)) <> 0 /\ nc_init ex_rnd ex_rpw pb = Ok p0 /\
  (pb_electrons pb mod 2 = pb_spin pb mod 2)%Z /\ bands_hold (pb_method pb) (pb_electrons pb) (pb_spin pb) (pb_bands pb) /\ bands_fit_basis pb /\ pb_method pb = MSimplex /\ pb_restricted pb = true /\ pb_spin pb = 0%Z /\ contains "gga" (pb_xc pb) = false /\ 0 < pb_eps pb /\
  create_pseudopotential pkg ex_ase ex_loader ex_loader (ex_drv0 "simplex-projector" true true 8) = Ok pp /\ ex_loc pp (pb_crystal pb) (pb_G pb) (pb_vol pb) = Ok V /\ ex_nl pp (pb_crystal pb) (pb_G pb) (pb_k pb) = Ok nl /\ real_on_grid V).
Proof. intros erfc pkg vg T. split; [exact real_gs_qr_ok|]. split; [exact real_gs_qr_product|]. split; [exact gs_qr_orthonormal|]. split; [exact gs_qr_factors|]. split; [exact ex_rnd_ok|]. split; [exact ex_rpw_ok|]. split; [exact ex_on_grid|].
  split; [exact linear_continuous|]. split; [exact linear_smooth|]. split; [exact (ex_smear erfc pkg vg T)|]. split; [exact (ex_smear_simplex erfc pkg)|]. split; [exact (ex_smear_nc erfc pkg vg T)|exact (ex_smear_nc_simplex erfc pkg)]. Qed.
