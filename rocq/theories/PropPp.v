(** Theorems about runs on pseudopotential files (C65, C123, C124). *)
From Coq Require Import Reals Lra Lia.
From Coquelicot Require Import Complex.
From Coq Require Import Ascii String List Arith ZArith Bool.
From Verif Require Import PropOcc PwSpec PwProofs XcModel HamModel HamSpec EigSpec EigProofs EigProofs2 BndProofs BndProofs2 BndProofs4 BndProofs5 Base Sums Tensor DFT Lin3 GridModel GridProofs VecModel OccModel OccSpec PadModel PwModel BraketSpec EwaldModel EnergyModel EnergySpec CalcSpec CalcModel
  UpfModel UpfSpec UpfProofs2 SbtModel SbtSpec LocModel LocSpec NlocModel NlocSpec DrvModel DrvSpec DrvProofs6 BndModel BndSpec BndProofs6 PpModel PpSpec PpProofs PpProofs4 PpProofs5 PpProofs6.
Import ListNotations.
Local Open Scope R_scope.

(** C65: the charges of an atom are those of the header of its file. *)

Theorem C65_charges : forall pi pf junk pp c, nc_create_atom pi pf junk pp = Ok c -> header_valence pf pp (c_valence c) /\
  (exists t, u_header pp "l_max" = Some t /\ pi t = Some (c_lmax c)) /\
  match c_lmax_rho c with Some l => exists t, u_header pp "l_max_rho" = Some t /\ pi t = Some l | None => u_header pp "l_max_rho" = None end.
Proof. exact nc_charges. Qed.
Print Assumptions C65_charges.
Theorem C65_charge_unique : forall x n m, toward_zero x n -> toward_zero x m -> n = m.
Proof. exact toward_zero_unique. Qed.
Print Assumptions C65_charge_unique.

(** The norm-conserving loader returns exactly if every element has a file and every file is
    complete; the ultrasoft loader if moreover every augmentation can be stored. *)
Theorem C65_loader : forall pi pf symbol listdir read_xml junk cr dir, (exists pp, load_nc pi pf symbol listdir read_xml junk cr dir = Ok pp) <->
  exists us, files_for pi pf listdir read_xml dir (map symbol (cr_charges cr)) us /\ Forall (nc_readable pi pf) us.
Proof. exact nc_loader. Qed.
Print Assumptions C65_loader.
Theorem C97_loader : forall pi pf symbol listdir read_xml junk eigmax cr dir pp, load_us pi pf symbol listdir read_xml junk eigmax cr dir = Ok pp <->
  load_nc pi pf symbol listdir read_xml junk cr dir = Ok pp /\ exists us, files_for pi pf listdir read_xml dir (map symbol (cr_charges cr)) us /\
    forall u a, In u us -> n_aug (u_nonlocal u) = Some a -> aug_readable pi eigmax u a.
Proof. exact us_loader. Qed.
Print Assumptions C97_loader.

(** C123: a norm-conserving ground-state run on pseudopotential files. *)

Theorem C123_problem : forall pi pf symbol listdir read_xml junk eigmax jn spline spline' Y eigh cpus erfc pkg read devices c pb,
  file_problem pi pf symbol listdir read_xml junk eigmax jn spline spline' Y eigh cpus erfc pkg read devices c = Ok pb ->
  exists dir pp us V psi, pseudo_directory pkg c dir /\ load_nc pi pf symbol listdir read_xml junk (pb_crystal pb) dir = Ok pp /\
    Forall2 (fun z u => file_for pi pf listdir read_xml dir (symbol z) u) (cr_charges (pb_crystal pb)) us /\ Forall2 (fun u b => forall j, nc_create_atom pi pf j u = Ok b) us pp /\
    Forall2 (header_valence pf) us (valences pp) /\ pb_electrons pb = fold_right Z.add 0%Z (valences pp) /\
    file_local jn spline pp (pb_crystal pb) (pb_G pb) (pb_vol pb) = Ok V /\ file_nonlocal jn spline' Y eigh cpus pp (pb_crystal pb) (pb_G pb) (pb_k pb) = Ok psi /\ pb_ions pb = Some (V, psi).
Proof. exact @problem_inv. Qed.
Print Assumptions C123_problem.

Theorem C123_electrons : forall pi pf symbol listdir read_xml junk eigmax jn spline spline' Y eigh cpus erfc pkg read devices c pb,
  file_problem pi pf symbol listdir read_xml junk eigmax jn spline spline' Y eigh cpus erfc pkg read devices c = Ok pb ->
  exists dir us zs, pseudo_directory pkg c dir /\ Forall2 (fun z u => file_for pi pf listdir read_xml dir (symbol z) u) (cr_charges (pb_crystal pb)) us /\ Forall2 (header_valence pf) us zs /\ pb_electrons pb = fold_right Z.add 0%Z zs.
Proof. exact @electrons. Qed.
Print Assumptions C123_electrons.

Theorem C123_density : forall pi pf symbol listdir read_xml junk eigmax jn spline spline' Y eigh cpus (Os : Type) erfc pkg read devices qr cqr xcd grad (alias : string -> option (cval -> list (string * cval) -> optax Os)) rnd rpw c pb opt out,
  reduced_qr qr -> complex_qr cqr -> shape_ok rnd -> pair_shape_ok rpw ->
  file_problem pi pf symbol listdir read_xml junk eigmax jn spline spline' Y eigh cpus erfc pkg read devices c = Ok pb -> create_optimizer alias c = Ok opt -> m3det (cr_cell (pb_crystal pb)) <> 0 -> bands_fit_basis pb ->
  (pb_electrons pb mod 2 = pb_spin pb mod 2)%Z -> bands_hold (pb_method pb) (pb_electrons pb) (pb_spin pb) (pb_bands pb) ->
  (fixed_occ (pb_method pb) -> leaves_constants opt /\ pb_restricted pb = true) ->
  file_calc pi pf symbol listdir read_xml junk eigmax jn spline spline' Y eigh cpus erfc pkg read devices qr cqr xcd grad alias rnd rpw c = Ok out ->
  exists dir us zs, pseudo_directory pkg c dir /\ Forall2 (fun z u => file_for pi pf listdir read_xml dir (symbol z) u) (cr_charges (pb_crystal pb)) us /\ Forall2 (header_valence pf) us zs /\
    (forall i, inb i (tshape (returned out)) -> 0 <= tget (returned out) i) /\ DrvSpec.cell_integral (pb_vol pb) (returned out) = IZR (fold_right Z.add 0%Z zs).
Proof. exact @file_density. Qed.
Print Assumptions C123_density.

Theorem C123_returns : forall pi pf symbol listdir read_xml junk eigmax jn spline spline' Y eigh cpus (Os : Type) erfc pkg read devices qr cqr xcd grad (alias : string -> option (cval -> list (string * cval) -> optax Os)) rnd rpw c pb opt,
  reduced_qr qr -> complex_qr cqr -> shape_ok rnd -> pair_shape_ok rpw ->
  file_problem pi pf symbol listdir read_xml junk eigmax jn spline spline' Y eigh cpus erfc pkg read devices c = Ok pb -> create_optimizer alias c = Ok opt -> m3det (cr_cell (pb_crystal pb)) <> 0 -> bands_fit_basis pb ->
  (pb_electrons pb mod 2 = pb_spin pb mod 2)%Z -> bands_hold (pb_method pb) (pb_electrons pb) (pb_spin pb) (pb_bands pb) ->
  pb_method pb <> MIdempotent -> (pb_method pb = MSimplex -> (pb_bands pb mod pb_devices pb = 0)%nat) ->
  (fixed_occ (pb_method pb) -> leaves_constants opt) -> xc_returns xcd pb -> (1 <= pb_epoch pb)%nat ->
  exists out, file_calc pi pf symbol listdir read_xml junk eigmax jn spline spline' Y eigh cpus erfc pkg read devices qr cqr xcd grad alias rnd rpw c = Ok out.
Proof. exact @file_returns. Qed.
Print Assumptions C123_returns.

Theorem C123_potentials_exist : forall pi pf symbol listdir read_xml junk jn spline spline' Y eigh cpus cr dir pp A n1 n2 n3 G kpts vol,
  load_nc pi pf symbol listdir read_xml junk cr dir = Ok pp -> length (cr_positions cr) = length (cr_charges cr) -> g_vectors A [n1; n2; n3] = Ok G ->
  ((exists V, file_local jn spline pp cr G vol = Ok V) <-> cr_charges cr <> []) /\
  ((exists psi, file_nonlocal jn spline' Y eigh cpus pp cr G kpts = Ok psi) <-> (2 <= cpus)%nat /\ (exists b, In b pp /\ c_l b <> []) /\ Forall (fun b => Forall (fun l => (0 <= l)%Z) (c_l b) /\ c_r b <> []) pp /\
     exists k x, (k < length kpts)%nat /\ inb x [n1; n2; n3] /\ / 10000 < norm (vadd (nth k kpts vzero) (tget G x))).
Proof. exact @potentials_exist. Qed.
Print Assumptions C123_potentials_exist.

Theorem C123_local_value : forall pi pf symbol listdir read_xml junk jn spline cr dir pp A n1 n2 n3 G vol V,
  let ns := [n1; n2; n3] in load_nc pi pf symbol listdir read_xml junk cr dir = Ok pp -> length (cr_positions cr) = length (cr_charges cr) -> g_vectors A ns = Ok G -> file_local jn spline pp cr G vol = Ok V ->
  exists kmax, (exists x, inb x ns /\ kmax = norm (tget G x)) /\ (forall x, inb x ns -> norm (tget G x) <= kmax) /\ tshape V = ns /\
    (forall x, at_origin x -> tget V x = RtoC 0) /\
    forall x, inb x ns -> ~ at_origin x -> tget V x = (RtoC (INR (nprod ns) / vol) * sumC (loc_atoms cr pp) (fun a =>
      let ks := linspace (/ 10000) kmax (2 * length (a_r a)) in
      RtoC (4 * PI * (spline ks (map (radial_sum jn (a_r a) (screened a)) ks) (norm (tget G x)) - a_z a / norm2 (tget G x)))
      * cis (- dot (tget G x) (a_pos a))))%C.
Proof. exact @local_value. Qed.
Print Assumptions C123_local_value.

Theorem C123_nonlocal_value : forall pi pf symbol listdir read_xml junk jn spline' Y eigh cpus cr dir pp G kpts psi c vol sp B,
  load_nc pi pf symbol listdir read_xml junk cr dir = Ok pp -> length (cr_positions cr) = length (cr_charges cr) ->
  Forall (fun b => orthogonal_columns (length (c_l b)) (snd (eigh (c_d b)))) pp -> file_nonlocal jn spline' Y eigh cpus pp cr G kpts = Ok psi -> tshape c = [sp; length kpts; B] ++ tshape G ->
  exists kmax betas H, NlocSpec.largest G kpts kmax /\ / 10000 < kmax /\ radial_parts jn spline' pp G kpts kmax betas /\ hamiltonian_nonlocal c psi vol = Ok H /\ tshape H = [sp; length kpts; B; B] /\
    forall s k b1 b2, tget H [s; k; b1; b2] = formula Y eigh (nl_atoms cr pp betas) G kpts c vol s k b1 b2.
Proof. exact @nonlocal_file_value. Qed.
Print Assumptions C123_nonlocal_value.

Theorem C123_one_processor : forall pi pf symbol listdir read_xml junk eigmax jn spline spline' Y eigh cpus (Os : Type) erfc pkg read devices qr cqr xcd grad (alias : string -> option (cval -> list (string * cval) -> optax Os)) rnd rpw c,
  (cpus < 2)%nat -> raises (file_calc pi pf symbol listdir read_xml junk eigmax jn spline spline' Y eigh cpus erfc pkg read devices qr cqr xcd grad alias rnd rpw c).
Proof. exact @one_processor. Qed.
Print Assumptions C123_one_processor.

Theorem C123_ultrasoft : forall pi pf symbol listdir read_xml junk eigmax jn spline spline' Y eigh cpus (Os : Type) erfc pkg read devices qr cqr xcd grad (alias : string -> option (cval -> list (string * cval) -> optax Os)) rnd rpw c out,
  file_calc pi pf symbol listdir read_xml junk eigmax jn spline spline' Y eigh cpus erfc pkg read devices qr cqr xcd grad alias rnd rpw c = Ok out ->
  nc_calc erfc pkg read (load_nc pi pf symbol listdir read_xml junk) (load_nc pi pf symbol listdir read_xml junk) valences (file_local jn spline) (file_nonlocal jn spline' Y eigh cpus) devices qr cqr xcd grad alias rnd rpw c = Ok out.
Proof. exact @ultrasoft. Qed.
Print Assumptions C123_ultrasoft.

(** Two carbon atoms with a file of four valence electrons each; any contracts of the numerical
    libraries, two or more processors. *)
Example C123_example : forall eigmax jn spline spline' Y eigh cpus erfc pkg occ r, (2 <= cpus)%nat -> In occ ex_methods ->
  exists pb, file_problem pi1 ex_float ex_symbol ex_listdir ex_xml ex_junk eigmax jn spline spline' Y eigh cpus erfc pkg ex_ase 2 (ex_drv occ r true 8) = Ok pb /\ m3det (cr_cell (pb_crystal pb)) <> 0 /\ bands_fit_basis pb /\
    (pb_electrons pb mod 2 = pb_spin pb mod 2)%Z /\ bands_hold (pb_method pb) (pb_electrons pb) (pb_spin pb) (pb_bands pb) /\ (pb_bands pb mod pb_devices pb = 0)%nat /\
    xc_returns (xc_density ex_lib (fun _ _ _ _ => Err ValueErr)) pb /\ (1 <= pb_epoch pb)%nat /\ pb_method pb = method_of_name occ /\ pb_restricted pb = r /\ pb_electrons pb = 8%Z /\ pb_crystal pb = ex_crystal.
Proof. exact ex_file. Qed.
Example C123_example_files : forall pkg, exists b, c_valence b = 4%Z /\ c_l b = [1%Z] /\ c_r b = [1; 2] /\ length (c_d b) = 1%nat /\
  load_nc pi1 ex_float ex_symbol ex_listdir ex_xml ex_junk ex_crystal (append pkg "/pseudopotential/normconserving/") = Ok [b; b].
Proof. exact carbon_load. Qed.
(** C124: a norm-conserving band structure on pseudopotential files. *)

Theorem C124_files : forall pi pf symbol listdir read_xml junk eigmax pkg read bandpath gs c bp,
  file_band_problem pi pf symbol listdir read_xml junk eigmax pkg read bandpath gs c = Ok bp ->
  exists dir pp us zs e v, pseudo_directory pkg c dir /\ create_pseudopotential pkg read (load_nc pi pf symbol listdir read_xml junk) (load_us pi pf symbol listdir read_xml junk eigmax) c = Ok pp /\ load_nc pi pf symbol listdir read_xml junk (bp_crystal bp) dir = Ok pp /\
    Forall2 (fun z u => file_for pi pf listdir read_xml dir (symbol z) u) (cr_charges (bp_crystal bp)) us /\ Forall2 (header_valence pf) us zs /\ getattr c "band_structure_empty_bands" = Ok v /\ cfg_int v = Ok e /\ Z.of_nat (bp_bands bp) = num_bands (fold_right Z.add 0%Z zs) e.
Proof. exact @band_files. Qed.
Print Assumptions C124_files.

Theorem C124_path_point : forall pi pf symbol listdir read_xml junk jn spline' Y eigh cpus cr dir pp G path psi i,
  load_nc pi pf symbol listdir read_xml junk cr dir = Ok pp -> file_nonlocal jn spline' Y eigh cpus pp cr G path = Ok psi -> (i < length path)%nat ->
  exists nl, file_path jn spline' Y eigh cpus pp cr G path (nth i path vzero) = Ok nl /\ tshape nl = 1%nat :: tl (tshape psi) /\ forall j, tget nl (0%nat :: j) = tget psi (i :: j).
Proof. exact path_point. Qed.
Print Assumptions C124_path_point.

Theorem C124_bands : forall pi pf symbol listdir read_xml junk eigmax jn spline spline' Y eigh cpus (Os GS : Type) pkg read devices bandpath gs cqr xcd ev bgrad (alias : string -> option (cval -> list (string * cval) -> boptax Os)) rnd c bp opt pp V psi sp' hk,
  complex_qr cqr -> eigvalsh_ok ev -> pair_shape_ok rnd -> file_band_problem pi pf symbol listdir read_xml junk eigmax pkg read bandpath gs c = Ok bp -> create_pseudopotential pkg read (load_nc pi pf symbol listdir read_xml junk) (load_us pi pf symbol listdir read_xml junk eigmax) c = Ok pp ->
  file_local jn spline pp (bp_crystal bp) (bp_G bp) (bp_vol bp) = Ok V -> file_nonlocal jn spline' Y eigh cpus pp (bp_crystal bp) (bp_G bp) (bp_path bp) = Ok psi -> create_optimizer alias c = Ok opt ->
  m3det (cr_cell (bp_crystal bp)) <> 0 -> tshape (bp_dens bp) = sp' :: tshape (bp_G bp) ->
  xc_channels xcd bp hk -> (1 <= hk)%nat -> (1 <= bp_bands bp)%nat -> (bp_bands bp <= waves bp)%nat ->
  let D := if bp_parallel bp then devices else 1%nat in let K := length (bp_path bp) in
  ((exists out, file_band pi pf symbol listdir read_xml junk eigmax jn spline spline' Y eigh cpus pkg read devices bandpath (@None GS) gs cqr xcd ev bgrad alias rnd c = Ok out) <-> exists n, (1 <= D)%nat /\ (1 <= n)%nat /\ K = (D * n)%nat) /\
  forall out, file_band pi pf symbol listdir read_xml junk eigmax jn spline spline' Y eigh cpus pkg read devices bandpath (@None GS) gs cqr xcd ev bgrad alias rnd c = Ok out ->
    tshape out = [(hk * K)%nat; bp_bands bp] /\
    forall i, (i < K)%nat -> exists nl A, nc_basis_hamiltonian xcd bp V nl (nth i (bp_path bp) vzero) = Ok A /\
      tshape nl = 1%nat :: tl (tshape psi) /\ (forall j, tget nl (0%nat :: j) = tget psi (i :: j)) /\
      forall h, (h < hk)%nat -> ascending (bp_bands bp) (fun b => tget out [(h * K + i)%nat; b]) /\
        separated (waves bp) (bp_bands bp) (hermitian_part (matrix_at A [0%nat; h])) (fun b => tget out [(h * K + i)%nat; b]).
Proof. exact @file_bands. Qed.
Print Assumptions C124_bands.

Example C124_example : forall eigmax jn spline spline' Y eigh cpus erfc pkg grad bgrad r, (2 <= cpus)%nat -> let cf := ex_drv "simplex-projector" r true 8 in
  exists bp opt pp V psi out, file_band_problem pi1 ex_float ex_symbol ex_listdir ex_xml ex_junk eigmax pkg ex_ase ex_bandpath (ex_file_gs eigmax jn spline spline' Y eigh cpus erfc pkg grad) cf = Ok bp /\ create_optimizer ex_balias cf = Ok opt /\
    create_pseudopotential pkg ex_ase (load_nc pi1 ex_float ex_symbol ex_listdir ex_xml ex_junk) (load_us pi1 ex_float ex_symbol ex_listdir ex_xml ex_junk eigmax) cf = Ok pp /\ file_local jn spline pp (bp_crystal bp) (bp_G bp) (bp_vol bp) = Ok V /\ file_nonlocal jn spline' Y eigh cpus pp (bp_crystal bp) (bp_G bp) (bp_path bp) = Ok psi /\
    m3det (cr_cell (bp_crystal bp)) <> 0 /\ bp_bands bp = 8%nat /\ (bp_bands bp <= waves bp)%nat /\ tshape (bp_dens bp) = num_spin r :: tshape (bp_G bp) /\ xc_channels ex_xcd bp (num_spin r) /\
    file_band pi1 ex_float ex_symbol ex_listdir ex_xml ex_junk eigmax jn spline spline' Y eigh cpus pkg ex_ase 2 ex_bandpath (@None unit) (ex_file_gs eigmax jn spline spline' Y eigh cpus erfc pkg grad) id_qr ex_xcd eig_ev bgrad ex_balias ex_rpw cf = Ok out /\ tshape out = [num_spin r * 6; 8]%nat.
Proof. intros. apply ex_file_bands; [apply ex_qr_ok|apply id_qr_ok|assumption]. Qed.
