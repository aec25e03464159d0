(** Norm-conserving calculations: every orbital is reached, and there is a lowest energy (C150). *)
From Coq Require Import Reals.
From Coquelicot Require Import Coquelicot.
From Coq Require Import Ascii String List Arith ZArith Bool.
From Verif Require Import Base Sums Tensor Lin3 VecModel OccModel OccSpec PwSpec XcModel EnergyModel CalcModel DrvModel DrvSpec DrvProofs6 CalcProofs3 BoundProofs2 ReachSpec ReachProofs2 GeomSpec IdemSpec IdemProofs2 AttSpec AttProofs5 NcAttSpec NcAttProofs2.
Import ListNotations.
Local Open Scope R_scope.

(** Some parameters give the wanted orbitals, up to a phase factor each, without changing the
    occupations; the objective is then the energy of these orbitals. *)
Theorem C150_reach : forall (PP : Type) erfc pkg read (nc us : crystal -> string -> res PP) valence pp_local pp_nonlocal devices rnd rpw c pb p0 qr cqr lib vg pp V nl p co,
  reduced_qr qr -> complex_qr cqr -> qr_factors cqr -> shape_ok rnd -> pair_shape_ok rpw -> on_grid pp_local pp_nonlocal ->
  nc_problem erfc pkg read nc us valence pp_local pp_nonlocal devices c = Ok pb -> m3det (cr_cell (pb_crystal pb)) <> 0 ->
  nc_init rnd rpw pb = Ok p0 -> (pb_electrons pb mod 2 = pb_spin pb mod 2)%Z -> bands_hold (pb_method pb) (pb_electrons pb) (pb_spin pb) (pb_bands pb) -> bands_fit_basis pb ->
  (fixed_occ (pb_method pb) -> pb_restricted pb = true) -> (forall t pol, In t (split_on "+" (pb_xc pb)) -> lib t pol <> None) ->
  create_pseudopotential pkg read nc us c = Ok pp -> pp_local pp (pb_crystal pb) (pb_G pb) (pb_vol pb) = Ok V -> pp_nonlocal pp (pb_crystal pb) (pb_G pb) (pb_k pb) = Ok nl ->
  reachable pb p0 p -> basis_orbitals (num_spin (pb_restricted pb)) (length (pb_k pb)) (pb_bands pb) (pb_mask pb) co ->
  exists p' co' occ, reachable pb p0 p' /\ p_occ p' = p_occ p /\ get_occupation qr pb p = Ok occ /\ get_occupation qr pb p' = Ok occ /\
    get_coeff cqr pb p' = Ok co' /\ same_up_to_phase (num_spin (pb_restricted pb)) (length (pb_k pb)) (pb_bands pb) (tshape (pb_mask pb)) co co' /\
    exists e, objective qr cqr (xc_density lib vg) pb p' = Ok e /\ forall e', valence_energy (xc_density lib vg) (pb_G pb) (pb_k pb) (pb_vol pb) V nl (pb_xc pb) co occ e' <-> e' = e.
Proof. exact @nc_reach. Qed.
Print Assumptions C150_reach.

(** The energies a norm-conserving calculation can reach have a lowest value, approached as closely
    as wanted.  It is the energy of a state whose occupations are limits of described ones, and it
    is reached if they are described. *)
Theorem C150_driver : forall (PP : Type) erfc pkg read (nc us : crystal -> string -> res PP) valence pp_local pp_nonlocal devices rnd rpw c pb p0 qr cqr lib vg pp V nl,
  reduced_qr qr -> complex_qr cqr -> qr_factors cqr -> shape_ok rnd -> pair_shape_ok rpw -> on_grid pp_local pp_nonlocal ->
  nc_problem erfc pkg read nc us valence pp_local pp_nonlocal devices c = Ok pb -> m3det (cr_cell (pb_crystal pb)) <> 0 ->
  nc_init rnd rpw pb = Ok p0 -> (pb_electrons pb mod 2 = pb_spin pb mod 2)%Z -> bands_hold (pb_method pb) (pb_electrons pb) (pb_spin pb) (pb_bands pb) -> bands_fit_basis pb ->
  (fixed_occ (pb_method pb) -> pb_restricted pb = true) -> (forall t, In t (split_on "+" (pb_xc pb)) -> continuous_functional lib (contains "gga" (pb_xc pb)) t) ->
  create_pseudopotential pkg read nc us c = Ok pp -> pp_local pp (pb_crystal pb) (pb_G pb) (pb_vol pb) = Ok V -> pp_nonlocal pp (pb_crystal pb) (pb_G pb) (pb_k pb) = Ok nl ->
  exists co occ e, electron_state (num_spin (pb_restricted pb)) (length (pb_k pb)) (pb_bands pb) (pb_mask pb) (IZR (kept_electrons (pb_method pb) (pb_electrons pb) (pb_spin pb))) co occ /\
    limit_occupation [num_spin (pb_restricted pb); length (pb_k pb); pb_bands pb] (described qr pb p0) occ /\ valence_energy (xc_density lib vg) (pb_G pb) (pb_k pb) (pb_vol pb) V nl (pb_xc pb) co occ e /\
    (forall p, reachable pb p0 p -> exists e', objective qr cqr (xc_density lib vg) pb p = Ok e' /\ e <= e') /\
    (forall eps, 0 < eps -> exists p e', reachable pb p0 p /\ objective qr cqr (xc_density lib vg) pb p = Ok e' /\ e' < e + eps) /\
    (described qr pb p0 occ -> exists p, reachable pb p0 p /\ objective qr cqr (xc_density lib vg) pb p = Ok e).
Proof. exact @nc_infimum. Qed.
Print Assumptions C150_driver.

(** With the uniform and the gamma occupations some parameters reach it. *)
Theorem C150_minimum : forall (PP : Type) erfc pkg read (nc us : crystal -> string -> res PP) valence pp_local pp_nonlocal devices rnd rpw c pb p0 qr cqr lib vg,
  reduced_qr qr -> complex_qr cqr -> qr_factors cqr -> shape_ok rnd -> pair_shape_ok rpw -> on_grid pp_local pp_nonlocal ->
  nc_problem erfc pkg read nc us valence pp_local pp_nonlocal devices c = Ok pb -> m3det (cr_cell (pb_crystal pb)) <> 0 ->
  nc_init rnd rpw pb = Ok p0 -> (pb_electrons pb mod 2 = pb_spin pb mod 2)%Z -> bands_hold (pb_method pb) (pb_electrons pb) (pb_spin pb) (pb_bands pb) -> bands_fit_basis pb ->
  fixed_occ (pb_method pb) -> pb_restricted pb = true -> (forall t, In t (split_on "+" (pb_xc pb)) -> continuous_functional lib (contains "gga" (pb_xc pb)) t) ->
  exists p e, reachable pb p0 p /\ objective qr cqr (xc_density lib vg) pb p = Ok e /\ forall p', reachable pb p0 p' -> exists e', objective qr cqr (xc_density lib vg) pb p' = Ok e' /\ e <= e'.
Proof. exact @nc_least. Qed.
Print Assumptions C150_minimum.

(** Gram-Schmidt, a functional falling linearly with the density and the example calculations meet
    the hypotheses. *)
Example C150_example : forall erfc pkg occ r, complex_qr gs_qr /\ qr_factors gs_qr /\ (forall t gga, continuous_functional linear_lib gga t) /\ (forall t pol, linear_lib t pol <> None) /\
  (In occ ["uniform"; "gamma"; "simplex-projector"]%string -> (occ = "simplex-projector"%string \/ r = true) ->
  exists pb p0 pp V nl co, nc_problem erfc pkg ex_ase ex_loader ex_loader (fun l => l) ex_loc ex_nl 2 (ex_drv occ r true 8) = Ok pb /\ m3det (cr_cell (pb_crystal pb)) <> 0 /\ nc_init ex_rnd ex_rpw pb = Ok p0 /\ reachable pb p0 p0 /\
    (pb_electrons pb mod 2 = pb_spin pb mod 2)%Z /\ bands_hold (pb_method pb) (pb_electrons pb) (pb_spin pb) (pb_bands pb) /\ bands_fit_basis pb /\ (fixed_occ (pb_method pb) -> pb_restricted pb = true) /\ on_grid ex_loc ex_nl /\
    create_pseudopotential pkg ex_ase ex_loader ex_loader (ex_drv occ r true 8) = Ok pp /\ ex_loc pp (pb_crystal pb) (pb_G pb) (pb_vol pb) = Ok V /\ ex_nl pp (pb_crystal pb) (pb_G pb) (pb_k pb) = Ok nl /\
    basis_orbitals (num_spin (pb_restricted pb)) (length (pb_k pb)) (pb_bands pb) (pb_mask pb) co /\ (fixed_occ (pb_method pb) \/ occ = "simplex-projector"%string)).
Proof. intros erfc pkg occ r. split; [exact gs_qr_orthonormal|]. split; [exact gs_qr_factors|]. split; [exact linear_continuous|]. split; [discriminate|exact (ex_nc_attained erfc pkg occ r)]. Qed.
