(** What the capped-simplex occupations can and cannot describe, and the lowest energy with them (C153). *)
From Coq Require Import Reals.
From Coquelicot Require Import Coquelicot.
From Coq Require Import Ascii String List Arith ZArith Bool.
From Verif Require Import Base Sums Tensor Lin3 VecModel OccModel OccSpec PwSpec PwModel XcModel XcSpec EnergyModel EnergySpec HamModel HamSpec NlocModel CalcModel DrvModel DrvSpec DrvProofs6 CalcProofs3 BoundProofs2 ReachSpec ReachProofs2 IdemSpec IdemProofs2 AttSpec AttProofs5 NcAttSpec KsSpec KsProofs5 NcKsSpec
  SimSpec SimProofs SimProofs2 SimProofs3 SimProofs4 SimProofs5 SimProofs6 SimProofs7.
Import ListNotations.
Local Open Scope R_scope.

(** The projector makes exactly the occupations of the capped simplex in which no spin channel has
    both an empty and a full state: those and no others come out for some arguments. *)
Theorem C153_exact : forall N s K B r o, (1 <= K)%nat -> (N mod 2 = s mod 2)%Z -> (0 < (N - Z.abs s) / 2)%Z -> ((N + Z.abs s) / 2 < Z.of_nat B)%Z -> (r = true -> s = 0%Z) ->
  (exists up down occ, tshape up = [K; B] /\ tshape down = [K; B] /\ simplex_projector up down N s r = Ok occ /\ teq occ o) <->
  capped r K B N s o /\ never_both K B (INR (3 - num_spin r) / INR K) o.
Proof. exact projector_iff. Qed.
Print Assumptions C153_exact.

(** In particular never an empty and a full state, whatever the arguments and the spin. *)
Theorem C153_never_both : forall N s K B, (1 <= K)%nat -> (0 < (N - Z.abs s) / 2)%Z -> ((N + Z.abs s) / 2 < Z.of_nat B)%Z -> forall up down r occ,
  tshape up = [K; B] -> tshape down = [K; B] -> simplex_projector up down N s r = Ok occ -> never_both K B (INR (3 - num_spin r) / INR K) occ.
Proof. exact projector_never_both. Qed.
Print Assumptions C153_never_both.

(** Every occupation of the capped simplex is a limit of such occupations. *)
Theorem C153_dense : forall N s K B r o, (1 <= K)%nat -> (N mod 2 = s mod 2)%Z -> (0 < (N - Z.abs s) / 2)%Z -> ((N + Z.abs s) / 2 < Z.of_nat B)%Z -> capped r K B N s o ->
  forall d, 0 < d -> exists o', capped r K B N s o' /\ never_both K B (INR (3 - num_spin r) / INR K) o' /\ forall i, inb i [num_spin r; K; B] -> Rabs (tget o' i - tget o i) < d.
Proof. exact capped_dense. Qed.
Print Assumptions C153_dense.

(** The energies an all-electron calculation can be trained to have as their greatest lower bound the
    lowest energy of all states of the basis with capped occupations, which some state has; it is
    reached if that state has no channel with an empty and a full state. *)
Theorem C153_lowest : forall erfc pkg read devices rnd rpw c pb p0 qr cqr lib vg, let sp := num_spin (pb_restricted pb) in let K := length (pb_k pb) in let B := pb_bands pb in let xcd := xc_density lib vg in
  let energy co occ := total_energy xcd co (cr_positions (pb_crystal pb)) (map IZR (cr_charges (pb_crystal pb))) (pb_G pb) (pb_k pb) (pb_vol pb) (Some occ) false (pb_xc pb) in
  let cap := capped (pb_restricted pb) K B (pb_electrons pb) (pb_spin pb) in
  reduced_qr qr -> complex_qr cqr -> qr_factors cqr -> shape_ok rnd -> pair_shape_ok rpw ->
  ae_problem erfc pkg read devices c = Ok pb -> m3det (cr_cell (pb_crystal pb)) <> 0 -> length (cr_charges (pb_crystal pb)) = length (cr_positions (pb_crystal pb)) ->
  ae_init rnd rpw pb = Ok p0 -> bands_hold (pb_method pb) (pb_electrons pb) (pb_spin pb) B -> bands_fit_basis pb ->
  pb_method pb = MSimplex -> (pb_restricted pb = true -> pb_spin pb = 0%Z) -> (forall t, In t (split_on "+" (pb_xc pb)) -> continuous_functional lib (contains "gga" (pb_xc pb)) t) ->
  exists co occ e, basis_orbitals sp K B (pb_mask pb) co /\ cap occ /\ energy co occ = Ok e /\
    (forall co' occ', basis_orbitals sp K B (pb_mask pb) co' -> cap occ' -> exists e', energy co' occ' = Ok e' /\ e <= e') /\
    (forall p, reachable pb p0 p -> exists e', objective qr cqr xcd pb p = Ok e' /\ e <= e') /\
    (forall eps, 0 < eps -> exists p e', reachable pb p0 p /\ objective qr cqr xcd pb p = Ok e' /\ e' < e + eps) /\
    (never_both K B (INR (3 - sp) / INR K) occ -> exists p, reachable pb p0 p /\ objective qr cqr xcd pb p = Ok e).
Proof. exact sim_infimum. Qed.
Print Assumptions C153_lowest.

(** The same for norm-conserving calculations. *)
Theorem C153_nc_lowest : forall (PP : Type) erfc pkg read (nc us : crystal -> string -> res PP) valence pp_local pp_nonlocal devices rnd rpw c pb p0 qr cqr lib vg pp V nl,
  let sp := num_spin (pb_restricted pb) in let K := length (pb_k pb) in let B := pb_bands pb in let xcd := xc_density lib vg in
  let energy := valence_energy xcd (pb_G pb) (pb_k pb) (pb_vol pb) V nl (pb_xc pb) in let cap := capped (pb_restricted pb) K B (pb_electrons pb) (pb_spin pb) in
  reduced_qr qr -> complex_qr cqr -> qr_factors cqr -> shape_ok rnd -> pair_shape_ok rpw -> on_grid pp_local pp_nonlocal ->
  nc_problem erfc pkg read nc us valence pp_local pp_nonlocal devices c = Ok pb -> m3det (cr_cell (pb_crystal pb)) <> 0 -> nc_init rnd rpw pb = Ok p0 -> (pb_electrons pb mod 2 = pb_spin pb mod 2)%Z ->
  bands_hold (pb_method pb) (pb_electrons pb) (pb_spin pb) B -> bands_fit_basis pb ->
  pb_method pb = MSimplex -> (pb_restricted pb = true -> pb_spin pb = 0%Z) -> (forall t, In t (split_on "+" (pb_xc pb)) -> continuous_functional lib (contains "gga" (pb_xc pb)) t) ->
  create_pseudopotential pkg read nc us c = Ok pp -> pp_local pp (pb_crystal pb) (pb_G pb) (pb_vol pb) = Ok V -> pp_nonlocal pp (pb_crystal pb) (pb_G pb) (pb_k pb) = Ok nl ->
  exists co occ e, basis_orbitals sp K B (pb_mask pb) co /\ cap occ /\ energy co occ e /\
    (forall co' occ', basis_orbitals sp K B (pb_mask pb) co' -> cap occ' -> exists e', energy co' occ' e' /\ e <= e') /\
    (forall p, reachable pb p0 p -> exists e', objective qr cqr xcd pb p = Ok e' /\ e <= e') /\
    (forall eps, 0 < eps -> exists p e', reachable pb p0 p /\ objective qr cqr xcd pb p = Ok e' /\ e' < e + eps) /\
    (never_both K B (INR (3 - sp) / INR K) occ -> exists p, reachable pb p0 p /\ objective qr cqr xcd pb p = Ok e).
Proof. exact (@sim_nc_infimum). Qed.
Print Assumptions C153_nc_lowest.

(** A spin-restricted state of lowest energy with capped occupations: Kohn-Sham orbitals, filled from
    below with two electrons to a state, the occupied levels being the lowest of the basis. *)
Theorem C153_states : forall lib vg xt A pos ch G kpts vol B n1 n2 n3 mask N co occ d e, let ns := [n1; n2; n3] in let K := length kpts in let xcd := xc_density lib vg in
  contains "gga" xt = false -> (forall t b, In t (split_on "+" xt) -> lib t b <> None) -> m3det A <> 0 -> 0 < vol -> g_vectors A ns = Ok G -> length ch = length pos -> tshape mask = ns ->
  basis_orbitals 1 K B mask co -> capped true K B N 0 occ -> density_grid co vol (Some occ) = Ok d -> (forall x, inb x ns -> ex_derive (local_particle lib (split_on "+" xt)) (tget d (0%nat :: x))) ->
  total_energy xcd co pos ch G kpts vol (Some occ) false xt = Ok e ->
  (forall co' occ', basis_orbitals 1 K B mask co' -> capped true K B N 0 occ' -> exists e', total_energy xcd co' pos ch G kpts vol (Some occ') false xt = Ok e' /\ e <= e') ->
  let matrix x := hamiltonian_matrix xcd x pos ch d G kpts vol xt true in
  kohn_sham_orbitals matrix ns K B mask co occ /\ filled_from_below matrix K B (2 / INR K) co occ /\ lowest_levels matrix ns K B mask (2 / INR K) co occ.
Proof. exact sim_states. Qed.
Print Assumptions C153_states.
Theorem C153_nc_states : forall lib vg xt A V nl G kpts vol B n1 n2 n3 nb nm mask N co occ d e, let ns := [n1; n2; n3] in let K := length kpts in let xcd := xc_density lib vg in
  contains "gga" xt = false -> (forall t b, In t (split_on "+" xt) -> lib t b <> None) -> m3det A <> 0 -> 0 < vol -> g_vectors A ns = Ok G -> tshape V = ns -> tshape nl = [K; nb; nm] ++ ns -> real_on_grid V -> tshape mask = ns ->
  basis_orbitals 1 K B mask co -> capped true K B N 0 occ -> density_grid co vol (Some occ) = Ok d -> hartree_real d G -> (forall x, inb x ns -> ex_derive (local_particle lib (split_on "+" xt)) (tget d (0%nat :: x))) ->
  valence_energy xcd G kpts vol V nl xt co occ e ->
  (forall co' occ', basis_orbitals 1 K B mask co' -> capped true K B N 0 occ' -> exists e', valence_energy xcd G kpts vol V nl xt co' occ' e' /\ e <= e') ->
  let matrix x := nl_hamiltonian_matrix xcd x d V nl G kpts vol xt true in
  kohn_sham_orbitals matrix ns K B mask co occ /\ filled_from_below matrix K B (2 / INR K) co occ /\ lowest_levels matrix ns K B mask (2 / INR K) co occ.
Proof. exact sim_nc_states. Qed.
Print Assumptions C153_nc_states.

(** Parameters with electrons at two different levels and room at two different levels are never of
    lowest energy: others have less.  A closed-shell crystal is approached but not reached. *)
Theorem C153_not_lowest : forall erfc pkg read devices rnd rpw c pb p0 p qr cqr lib vg co occ d M e, let K := length (pb_k pb) in let B := pb_bands pb in let level k b := Re (tget M [0%nat; k; b; b]) in
  reduced_qr qr -> complex_qr cqr -> qr_factors cqr -> shape_ok rnd -> pair_shape_ok rpw ->
  ae_problem erfc pkg read devices c = Ok pb -> m3det (cr_cell (pb_crystal pb)) <> 0 -> length (cr_charges (pb_crystal pb)) = length (cr_positions (pb_crystal pb)) ->
  ae_init rnd rpw pb = Ok p0 -> bands_hold (pb_method pb) (pb_electrons pb) (pb_spin pb) (pb_bands pb) -> bands_fit_basis pb ->
  pb_method pb = MSimplex -> pb_restricted pb = true -> pb_spin pb = 0%Z -> contains "gga" (pb_xc pb) = false ->
  (forall t, In t (split_on "+" (pb_xc pb)) -> continuous_functional lib false t) ->
  reachable pb p0 p -> objective qr cqr (xc_density lib vg) pb p = Ok e ->
  get_coeff cqr pb p = Ok co -> get_occupation qr pb p = Ok occ -> density_grid co (pb_vol pb) (Some occ) = Ok d ->
  (forall x, inb x (tshape (pb_G pb)) -> ex_derive (local_particle lib (split_on "+" (pb_xc pb))) (tget d (0%nat :: x))) ->
  hamiltonian_matrix (xc_density lib vg) co (cr_positions (pb_crystal pb)) (map IZR (cr_charges (pb_crystal pb))) d (pb_G pb) (pb_k pb) (pb_vol pb) (pb_xc pb) true = Ok M ->
  (exists k b k' b', (k < K)%nat /\ (b < B)%nat /\ (k' < K)%nat /\ (b' < B)%nat /\ 0 < tget occ [0%nat; k; b] /\ 0 < tget occ [0%nat; k'; b'] /\ level k b <> level k' b') ->
  (exists k b k' b', (k < K)%nat /\ (b < B)%nat /\ (k' < K)%nat /\ (b' < B)%nat /\ tget occ [0%nat; k; b] < 2 / INR K /\ tget occ [0%nat; k'; b'] < 2 / INR K /\ level k b <> level k' b') ->
  exists p' e', reachable pb p0 p' /\ objective qr cqr (xc_density lib vg) pb p' = Ok e' /\ e' < e.
Proof. exact sim_not_lowest. Qed.
Print Assumptions C153_not_lowest.

(** The closed-shell filling of 12 electrons in 6 of 14 bands lies on the capped simplex but has empty
    and full states.  The example crystal without spin meets the hypotheses of the last theorem, with
    plane waves for the orbitals. *)
Example C153_example : forall erfc pkg vg, reduced_qr real_gs_qr /\ complex_qr gs_qr /\ qr_factors gs_qr /\ shape_ok ex_rnd /\ pair_shape_ok ex_rpw /\
  (forall t gga, continuous_functional linear_lib gga t) /\ (forall ts r, ex_derive (local_particle linear_lib ts) r) /\
  (capped true 8 14 12 0 (shell 8 14 6) /\ ~ never_both 8 14 (INR (3 - num_spin true) / INR 8) (shell 8 14 6)) /\
  exists pb p0 p co occ d M e, let K := length (pb_k pb) in let B := pb_bands pb in let level k b := Re (tget M [0%nat; k; b; b]) in
  ae_problem erfc pkg ex_ase 2 (ex_drv0 "simplex-projector" true false 8) = Ok pb /\ m3det (cr_cell (pb_crystal pb)) <> 0 /\ length (cr_charges (pb_crystal pb)) = length (cr_positions (pb_crystal pb)) /\
  ae_init ex_rnd ex_rpw pb = Ok p0 /\ bands_hold (pb_method pb) (pb_electrons pb) (pb_spin pb) (pb_bands pb) /\ bands_fit_basis pb /\
  pb_method pb = MSimplex /\ pb_restricted pb = true /\ pb_spin pb = 0%Z /\ contains "gga" (pb_xc pb) = false /\
  reachable pb p0 p /\ objective real_gs_qr gs_qr (xc_density linear_lib vg) pb p = Ok e /\
  get_coeff gs_qr pb p = Ok co /\ get_occupation real_gs_qr pb p = Ok occ /\ density_grid co (pb_vol pb) (Some occ) = Ok d /\
  hamiltonian_matrix (xc_density linear_lib vg) co (cr_positions (pb_crystal pb)) (map IZR (cr_charges (pb_crystal pb))) d (pb_G pb) (pb_k pb) (pb_vol pb) (pb_xc pb) true = Ok M /\
  (exists k b k' b', (k < K)%nat /\ (b < B)%nat /\ (k' < K)%nat /\ (b' < B)%nat /\ 0 < tget occ [0%nat; k; b] /\ 0 < tget occ [0%nat; k'; b'] /\ level k b <> level k' b') /\
  (exists k b k' b', (k < K)%nat /\ (b < B)%nat /\ (k' < K)%nat /\ (b' < B)%nat /\ tget occ [0%nat; k; b] < 2 / INR K /\ tget occ [0%nat; k'; b'] < 2 / INR K /\ level k b <> level k' b').
Proof. intros erfc pkg vg. split; [exact real_gs_qr_ok|]. split; [exact gs_qr_orthonormal|]. split; [exact gs_qr_factors|]. split; [exact ex_rnd_ok|]. split; [exact ex_rpw_ok|]. split; [exact linear_continuous|]. split; [exact linear_smooth|]. split; [exact shell_capped|exact (ex_not_lowest erfc pkg vg)]. Qed.
