(** Theorems about the ground-state drivers and main (C90, C112-C114). *)
From Coq Require Import Reals Lra Lia.
From Coquelicot Require Import Complex.
From Coq Require Import Ascii String List Arith ZArith Bool.
From Verif Require Import Base Sums Tensor DFT Lin3 VecModel OccModel OccSpec PadModel PwModel PwSpec PwProofs BraketModel EnergyModel EnergySpec
  EwaldModel GridModel TotalProofs XcModel LocModel NlocModel CalcSpec CalcModel DrvModel DrvSpec DrvProofs5 DrvProofs4 DrvProofs6 DrvProofs7 CfgProofs PropOcc.
Import ListNotations.
Local Open Scope R_scope.

(** C90: what is minimised. *)
Theorem C90_all_electron_objective : forall erfc pkg read devices rnd rpw c pb p0 p qr cqr xcd, reduced_qr qr -> complex_qr cqr -> shape_ok rnd -> pair_shape_ok rpw ->
  ae_problem erfc pkg read devices c = Ok pb -> ae_init rnd rpw pb = Ok p0 -> reachable pb p0 p -> bands_hold (pb_method pb) (pb_electrons pb) (pb_spin pb) (pb_bands pb) -> bands_fit_basis pb ->
  xc_local xcd false (pb_xc pb) ->
  exists co occ, get_coeff cqr pb p = Ok co /\ get_occupation qr pb p = Ok occ /\
    forall e, objective qr cqr xcd pb p = Ok e <->
      total_energy xcd co (cr_positions (pb_crystal pb)) (map IZR (cr_charges (pb_crystal pb))) (pb_G pb) (pb_k pb) (pb_vol pb) (Some occ) false (pb_xc pb) = Ok e.
Proof. exact ae_objective. Qed.
Print Assumptions C90_all_electron_objective.
Theorem C90_norm_conserving_objective : forall (PP : Type) erfc pkg read (nc us : crystal -> string -> res PP) valence pp_local pp_nonlocal devices rnd rpw c pb p0 p qr cqr xcd,
  reduced_qr qr -> complex_qr cqr -> shape_ok rnd -> pair_shape_ok rpw -> on_grid pp_local pp_nonlocal ->
  nc_problem erfc pkg read nc us valence pp_local pp_nonlocal devices c = Ok pb -> m3det (cr_cell (pb_crystal pb)) <> 0 ->
  nc_init rnd rpw pb = Ok p0 -> reachable pb p0 p -> (pb_electrons pb mod 2 = pb_spin pb mod 2)%Z -> bands_hold (pb_method pb) (pb_electrons pb) (pb_spin pb) (pb_bands pb) -> bands_fit_basis pb ->
  (fixed_occ (pb_method pb) -> pb_restricted pb = true) ->
  exists pp V psi co occ d D w Hl Hn, create_pseudopotential pkg read nc us c = Ok pp /\ pp_local pp (pb_crystal pb) (pb_G pb) (pb_vol pb) = Ok V /\ pp_nonlocal pp (pb_crystal pb) (pb_G pb) (pb_k pb) = Ok psi /\
    get_coeff cqr pb p = Ok co /\ get_occupation qr pb p = Ok occ /\
    density_grid co (pb_vol pb) (Some occ) = Ok d /\ fftn3 (tmap RtoC d) = Ok D /\ wave_grid co (pb_vol pb) = Ok w /\
    hamiltonian_local w V (pb_vol pb) = Ok Hl /\ hamiltonian_nonlocal co psi (pb_vol pb) = Ok Hn /\
    forall e, objective qr cqr xcd pb p = Ok e <->
      exists ek eh ex, e_kinetic (pb_G pb) (pb_k pb) co (Some occ) = Ok ek /\ e_hartree D (pb_G pb) (pb_vol pb) false = Ok eh /\ e_xc xcd d (pb_G pb) (pb_vol pb) (pb_xc pb) false = Ok ex /\
        e = tget ek [] + eh + sumR (seq 0 (num_spin (pb_restricted pb))) (fun s => sumR (seq 0 (length (pb_k pb))) (fun k => sumR (seq 0 (pb_bands pb)) (fun b =>
              tget occ [s; k; b] * (Re (tget Hl [s; k; b; b]) + Re (tget Hn [s; k; b; b]))))) + ex.
Proof. exact @nc_objective. Qed.
Print Assumptions C90_norm_conserving_objective.
(** One step: the loss is the energy minus temperature times entropy of the parameters before the
    step, the returned energy and entropy are those two, and the parameters move by the
    optimiser's update for the gradient at that temperature. *)
Theorem C90_update : forall (Os : Type) qr cqr xcd pb grad (optimizer : params -> Os -> params * Os) p o T p' o' f e h,
  drv_update qr cqr xcd pb grad optimizer p o T = Ok (p', o', f, (e, h)) <->
  objective qr cqr xcd pb p = Ok e /\ (exists occ, get_occupation qr pb p = Ok occ /\ fermi_dirac occ (pb_eps pb) = Ok h) /\ f = e - T * h /\
  p' = apply_updates p (fst (optimizer (stop_gradient (pb_method pb) (grad T p)) o)) /\ o' = snd (optimizer (stop_gradient (pb_method pb) (grad T p)) o).
Proof. exact @update_entropy. Qed.
Print Assumptions C90_update.
Theorem C90_step : forall (Os : Type) qr cqr xcd pb grad (optimizer : params -> Os -> params * Os) p o T p' o' f eh, drv_update qr cqr xcd pb grad optimizer p o T = Ok (p', o', f, eh) ->
  exists g u, optimizer g o = (u, o') /\ p_re g = p_re (grad T p) /\ p_im g = p_im (grad T p) /\
    (fixed_occ (pb_method pb) -> occ_zero (p_occ g)) /\ (~ fixed_occ (pb_method pb) -> p_occ g = p_occ (grad T p)) /\
    added (p_re p) (p_re u) (p_re p') /\ added (p_im p) (p_im u) (p_im p') /\ (same_kind (p_occ p) (p_occ u) -> occ_added (p_occ p) (p_occ u) (p_occ p')).
Proof. exact @step_adds. Qed.
Print Assumptions C90_step.
Example C90_example : forall erfc pkg occ r, In occ ex_methods ->
  exists pb p0, ae_problem erfc pkg ex_ase 2 (ex_drv occ r false 8) = Ok pb /\ ae_init ex_rnd ex_rpw pb = Ok p0 /\ reachable pb p0 p0 /\
    bands_hold (pb_method pb) (pb_electrons pb) (pb_spin pb) (pb_bands pb) /\ bands_fit_basis pb /\ xc_local ex_xcd false "lda_x".
Proof. exact ex_ae_init. Qed.
Example C90_example_nc : forall erfc pkg r,
  exists pb p0, nc_problem erfc pkg ex_ase ex_loader ex_loader (fun l => l) ex_loc ex_nl 2 (ex_drv "simplex-projector" r true 8) = Ok pb /\ nc_init ex_rnd ex_rpw pb = Ok p0 /\ reachable pb p0 p0 /\
    m3det (cr_cell (pb_crystal pb)) <> 0 /\ (pb_electrons pb mod 2 = pb_spin pb mod 2)%Z /\ bands_hold (pb_method pb) (pb_electrons pb) (pb_spin pb) (pb_bands pb) /\ bands_fit_basis pb /\
    (fixed_occ (pb_method pb) -> pb_restricted pb = true) /\ on_grid ex_loc ex_nl.
Proof. exact ex_nc_init. Qed.

(** C112: the all-electron driver from the configuration to the returned density. *)
Theorem C112_problem : forall erfc pkg read devices c pb, ae_problem erfc pkg read devices c = Ok pb ->
  create_crystal pkg read c = Ok (pb_crystal pb) /\ pb_electrons pb = num_electron (pb_crystal pb) /\ (pb_electrons pb mod 2 = pb_spin pb mod 2)%Z /\
  (exists r, create_grids pkg read c = Ok (pb_G pb, r, pb_k pb)) /\ create_freq_mask pkg read c = Ok (pb_mask pb) /\ tshape (pb_mask pb) = tshape (pb_G pb) /\
  get_ewald_coulomb_repulsion erfc pkg read c = Ok (pb_ewald pb) /\
  (exists e v, getattr c "empty_bands" = Ok v /\ cfg_int v = Ok e /\ Z.of_nat (pb_bands pb) = num_bands (pb_electrons pb) e) /\
  (exists v, getattr c "occupation" = Ok (VStr v) /\ pb_method pb = method_of_name v) /\ (exists v, getattr c "spin_restricted" = Ok v /\ pb_restricted pb = truthy v) /\
  (length (pb_k pb) mod pb_devices pb = 0)%nat.
Proof. exact ae_setup. Qed.
Print Assumptions C112_problem.
(** The other settings are those of the configuration; the occupations are initialised with the
    configured spin treatment. *)
Theorem C112_settings : forall erfc pkg read devices c pb, ae_problem erfc pkg read devices c = Ok pb -> reads_settings devices c pb /\ pb_ions pb = None /\ pb_init_restricted pb = pb_restricted pb.
Proof. exact ae_settings. Qed.
Print Assumptions C112_settings.
(** The numbers a configuration entry can stand for: a truth value counts as 0 or 1, as in Python. *)
Theorem C112_numbers : forall v, (forall z, cfg_int v = Ok z <-> v = VInt z \/ exists b : bool, v = VBool b /\ z = (if b then 1 else 0)%Z) /\
  (forall x, cfg_real v = Ok x <-> v = VReal x \/ (exists z, v = VInt z /\ x = IZR z) \/ exists b : bool, v = VBool b /\ x = if b then 1 else 0) /\ (forall s, cfg_str v = Ok s <-> v = VStr s).
Proof. exact cfg_numbers. Qed.
Print Assumptions C112_numbers.
Theorem C112_occupation_names : forall s, (method_of_name s = MIdempotent <-> s = "idempotent"%string) /\ (method_of_name s = MUniform <-> s = "uniform"%string) /\
  (method_of_name s = MGamma <-> s = "gamma"%string) /\ (method_of_name s = MSimplex <-> s = "simplex-projector"%string).
Proof. exact names. Qed.
Print Assumptions C112_occupation_names.
(** The occupation chosen by a configuration: one of the four names, and nothing else. *)
Theorem C112_create_occupation : forall c m, (create_occupation c = Ok m <-> exists s, getattr c "occupation" = Ok (VStr s) /\ method_of_name s = m /\ m <> MOther) /\
  (forall v, getattr c "occupation" = Ok v -> (forall s, v = VStr s -> method_of_name s = MOther) -> create_occupation c = Err NotImplementedErr).
Proof. exact occupation_selected. Qed.
Print Assumptions C112_create_occupation.
Example C112_occupation_example : create_occupation [("occupation", VStr "gamma")]%string = Ok MGamma /\ create_occupation [("occupation", VStr "fermi")]%string = Err NotImplementedErr.
Proof. split; reflexivity. Qed.
Theorem C112_density : forall (Os : Type) erfc pkg read devices qr cqr xcd grad (alias : string -> option (cval -> list (string * cval) -> optax Os)) rnd rpw c pb opt out,
  reduced_qr qr -> complex_qr cqr -> shape_ok rnd -> pair_shape_ok rpw ->
  ae_problem erfc pkg read devices c = Ok pb -> create_optimizer alias c = Ok opt -> m3det (cr_cell (pb_crystal pb)) <> 0 -> bands_fit_basis pb ->
  bands_hold (pb_method pb) (pb_electrons pb) (pb_spin pb) (pb_bands pb) -> (fixed_occ (pb_method pb) -> leaves_constants opt) ->
  ae_calc erfc pkg read devices qr cqr xcd grad alias rnd rpw c = Ok out ->
  tshape (returned out) = num_spin (pb_restricted pb) :: tshape (pb_G pb) /\ (forall i, inb i (tshape (returned out)) -> 0 <= tget (returned out) i) /\
  cell_integral (pb_vol pb) (returned out) = IZR (kept_electrons (pb_method pb) (pb_electrons pb) (pb_spin pb)) /\
  (pb_restricted pb = false -> channel_integral (pb_vol pb) (returned out) 0 - channel_integral (pb_vol pb) (returned out) 1 = IZR (kept_spin (pb_method pb) (pb_spin pb))).
Proof. exact @ae_density. Qed.
Print Assumptions C112_density.
Theorem C112_returns : forall (Os : Type) erfc pkg read devices qr cqr xcd grad (alias : string -> option (cval -> list (string * cval) -> optax Os)) rnd rpw c pb opt,
  reduced_qr qr -> complex_qr cqr -> shape_ok rnd -> pair_shape_ok rpw ->
  ae_problem erfc pkg read devices c = Ok pb -> create_optimizer alias c = Ok opt -> m3det (cr_cell (pb_crystal pb)) <> 0 -> bands_fit_basis pb ->
  bands_hold (pb_method pb) (pb_electrons pb) (pb_spin pb) (pb_bands pb) -> (fixed_occ (pb_method pb) -> leaves_constants opt) ->
  length (cr_charges (pb_crystal pb)) = length (cr_positions (pb_crystal pb)) -> xc_local xcd false (pb_xc pb) -> xc_returns xcd pb -> (1 <= pb_epoch pb)%nat ->
  exists out, ae_calc erfc pkg read devices qr cqr xcd grad alias rnd rpw c = Ok out.
Proof. exact @ae_returns. Qed.
Print Assumptions C112_returns.
(** The functionals of the local density approximation meet the hypothesis on xc. *)
Theorem C112_lda : forall lib vg pb, contains "gga" (pb_xc pb) = false -> (forall t b, In t (split_on "+" (pb_xc pb)) -> lib t b <> None) -> xc_returns (xc_density lib vg) pb.
Proof. exact lda_xc_returns. Qed.
Print Assumptions C112_lda.
Theorem C112_few_waves_raise : forall (Os : Type) erfc pkg read devices qr cqr xcd grad (alias : string -> option (cval -> list (string * cval) -> optax Os)) rnd rpw c pb,
  reduced_qr qr -> complex_qr cqr -> shape_ok rnd -> pair_shape_ok rpw ->
  ae_problem erfc pkg read devices c = Ok pb -> (1 < length (mask_positions (pb_mask pb)) < pb_bands pb)%nat ->
  raises (ae_calc erfc pkg read devices qr cqr xcd grad alias rnd rpw c).
Proof. exact @ae_few_waves. Qed.
Print Assumptions C112_few_waves_raise.
Theorem C112_report : forall (Os : Type) erfc pkg read devices qr cqr xcd grad (alias : string -> option (cval -> list (string * cval) -> optax Os)) rnd rpw c pb opt out,
  ae_problem erfc pkg read devices c = Ok pb -> create_optimizer alias c = Ok opt -> ae_calc erfc pkg read devices qr cqr xcd grad alias rnd rpw c = Ok out ->
  exists p0 w thr n e, let traj := run_traj pb (grad pb) opt p0 in ae_init rnd rpw pb = Ok p0 /\ pb_checker pb = new_checker w thr /\ (1 <= n <= pb_epoch pb)%nat /\ num_updates out = n /\
    get_density qr cqr pb (fst (traj n)) = Ok (returned out) /\ objective qr cqr xcd pb (fst (traj (n - 1)%nat)) = Ok e /\ logged_total out = e + pb_ewald pb /\
    (exists es, length es = n /\ (forall m, (m < n)%nat -> objective qr cqr xcd pb (fst (traj m)) = Ok (nth m es 0)) /\
       (forall m, (1 <= m < n)%nat -> ~ settled w thr (firstn m es)) /\ (logged_converged out = true <-> settled w thr es)) /\
    (logged_converged out = false -> n = pb_epoch pb).
Proof. exact @ae_report. Qed.
Print Assumptions C112_report.
(** With the idempotent method and a spin that is not zero the density holds N + spin electrons. *)
Theorem C112_idempotent_refuted : forall erfc pkg qr cqr grad, reduced_qr qr -> complex_qr cqr ->
  exists c pb out, ae_problem erfc pkg ex_ase 2 c = Ok pb /\ bands_hold (pb_method pb) (pb_electrons pb) (pb_spin pb) (pb_bands pb) /\ bands_fit_basis pb /\ m3det (cr_cell (pb_crystal pb)) <> 0 /\
    ae_calc erfc pkg ex_ase 2 qr cqr ex_xcd grad ex_alias ex_rnd ex_rpw c = Ok out /\ pb_electrons pb = 12%Z /\ cell_integral (pb_vol pb) (returned out) = 14.
Proof. exact ex_idempotent. Qed.
Print Assumptions C112_idempotent_refuted.
Example C112_example : forall erfc pkg occ r, In occ ex_methods ->
  exists pb, ae_problem erfc pkg ex_ase 2 (ex_drv occ r false 8) = Ok pb /\ m3det (cr_cell (pb_crystal pb)) <> 0 /\ bands_fit_basis pb /\
    bands_hold (pb_method pb) (pb_electrons pb) (pb_spin pb) (pb_bands pb) /\ length (cr_charges (pb_crystal pb)) = length (cr_positions (pb_crystal pb)) /\
    xc_returns (xc_density ex_lib (fun _ _ _ _ => Err ValueErr)) pb /\ (1 <= pb_epoch pb)%nat /\ pb_method pb = method_of_name occ /\ pb_restricted pb = r /\ pb_electrons pb = 12%Z /\ pb_spin pb = 2%Z.
Proof. exact ex_ae. Qed.
Example C112_example_run : forall erfc pkg grad occ r, In occ ex_methods ->
  exists pb out, ae_problem erfc pkg ex_ase 2 (ex_drv occ r false 8) = Ok pb /\ ae_calc erfc pkg ex_ase 2 ex_qr id_qr ex_xcd grad ex_alias ex_rnd ex_rpw (ex_drv occ r false 8) = Ok out /\
    pb_electrons pb = 12%Z /\ pb_spin pb = 2%Z /\ bands_hold (pb_method pb) (pb_electrons pb) (pb_spin pb) (pb_bands pb) /\ bands_fit_basis pb /\ m3det (cr_cell (pb_crystal pb)) <> 0 /\ pb_method pb = method_of_name occ.
Proof. intros erfc pkg grad occ r. apply ex_run; [apply ex_qr_ok|apply id_qr_ok]. Qed.
Example C112_example_optimizer : (forall occ r ps n, create_optimizer ex_alias (ex_drv occ r ps n) = Ok ex_opt) /\ leaves_constants ex_opt /\ shape_ok ex_rnd /\ pair_shape_ok ex_rpw.
Proof. split; [exact ex_optimizer|]. split; [exact ex_opt_constants|]. split; [exact ex_rnd_ok|exact ex_rpw_ok]. Qed.
Example C112_example_few : forall erfc pkg, exists pb, ae_problem erfc pkg ex_ase 2 (ex_drv "uniform" true false 4) = Ok pb /\ (1 < length (mask_positions (pb_mask pb)) < pb_bands pb)%nat.
Proof. exact ex_ae_few. Qed.

(** C113: the norm-conserving driver. *)
Theorem C113_problem : forall (PP : Type) erfc pkg read (nc us : crystal -> string -> res PP) valence pp_local pp_nonlocal devices c pb, nc_problem erfc pkg read nc us valence pp_local pp_nonlocal devices c = Ok pb ->
  create_crystal pkg read c = Ok (pb_crystal pb) /\ (exists pp, create_pseudopotential pkg read nc us c = Ok pp /\ pb_electrons pb = fold_right Z.add 0%Z (valence pp)) /\
  (exists r, create_grids pkg read c = Ok (pb_G pb, r, pb_k pb)) /\ create_freq_mask pkg read c = Ok (pb_mask pb) /\ tshape (pb_mask pb) = tshape (pb_G pb) /\
  get_ewald_coulomb_repulsion erfc pkg read c = Ok (pb_ewald pb) /\
  (exists e v, getattr c "empty_bands" = Ok v /\ cfg_int v = Ok e /\ Z.of_nat (pb_bands pb) = num_bands (pb_electrons pb) e) /\
  (exists v, getattr c "occupation" = Ok (VStr v) /\ pb_method pb = method_of_name v) /\ (exists v, getattr c "spin_restricted" = Ok v /\ pb_restricted pb = truthy v) /\
  (length (pb_k pb) mod pb_devices pb = 0)%nat.
Proof. exact @nc_setup. Qed.
Print Assumptions C113_problem.
Theorem C113_settings : forall (PP : Type) erfc pkg read (nc us : crystal -> string -> res PP) valence pp_local pp_nonlocal devices c pb,
  nc_problem erfc pkg read nc us valence pp_local pp_nonlocal devices c = Ok pb -> reads_settings devices c pb /\ pb_init_restricted pb = true /\
    exists pp V psi, create_pseudopotential pkg read nc us c = Ok pp /\ pp_local pp (pb_crystal pb) (pb_G pb) (pb_vol pb) = Ok V /\ pp_nonlocal pp (pb_crystal pb) (pb_G pb) (pb_k pb) = Ok psi /\ pb_ions pb = Some (V, psi).
Proof. exact @nc_settings. Qed.
Print Assumptions C113_settings.
Theorem C113_density : forall (PP Os : Type) erfc pkg read (nc us : crystal -> string -> res PP) valence pp_local pp_nonlocal devices qr cqr xcd grad (alias : string -> option (cval -> list (string * cval) -> optax Os)) rnd rpw c pb opt out,
  reduced_qr qr -> complex_qr cqr -> shape_ok rnd -> pair_shape_ok rpw ->
  nc_problem erfc pkg read nc us valence pp_local pp_nonlocal devices c = Ok pb -> create_optimizer alias c = Ok opt -> m3det (cr_cell (pb_crystal pb)) <> 0 -> bands_fit_basis pb ->
  (pb_electrons pb mod 2 = pb_spin pb mod 2)%Z -> bands_hold (pb_method pb) (pb_electrons pb) (pb_spin pb) (pb_bands pb) ->
  (fixed_occ (pb_method pb) -> leaves_constants opt /\ pb_restricted pb = true) ->
  nc_calc erfc pkg read nc us valence pp_local pp_nonlocal devices qr cqr xcd grad alias rnd rpw c = Ok out ->
  tshape (returned out) = num_spin (pb_restricted pb) :: tshape (pb_G pb) /\ (forall i, inb i (tshape (returned out)) -> 0 <= tget (returned out) i) /\
  cell_integral (pb_vol pb) (returned out) = IZR (pb_electrons pb) /\
  (pb_restricted pb = false -> channel_integral (pb_vol pb) (returned out) 0 - channel_integral (pb_vol pb) (returned out) 1 = IZR (pb_spin pb)).
Proof. intros PP Os erfc pkg read nc us valence pp_local pp_nonlocal devices qr cqr xcd grad alias rnd rpw c pb opt out. apply nc_density. Qed.
Print Assumptions C113_density.
(** Unrestricted, with occupations that are not optimised: every channel holds all N electrons. *)
Theorem C113_unrestricted_doubles : forall (PP Os : Type) erfc pkg read (nc us : crystal -> string -> res PP) valence pp_local pp_nonlocal devices qr cqr xcd grad (alias : string -> option (cval -> list (string * cval) -> optax Os)) rnd rpw c pb opt out,
  complex_qr cqr -> pair_shape_ok rpw ->
  nc_problem erfc pkg read nc us valence pp_local pp_nonlocal devices c = Ok pb -> create_optimizer alias c = Ok opt -> m3det (cr_cell (pb_crystal pb)) <> 0 -> bands_fit_basis pb ->
  (pb_electrons pb mod 2 = pb_spin pb mod 2)%Z -> bands_hold (pb_method pb) (pb_electrons pb) (pb_spin pb) (pb_bands pb) ->
  fixed_occ (pb_method pb) -> leaves_constants opt -> pb_restricted pb = false ->
  nc_calc erfc pkg read nc us valence pp_local pp_nonlocal devices qr cqr xcd grad alias rnd rpw c = Ok out ->
  cell_integral (pb_vol pb) (returned out) = 2 * IZR (pb_electrons pb) /\
  channel_integral (pb_vol pb) (returned out) 0 = IZR (pb_electrons pb) /\ channel_integral (pb_vol pb) (returned out) 1 = IZR (pb_electrons pb).
Proof. intros PP Os erfc pkg read nc us valence pp_local pp_nonlocal devices qr cqr xcd grad alias rnd rpw c pb opt out. apply nc_double. Qed.
Print Assumptions C113_unrestricted_doubles.
Theorem C113_unrestricted_refuted : forall erfc pkg qr cqr grad, reduced_qr qr -> complex_qr cqr ->
  exists c pb out, nc_problem erfc pkg ex_ase ex_loader ex_loader (fun l => l) ex_loc ex_nl 2 c = Ok pb /\ bands_hold (pb_method pb) (pb_electrons pb) (pb_spin pb) (pb_bands pb) /\ bands_fit_basis pb /\
    m3det (cr_cell (pb_crystal pb)) <> 0 /\ (pb_electrons pb mod 2 = pb_spin pb mod 2)%Z /\
    nc_calc erfc pkg ex_ase ex_loader ex_loader (fun l => l) ex_loc ex_nl 2 qr cqr ex_xcd grad ex_alias ex_rnd ex_rpw c = Ok out /\ pb_electrons pb = 8%Z /\ cell_integral (pb_vol pb) (returned out) = 16.
Proof. exact ex_nc_double. Qed.
Print Assumptions C113_unrestricted_refuted.
Theorem C113_returns : forall (PP Os : Type) erfc pkg read (nc us : crystal -> string -> res PP) valence pp_local pp_nonlocal devices qr cqr xcd grad (alias : string -> option (cval -> list (string * cval) -> optax Os)) rnd rpw c pb opt,
  reduced_qr qr -> complex_qr cqr -> shape_ok rnd -> pair_shape_ok rpw -> on_grid pp_local pp_nonlocal ->
  nc_problem erfc pkg read nc us valence pp_local pp_nonlocal devices c = Ok pb -> create_optimizer alias c = Ok opt -> m3det (cr_cell (pb_crystal pb)) <> 0 -> bands_fit_basis pb ->
  (pb_electrons pb mod 2 = pb_spin pb mod 2)%Z -> bands_hold (pb_method pb) (pb_electrons pb) (pb_spin pb) (pb_bands pb) ->
  pb_method pb <> MIdempotent -> (pb_method pb = MSimplex -> (pb_bands pb mod pb_devices pb = 0)%nat) ->
  (fixed_occ (pb_method pb) -> leaves_constants opt) -> xc_returns xcd pb -> (1 <= pb_epoch pb)%nat ->
  exists out, nc_calc erfc pkg read nc us valence pp_local pp_nonlocal devices qr cqr xcd grad alias rnd rpw c = Ok out.
Proof. intros PP Os erfc pkg read nc us valence pp_local pp_nonlocal devices qr cqr xcd grad alias rnd rpw c pb opt. apply nc_returns. Qed.
Print Assumptions C113_returns.
(** The idempotent method never runs; simplex-projector needs the number of devices to divide the
    number of bands. *)
Theorem C113_placement_raises : forall (PP Os : Type) erfc pkg read (nc us : crystal -> string -> res PP) valence pp_local pp_nonlocal devices qr cqr xcd grad (alias : string -> option (cval -> list (string * cval) -> optax Os)) rnd rpw c pb,
  nc_problem erfc pkg read nc us valence pp_local pp_nonlocal devices c = Ok pb -> pb_method pb = MIdempotent \/ (pb_method pb = MSimplex /\ (pb_bands pb mod pb_devices pb <> 0)%nat) ->
  raises (nc_calc erfc pkg read nc us valence pp_local pp_nonlocal devices qr cqr xcd grad alias rnd rpw c).
Proof. intros PP Os erfc pkg read nc us valence pp_local pp_nonlocal devices qr cqr xcd grad alias rnd rpw c pb. apply nc_bad_placement. Qed.
Print Assumptions C113_placement_raises.
Theorem C113_few_waves_raise : forall (PP Os : Type) erfc pkg read (nc us : crystal -> string -> res PP) valence pp_local pp_nonlocal devices qr cqr xcd grad (alias : string -> option (cval -> list (string * cval) -> optax Os)) rnd rpw c pb,
  reduced_qr qr -> complex_qr cqr -> shape_ok rnd -> pair_shape_ok rpw ->
  nc_problem erfc pkg read nc us valence pp_local pp_nonlocal devices c = Ok pb -> (1 < length (mask_positions (pb_mask pb)) < pb_bands pb)%nat ->
  raises (nc_calc erfc pkg read nc us valence pp_local pp_nonlocal devices qr cqr xcd grad alias rnd rpw c).
Proof. intros PP Os erfc pkg read nc us valence pp_local pp_nonlocal devices qr cqr xcd grad alias rnd rpw c pb. apply nc_few_waves. Qed.
Print Assumptions C113_few_waves_raise.
Theorem C113_report : forall (PP Os : Type) erfc pkg read (nc us : crystal -> string -> res PP) valence pp_local pp_nonlocal devices qr cqr xcd grad (alias : string -> option (cval -> list (string * cval) -> optax Os)) rnd rpw c pb opt out,
  nc_problem erfc pkg read nc us valence pp_local pp_nonlocal devices c = Ok pb -> create_optimizer alias c = Ok opt -> nc_calc erfc pkg read nc us valence pp_local pp_nonlocal devices qr cqr xcd grad alias rnd rpw c = Ok out ->
  exists p0 w thr n e, let traj := run_traj pb (grad pb) opt p0 in nc_init rnd rpw pb = Ok p0 /\ pb_checker pb = new_checker w thr /\ (1 <= n <= pb_epoch pb)%nat /\ num_updates out = n /\
    get_density qr cqr pb (fst (traj n)) = Ok (returned out) /\ objective qr cqr xcd pb (fst (traj (n - 1)%nat)) = Ok e /\ logged_total out = e + pb_ewald pb /\
    (exists es, length es = n /\ (forall m, (m < n)%nat -> objective qr cqr xcd pb (fst (traj m)) = Ok (nth m es 0)) /\
       (forall m, (1 <= m < n)%nat -> ~ settled w thr (firstn m es)) /\ (logged_converged out = true <-> settled w thr es)) /\
    (logged_converged out = false -> n = pb_epoch pb).
Proof. intros PP Os erfc pkg read nc us valence pp_local pp_nonlocal devices qr cqr xcd grad alias rnd rpw c pb opt out. apply nc_report. Qed.
Print Assumptions C113_report.
Example C113_example : forall erfc pkg occ r, In occ ex_methods ->
  exists pb, nc_problem erfc pkg ex_ase ex_loader ex_loader (fun l => l) ex_loc ex_nl 2 (ex_drv occ r true 8) = Ok pb /\ m3det (cr_cell (pb_crystal pb)) <> 0 /\ bands_fit_basis pb /\
    (pb_electrons pb mod 2 = pb_spin pb mod 2)%Z /\ bands_hold (pb_method pb) (pb_electrons pb) (pb_spin pb) (pb_bands pb) /\ (pb_bands pb mod pb_devices pb = 0)%nat /\
    xc_returns (xc_density ex_lib (fun _ _ _ _ => Err ValueErr)) pb /\ (1 <= pb_epoch pb)%nat /\ pb_method pb = method_of_name occ /\ pb_restricted pb = r /\ pb_electrons pb = 8%Z /\ pb_spin pb = 2%Z.
Proof. exact ex_nc. Qed.
Example C113_example_grid : on_grid ex_loc ex_nl.
Proof. exact ex_on_grid. Qed.

(** C114: the command line. *)
Theorem C114_dispatch : forall mode file load d, main mode file load = Ok d <->
  exists c u, get_config (Some file) = Ok c /\ getattr c "use_pseudopotential" = Ok u /\
    ((mode = None \/ mode = Some "energy"%string) /\ d = (if truthy u then EnergyNormcons else EnergyAllElectrons) \/
     mode = Some "band"%string /\ d = (if truthy u then BandNormcons else BandAllElectrons)).
Proof. exact main_inv. Qed.
Print Assumptions C114_dispatch.
Theorem C114_load_ignored : forall mode file load load', main mode file load = main mode file load'.
Proof. exact main_load. Qed.
Print Assumptions C114_load_ignored.
Theorem C114_other_mode_rejected : forall mode file load, mode <> "energy"%string -> mode <> "band"%string -> main (Some mode) file load = Err SystemExitErr.
Proof. exact main_mode. Qed.
Print Assumptions C114_other_mode_rejected.
Example C114_example : main (Some "band"%string) (YMap (setattr default_config "use_pseudopotential" (VBool true))) None = Ok BandNormcons /\ main None (YMap default_config) None = Ok EnergyAllElectrons.
Proof. split; reflexivity. Qed.
