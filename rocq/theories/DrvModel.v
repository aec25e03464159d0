(** Model of the ground-state drivers jrystal/calc/calc_ground_state_energy_all_electrons.py
    ("AE" below) and calc_ground_state_energy_normcons.py ("NC"): the objective that is
    minimised, the parameters, the loop with its exceptions, and the returned density.
    Also opt_utils.py set_env_params, convergence.py create_convergence_checker and the
    dispatch of main.py. *)
From Coq Require Import Reals Ascii String List Arith ZArith Bool Lia.
From Coquelicot Require Import Complex.
From Verif Require Import Base Sums Tensor Lin3 VecModel GridModel OccModel PwModel EwaldModel EnergyModel BraketModel LocModel NlocModel CalcModel.
Import ListNotations.
Local Open Scope R_scope.

(** The parameters being optimised: {"pw": {w_re, w_im}, "occ": ...} (AE 169, NC 222).  For the
    idempotent method the occ leaves are the w_re entries; the w_im entries there are the
    constant 0. and never read. *)
Record params := Params { p_re : tensor R; p_im : tensor R; p_occ : occ_params }.

(** What [calc] computes from the configuration before the optimisation starts.  [pb_ions] is
    None for all electrons; for pseudopotentials it holds potential_loc and potential_nl.
    [pb_init_restricted] is the spin_restricted argument of occupation.param_init. *)
Record problem := Problem {
  pb_crystal : crystal; pb_G : tensor v3; pb_k : list v3; pb_mask : tensor bool;
  pb_electrons : Z; pb_bands : nat; pb_method : occ_method; pb_restricted : bool; pb_init_restricted : bool;
  pb_xc : string; pb_eps : R; pb_ewald : R; pb_smearing : R; pb_epoch : nat; pb_checker : checker;
  pb_ions : option (tensor C * tensor C); pb_devices : nat }.
Definition pb_vol (pb : problem) : R := volume (cr_cell (pb_crystal pb)).
Definition pb_spin (pb : problem) : Z := cr_spin (pb_crystal pb).

(** occupation.py 248-258 and 269-278: the method a name selects there. *)
Definition method_of_name (s : string) : occ_method :=
  if String.eqb s "idempotent" then MIdempotent
  else if String.eqb s "uniform" then MUniform
  else if String.eqb s "gamma" then MGamma
  else if String.eqb s "simplex-projector" then MSimplex
  else MOther.

Definition cfg_int (v : cval) : res Z :=
  match v with VInt z => Ok z | VBool b => Ok (if b then 1 else 0)%Z | _ => Err TypeErr end.
Definition cfg_str (v : cval) : res string := match v with VStr s => Ok s | _ => Err TypeErr end.

(** opt_utils.py 44-61, [set_env_params]: the environment and jax settings it changes are not
    observable here, the configuration entries it reads are. *)
Definition set_env_params (c : cfg) : res unit :=
  do _ <- getattr c "jax_debug_nans"; do _ <- getattr c "verbose"; do _ <- getattr c "jax_enable_x64"; Ok tt.

(** convergence.py 6-10, [create_convergence_checker].  A window that is not positive never
    reports convergence, like an empty one. *)
Definition create_convergence_checker (c : cfg) : res checker :=
  do w <- getattr c "convergence_window_size"; do w <- cfg_int w;
  do t <- getattr c "convergence_condition"; do t <- cfg_real t;
  Ok (new_checker (Z.to_nat w) t).

(** AE 73-106 and NC 78-120: set up a problem.  [electrons] and [ions] are the parts in which the
    drivers differ.  The k-points are placed on a mesh of [util] devices, which must divide
    their number. *)
Definition setup (erfc : R -> R) (pkg : string) (read : string -> res ase_atoms) (devices : nat) (c : cfg)
  (electrons : crystal -> res Z) (ions : crystal -> tensor v3 -> list v3 -> R -> res (option (tensor C * tensor C))) (init_restricted : bool -> bool)
  : res problem :=
  do _ <- set_env_params c;
  do _ <- getattr c "seed";
  do sm <- getattr c "smearing"; do sm <- cfg_real sm;
  do cr <- create_crystal pkg read c;
  do N <- electrons cr;
  do eps <- getattr c "eps"; do eps <- cfg_real eps;
  do par <- getattr c "parallel_over_k_mesh";
  let util := if truthy par then devices else 1%nat in
  do grids <- create_grids pkg read c;
  let '(g, _, k) := grids in
  do eb <- getattr c "empty_bands"; do eb <- cfg_int eb;
  let B := num_bands N eb in
  do xc <- getattr c "xc"; do xc <- cfg_str xc;
  do occ <- getattr c "occupation"; do occ <- cfg_str occ;
  do mask <- create_freq_mask pkg read c;
  do ew <- get_ewald_coulomb_repulsion erfc pkg read c;
  do ck <- create_convergence_checker c;
  do io <- ions cr g k (volume (cr_cell cr));
  do _ <- if (length k mod util =? 0)%nat then Ok tt else Err ValueErr;
  do r <- getattr c "spin_restricted";
  do ep <- getattr c "epoch"; do ep <- cfg_int ep;
  if (B <? 0)%Z then Err ValueErr else
  Ok (Problem cr g k mask N (Z.to_nat B) (method_of_name occ) (truthy r) (init_restricted (truthy r)) xc eps ew sm (Z.to_nat ep) ck io util).

(** AE 73-106: all electrons. *)
Definition ae_problem (erfc : R -> R) (pkg : string) (read : string -> res ase_atoms) (devices : nat) (c : cfg) : res problem :=
  setup erfc pkg read devices c (fun cr => Ok (num_electron cr)) (fun _ _ _ _ => Ok None) (fun r => r).

(** NC 78-162: valence electrons and the two potentials; [pp_local] and [pp_nonlocal] are
    normcons.potential_local_reciprocal and potential_nonlocal_psi_reciprocal (with
    pre_calc_beta_sbt) on the data of the pseudopotential (LocModel, NlocModel).  param_init is
    called without spin_restricted (NC 218-220), so its default True is used. *)
Definition nc_problem {PP} (erfc : R -> R) (pkg : string) (read : string -> res ase_atoms) (nc us : crystal -> string -> res PP)
  (valence : PP -> list Z) (pp_local : PP -> crystal -> tensor v3 -> R -> res (tensor C)) (pp_nonlocal : PP -> crystal -> tensor v3 -> list v3 -> res (tensor C))
  (devices : nat) (c : cfg) : res problem :=
  setup erfc pkg read devices c
    (fun _ => do pp <- create_pseudopotential pkg read nc us c; Ok (fold_right Z.add 0%Z (valence pp)))
    (fun cr g k vol => do pp <- create_pseudopotential pkg read nc us c;
       do V <- pp_local pp cr g vol; do psi <- pp_nonlocal pp cr g k; Ok (Some (V, psi)))
    (fun _ => true).

Section Objective.
  (** the two QR decompositions and the exchange-correlation density *)
  Variables (qr : tensor R -> tensor R) (cqr : tensor C -> tensor C) (xcd : xcdens) (pb : problem).

  (** AE 109-117, NC 165-173, [get_occupation]. *)
  Definition get_occupation (p : params) : res (tensor R) :=
    occupation qr (p_occ p) (length (pb_k pb)) (pb_electrons pb) (pb_spin pb) (pb_method pb) (pb_restricted pb).
  (** pw.coeff(params_pw, freq_mask). *)
  Definition get_coeff (p : params) : res (tensor C) := pw_coeff cqr (p_re p) (p_im p) (pb_mask pb).

  (** AE 125-131 and NC 181-187: the energy of the electrons in the field of the ions. *)
  Definition ion_energy (c : tensor C) (occ : tensor R) (D : tensor C) : res R :=
    match pb_ions pb with
    | None => e_external D (cr_positions (pb_crystal pb)) (map IZR (cr_charges (pb_crystal pb))) (pb_G pb) (pb_vol pb)
    | Some (V, psi) =>
        do el <- energy_local D V (pb_vol pb);
        do en <- energy_nonlocal c psi (pb_vol pb) (Some occ);
        Ok (el + en)
    end.

  (** AE 119-137, NC 175-192, [total_energy]. *)
  Definition objective (p : params) : res R :=
    do c <- get_coeff p;
    do occ <- get_occupation p;
    do d <- density_grid c (pb_vol pb) (Some occ);
    do D <- density_grid_reciprocal c (pb_vol pb) (Some occ);
    do ek <- e_kinetic (pb_G pb) (pb_k pb) c (Some occ);
    do eh <- e_hartree D (pb_G pb) (pb_vol pb) false;
    do ei <- ion_energy c occ D;
    do ex <- e_xc xcd d (pb_G pb) (pb_vol pb) (pb_xc pb) false;
    Ok (tget ek [] + eh + ei + ex).

  (** AE 139-141, NC 194-196, [get_entropy]. *)
  Definition get_entropy (p : params) : res R := do occ <- get_occupation p; fermi_dirac occ (pb_eps pb).

  (** AE 143-147, NC 198-206, [free_energy]: free energy, total energy, entropy. *)
  Definition free_energy_of (T : R) (p : params) : res (R * (R * R)) :=
    do e <- objective p; do h <- get_entropy p; Ok (e - T * h, (e, h)).

  (** The density of some parameters (AE 228-230, NC 285-287). *)
  Definition get_density (p : params) : res (tensor R) :=
    do c <- get_coeff p; do occ <- get_occupation p; density_grid c (pb_vol pb) (Some occ).

  (** jax.lax.stop_gradient in occupation.py 271-274: for these methods the gradient with
      respect to the occupation parameters is zero. *)
  Definition zero_like (t : tensor R) : tensor R := mkT (tshape t) (fun _ => 0).
  Definition stop_gradient (m : occ_method) (g : params) : params :=
    match m with
    | MUniform | MGamma =>
        Params (p_re g) (p_im g) (match p_occ g with PArr o => PArr (zero_like o) | PDict u d => PDict (zero_like u) (zero_like d) end)
    | _ => g
    end.

  (** optax.apply_updates: leafwise p + u, where the updates have the structure and the shapes of
      the parameters. *)
  Definition add_leaf (t u : tensor R) : tensor R := mkT (tshape t) (fun i => tget t i + tget u i).
  Definition apply_updates (p u : params) : params :=
    Params (add_leaf (p_re p) (p_re u)) (add_leaf (p_im p) (p_im u))
      (match p_occ p, p_occ u with
       | PArr o, PArr o' => PArr (add_leaf o o')
       | PDict a b, PDict a' b' => PDict (add_leaf a a') (add_leaf b b')
       | q, _ => q
       end).

  Context {Os : Type}.
  (** jax.grad of the free energy (before stop_gradient is taken into account) and the optax
      optimiser: optimizer.init and optimizer.update. *)
  Variables (raw_grad : R -> params -> params) (opt_init : params -> Os) (optimizer : params -> Os -> params * Os).

  (** AE 175-181, NC 228-236, [update]. *)
  Definition drv_update (p : params) (o : Os) (T : R) : res (params * Os * R * (R * R)) :=
    do f <- free_energy_of T p;
    let (u, o') := optimizer (stop_gradient (pb_method pb) (raw_grad T p)) o in
    Ok (apply_updates p u, o', fst f, snd f).

  (** AE 204-220, NC 259-277: for i in range(epoch), with break. *)
  Fixpoint drv_loop (is : list nat) (s : loop_state (P := params) (Os := Os)) : res (loop_state (P := params) (Os := Os)) :=
    match is with
    | [] => Ok s
    | i :: is' =>
        do u <- drv_update (ls_params s) (ls_opt s) (temperature (pb_smearing pb) (pb_epoch pb) i);
        let '(p, o, _, (etot, _)) := u in
        let (ck, conv) := check (ls_checker s) etot in
        let s' := LoopState p o (Some etot) ck conv (S (ls_steps s)) in
        if conv then Ok s' else drv_loop is' s'
    end.

  (** AE 204-247, NC 259-308: the loop, the final report (which evaluates the terms of the
      objective once more) and [return density]. *)
  Definition drv_run (p0 : params) : res (run_output (D := tensor R)) :=
    do s <- drv_loop (seq 0 (pb_epoch pb)) (LoopState p0 (opt_init p0) None (pb_checker pb) false 0);
    do _ <- objective (ls_params s);
    do d <- get_density (ls_params s);
    match ls_etot s with
    | None => Err UnboundLocalErr
    | Some etot => Ok (RunOutput d (etot + pb_ewald pb) (ls_converged s) (ls_steps s))
    end.
End Objective.

(** AE 151-169: the initial parameters.  [rnd_occ] and [rnd_pw] are the random arrays. *)
Definition ae_init (rnd_occ : list nat -> tensor R) (rnd_pw : list nat -> tensor R * tensor R) (pb : problem) : res params :=
  let w := pw_param_init rnd_pw (pb_bands pb) (length (pb_k pb)) (pb_mask pb) (pb_restricted pb) in
  do o <- occ_param_init rnd_occ (pb_bands pb) (pb_electrons pb) (length (pb_k pb)) (pb_spin pb) (pb_method pb) (pb_init_restricted pb);
  Ok (Params (fst w) (snd w) o).

(** NC 210-222: additionally jax.device_put(params_occ, sharding) with PartitionSpec('s', 'k')
    on a 1 x util mesh.  Every leaf needs two axes, the second a multiple of util; the leaf
    w_im = 0. of the idempotent parameters (unitary_module.py 116) has none. *)
Definition place_occ (util : nat) (m : occ_method) (o : occ_params) : res unit :=
  let ok t := (2 <=? ndim t)%nat && (nth 1 (tshape t) 0 mod util =? 0)%nat in
  match m, o with
  | MIdempotent, _ => Err ValueErr
  | _, PArr t => if ok t then Ok tt else Err ValueErr
  | _, PDict u d => if ok u && ok d then Ok tt else Err ValueErr
  end.
Definition nc_init (rnd_occ : list nat -> tensor R) (rnd_pw : list nat -> tensor R * tensor R) (pb : problem) : res params :=
  do p <- ae_init rnd_occ rnd_pw pb;
  do _ <- place_occ (pb_devices pb) (pb_method pb) (p_occ p);
  Ok p.

(** An optax optimiser on these parameters: init and update. *)
Definition optax (Os : Type) := ((params -> Os) * (params -> Os -> params * Os))%type.

(** AE 63-247, [calc].  [grad pb] is the gradient of the free energy of the problem. *)
Definition ae_calc {Os} (erfc : R -> R) (pkg : string) (read : string -> res ase_atoms) (devices : nat)
  (qr : tensor R -> tensor R) (cqr : tensor C -> tensor C) (xcd : xcdens) (grad : problem -> R -> params -> params)
  (alias : string -> option (cval -> list (string * cval) -> optax Os))
  (rnd_occ : list nat -> tensor R) (rnd_pw : list nat -> tensor R * tensor R) (c : cfg) : res (run_output (D := tensor R)) :=
  do pb <- ae_problem erfc pkg read devices c;
  do opt <- create_optimizer alias c;
  do p0 <- ae_init rnd_occ rnd_pw pb;
  drv_run qr cqr xcd pb (grad pb) (fst opt) (snd opt) p0.

(** NC 67-308, [calc]. *)
Definition nc_calc {Os PP} (erfc : R -> R) (pkg : string) (read : string -> res ase_atoms) (nc us : crystal -> string -> res PP)
  (valence : PP -> list Z) (pp_local : PP -> crystal -> tensor v3 -> R -> res (tensor C)) (pp_nonlocal : PP -> crystal -> tensor v3 -> list v3 -> res (tensor C))
  (devices : nat) (qr : tensor R -> tensor R) (cqr : tensor C -> tensor C) (xcd : xcdens) (grad : problem -> R -> params -> params)
  (alias : string -> option (cval -> list (string * cval) -> optax Os))
  (rnd_occ : list nat -> tensor R) (rnd_pw : list nat -> tensor R * tensor R) (c : cfg) : res (run_output (D := tensor R)) :=
  do pb <- nc_problem erfc pkg read nc us valence pp_local pp_nonlocal devices c;
  do opt <- create_optimizer alias c;
  do p0 <- nc_init rnd_occ rnd_pw pb;
  drv_run qr cqr xcd pb (grad pb) (fst opt) (snd opt) p0.

(** main.py 44-54: the driver a mode and a configuration select. *)
Inductive driver := EnergyNormcons | EnergyAllElectrons | BandNormcons | BandAllElectrons.
Definition dispatch (mode : string) (c : cfg) : res (option driver) :=
  if String.eqb mode "energy" then
    do u <- getattr c "use_pseudopotential"; Ok (Some (if truthy u then EnergyNormcons else EnergyAllElectrons))
  else if String.eqb mode "band" then
    do u <- getattr c "use_pseudopotential"; Ok (Some (if truthy u then BandNormcons else BandAllElectrons))
  else Ok None.
(** main.py 6-54, [main]: argparse rejects a mode outside the choices; [file] is the named file,
    by default config.yaml; --load is parsed and not used. *)
Definition main (mode : option string) (file : yaml_file) (load : option string) : res driver :=
  let mode := match mode with Some m => m | None => "energy"%string end in
  if negb (String.eqb mode "energy" || String.eqb mode "band") then Err SystemExitErr else
  do c <- get_config (Some file);
  do d <- dispatch mode c;
  match d with Some d => Ok d | None => Err SystemExitErr end.
