(** Model of the band-structure drivers jrystal/calc/calc_band_structure_all_electrons.py ("AE"
    below) and calc_band_structure_normcons.py ("NC"): the objective that is minimised at a
    k-point, the eigenvalues that are reported there, and the run along the path.  The order in
    which k-points are visited and the layout of the output are in CalcModel (Section Band). *)
From Coq Require Import Reals Ascii String List Arith ZArith Bool.
From Coquelicot Require Import Complex.
From Verif Require Import Base Sums Tensor Lin3 VecModel GridModel PadModel OccModel PwModel EwaldModel EnergyModel BraketModel HamModel LocModel NlocModel CalcModel DrvModel.
Import ListNotations.
Local Open Scope R_scope.

(** jnp.linalg.eigvalsh of the last two axes.  [ev n H] are the eigenvalues LAPACK finds for an
    n by n Hermitian matrix; jax first replaces the matrix by its Hermitian part
    (symmetrize_input=True). *)
Definition hermitian_part (H : nat -> nat -> C) (i j : nat) : C := (RtoC (/ 2) * (H i j + Cconj (H j i)))%C.
Definition jnp_eigvalsh (ev : nat -> (nat -> nat -> C) -> nat -> R) (M : tensor C) : res (tensor R) :=
  match rev (tshape M) with
  | B :: B' :: bs =>
      if negb (B =? B')%nat then Err ValueErr else
      Ok (mkT (rev bs ++ [B]) (fun i => ev B (hermitian_part (fun x y => tget M (removelast i ++ [x; y]))) (last i 0%nat)))
  | _ => Err ValueErr
  end.

(** What the drivers compute from the configuration before the loop over the path. *)
Record band_problem := BandProblem {
  bp_crystal : crystal; bp_G : tensor v3; bp_mask : tensor bool; bp_xc : string; bp_dens : tensor R;
  bp_path : list v3; bp_bands : nat; bp_restricted : bool; bp_first : nat; bp_tune : nat; bp_kpts : nat; bp_parallel : bool }.
Definition bp_vol (bp : band_problem) : R := volume (cr_cell (bp_crystal bp)).
Definition bp_charges (bp : band_problem) : list R := map IZR (cr_charges (bp_crystal bp)).

(** The parameters of the bands: {w_re, w_im} (AE 93-95, NC 166), and an optimiser on them. *)
Definition bparams := (tensor R * tensor R)%type.
Definition boptax (Os : Type) := ((bparams -> Os) * (bparams -> Os -> bparams * Os))%type.
(** AE 100-108, NC 171-179, [update]: value_and_grad, optimizer.update, apply_updates; [grad p k] is
    the gradient of the objective at the k-point k. *)
Definition band_step {Os} (grad : bparams -> v3 -> bparams) (optimizer : bparams -> Os -> bparams * Os) (p : bparams) (o : Os) (k : v3) : bparams * Os :=
  let (u, o') := optimizer (grad p k) o in
  ((add_leaf (fst p) (fst u), add_leaf (snd p) (snd u)), o').

(** A jitted function has the shape found when it is traced. *)
Definition static (sh : list nat) (f : bparams -> v3 -> res (tensor R)) (p : bparams) (k : v3) : tensor R :=
  mkT sh (fun i => match f p k with Ok t => tget t i | Err _ => 0 end).

Section Bands.
  Variables (cqr : tensor C -> tensor C) (xcd : xcdens) (ev : nat -> (nat -> nat -> C) -> nat -> R) (bp : band_problem).
  (** pw.coeff(params_pw_band, freq_mask). *)
  Definition band_coeff (p : bparams) : res (tensor C) := pw_coeff cqr (fst p) (snd p) (bp_mask bp).

  (** AE 75-88, [hamiltonian_trace]. *)
  Definition ae_trace (p : bparams) (k : v3) : res R :=
    do c <- band_coeff p;
    do t <- hamiltonian_matrix_trace xcd c (cr_positions (bp_crystal bp)) (bp_charges bp) (bp_dens bp) (bp_G bp) [k] (bp_vol bp) (bp_xc bp) true false;
    Ok (sumR (indices (tshape t)) (tget t)).
  (** AE 156-169, [eig_fn]. *)
  Definition ae_eig (p : bparams) (k : v3) : res (tensor R) :=
    do c <- band_coeff p;
    do M <- hamiltonian_matrix xcd c (cr_positions (bp_crystal bp)) (bp_charges bp) (bp_dens bp) (bp_G bp) [k] (bp_vol bp) (bp_xc bp) true;
    jnp_eigvalsh ev M.

  (** NC 149-161, [hamiltonian_trace]: [V] is potential_loc, [psi k] the projectors at k (NC 137-147,
      get_potential_nl, with the radial parts of that point of the path, NC 134-135). *)
  Variables (V : tensor C) (psi : v3 -> res (tensor C)).
  Definition nc_trace (p : bparams) (k : v3) : res R :=
    do c <- band_coeff p; do nl <- psi k;
    nl_hamiltonian_trace xcd c (bp_dens bp) V nl (bp_G bp) [k] (bp_vol bp) (bp_xc bp) true.
  (** NC 232-245, [eig_fn]: hamil_matrix[0] drops the spin axis. *)
  Definition nc_eig (p : bparams) (k : v3) : res (tensor R) :=
    do c <- band_coeff p; do nl <- psi k;
    do M <- nl_hamiltonian_matrix xcd c (bp_dens bp) V nl (bp_G bp) [k] (bp_vol bp) (bp_xc bp) true;
    match tshape M with
    | 0%nat :: _ | [] => Err ValueErr
    | _ :: sh => jnp_eigvalsh ev (mkT sh (fun i => tget M (0%nat :: i)))
    end.
End Bands.

(** AE 46-66 and 92-95, NC 83-103 and 164-166.  [bandpath] is ASE's Cell.bandpath; [density] runs
    the ground-state driver; [electrons] and [restricted] are the parts in which the drivers
    differ. *)
Definition band_setup (pkg : string) (read : string -> res ase_atoms) (bandpath : m3 -> cval -> nat -> list v3) (c : cfg)
  (electrons : crystal -> res Z) (density : res (tensor R)) (restricted : cval -> bool) : res band_problem :=
  do _ <- set_env_params c;
  do _ <- getattr c "seed";
  do cr <- create_crystal pkg read c;
  do N <- electrons cr;
  do grids <- create_grids pkg read c;
  let '(g, _, _) := grids in
  do mask <- create_freq_mask pkg read c;
  do xc <- getattr c "xc"; do xc <- cfg_str xc;
  do special <- getattr c "k_path_special_points";
  do num <- getattr c "num_kpoints"; do num <- cfg_int num;
  let path := get_k_path (fun cell _ n => bandpath cell special n) (cr_cell cr) EmptyString (Z.to_nat num) false in
  do par <- getattr c "parallel_over_k_path";
  do d <- density;
  do eb <- getattr c "band_structure_empty_bands"; do eb <- cfg_int eb;
  let B := num_bands N eb in
  do r <- getattr c "spin_restricted";
  do e1 <- getattr c "band_structure_epoch"; do e1 <- cfg_int e1;
  do e2 <- getattr c "k_path_fine_tuning_epoch"; do e2 <- cfg_int e2;
  if (B <? 0)%Z then Err ValueErr else
  Ok (BandProblem cr g mask xc d path (Z.to_nat B) (restricted r) (Z.to_nat e1) (Z.to_nat e2) (Z.to_nat num) (truthy par)).

(** AE 37-209, [calc], and the array it saves.  [gs] is the ground-state driver
    (calc_ground_state_energy_all_electrons.calc) on the same configuration; [bgrad bp] the
    gradient of the objective. *)
Definition ae_band_problem (pkg : string) (read : string -> res ase_atoms) (bandpath : m3 -> cval -> nat -> list v3)
  (gs : cfg -> res (run_output (D := tensor R))) (c : cfg) : res band_problem :=
  band_setup pkg read bandpath c (fun cr => Ok (num_electron cr)) (do out <- gs c; Ok (returned out)) truthy.
(** AE 93-95, [param_init]. *)
Definition ae_band_init (rnd : list nat -> tensor R * tensor R) (bp : band_problem) : bparams :=
  pw_param_init rnd (bp_bands bp) 1 (bp_mask bp) (bp_restricted bp).
Definition ae_band {Os} (pkg : string) (read : string -> res ase_atoms) (devices : nat) (bandpath : m3 -> cval -> nat -> list v3)
  (gs : cfg -> res (run_output (D := tensor R))) (cqr : tensor C -> tensor C) (xcd : xcdens) (ev : nat -> (nat -> nat -> C) -> nat -> R)
  (bgrad : band_problem -> bparams -> v3 -> bparams) (alias : string -> option (cval -> list (string * cval) -> boptax Os))
  (rnd : list nat -> tensor R * tensor R) (c : cfg) : res (tensor R) :=
  do bp <- ae_band_problem pkg read bandpath gs c;
  do opt <- create_optimizer alias c;
  let p0 := ae_band_init rnd bp in
  let k0 := nth 0 (bp_path bp) vzero in
  do _ <- ae_trace cqr xcd bp p0 k0;
  do e0 <- ae_eig cqr xcd ev bp p0 k0;
  band_all_electrons (band_step (bgrad bp) (snd opt)) (static (tshape e0) (ae_eig cqr xcd ev bp)) (bp_first bp) (bp_tune bp)
    devices (bp_parallel bp) (bp_kpts bp) (bp_bands bp) (bp_path bp) (p0, fst opt p0).

(** NC 66-299, [calc], and the array it saves.  [pp_path pp cr G path k] are the projectors at the
    point k of the path (potential_nonlocal_psi_reciprocal with the radial transforms of
    pre_calc_beta_sbt on that path).  With a ground-state output given, ground_state_density_grid
    is never assigned: NameError. *)
Definition nc_band_problem {PP} (pkg : string) (read : string -> res ase_atoms) (nc us : crystal -> string -> res PP) (valence : PP -> list Z)
  (bandpath : m3 -> cval -> nat -> list v3) (gs : cfg -> res (run_output (D := tensor R))) (c : cfg) : res band_problem :=
  band_setup pkg read bandpath c (fun _ => do pp <- create_pseudopotential pkg read nc us c; Ok (fold_right Z.add 0%Z (valence pp)))
    (do out <- gs c; Ok (returned out)) (fun _ => true).
(** NC 166, [param_init] without spin_restricted: its default is True. *)
Definition nc_band_init (rnd : list nat -> tensor R * tensor R) (bp : band_problem) : bparams :=
  pw_param_init rnd (bp_bands bp) 1 (bp_mask bp) true.
Definition nc_band {Os PP GS} (pkg : string) (read : string -> res ase_atoms) (nc us : crystal -> string -> res PP) (valence : PP -> list Z)
  (pp_local : PP -> crystal -> tensor v3 -> R -> res (tensor C)) (pp_path : PP -> crystal -> tensor v3 -> list v3 -> v3 -> res (tensor C))
  (devices : nat) (bandpath : m3 -> cval -> nat -> list v3) (given : option GS)
  (gs : cfg -> res (run_output (D := tensor R))) (cqr : tensor C -> tensor C) (xcd : xcdens) (ev : nat -> (nat -> nat -> C) -> nat -> R)
  (bgrad : band_problem -> bparams -> v3 -> bparams) (alias : string -> option (cval -> list (string * cval) -> boptax Os))
  (rnd : list nat -> tensor R * tensor R) (c : cfg) : res (tensor R) :=
  match given with
  | Some _ => Err NameErr
  | None =>
      do bp <- nc_band_problem pkg read nc us valence bandpath gs c;
      do pp <- create_pseudopotential pkg read nc us c;
      do V <- pp_local pp (bp_crystal bp) (bp_G bp) (bp_vol bp);
      let psi := pp_path pp (bp_crystal bp) (bp_G bp) (bp_path bp) in
      do opt <- create_optimizer alias c;
      let p0 := nc_band_init rnd bp in
      let k0 := nth 0 (bp_path bp) vzero in
      do _ <- nc_trace cqr xcd bp V psi p0 k0;
      do e0 <- nc_eig cqr xcd ev bp V psi p0 k0;
      band_normcons (band_step (bgrad bp) (snd opt)) (static (tshape e0) (nc_eig cqr xcd ev bp V psi)) (bp_first bp) (bp_tune bp)
        (@None GS) devices (bp_parallel bp) (bp_path bp) (p0, fst opt p0)
  end.
