(** Vocabulary for the band-structure properties. *)
From Coq Require Import Reals Ascii String List Arith ZArith.
From Coquelicot Require Import Complex.
From Verif Require Import Base Sums Tensor DFT GridModel Lin3 VecModel PadModel PwModel EnergyModel BraketModel HamModel LocModel NlocModel CalcModel CalcSpec DrvModel DrvSpec BndModel EigSpec.
Import ListNotations.
Local Open Scope R_scope.

(** What LAPACK promises: the eigenvalues of a Hermitian matrix in ascending order. *)
Definition eigvalsh_ok (ev : nat -> (nat -> nat -> C) -> nat -> R) : Prop :=
  forall n H, hermitian n H -> spectrum n H (ev n H).
(** The orbitals of [c'] at the leading indices [lb' j] are combinations of the B orbitals of [c]
    at the leading indices [lb b], with the coefficients in column j of T. *)
Definition combines (ns : list nat) (B B' : nat) (c c' : tensor C) (lb lb' : nat -> list nat) (T : nat -> nat -> C) : Prop :=
  forall j g, (j < B')%nat -> inb g ns -> tget c' (lb' j ++ g) = sumC (seq 0 B) (fun b => tget c (lb b ++ g) * T b j)%C.
(** Entry of a tensor of matrices as a matrix. *)
Definition matrix_at (M : tensor C) (i : list nat) (a b : nat) : C := tget M (i ++ [a; b]).

(** The effective potential of the density of [bp] has [hk] channels on the grid. *)
Definition potential_channels (xcd : xcdens) (bp : band_problem) (hk : nat) : Prop :=
  exists v, effective_sum xcd (bp_dens bp) (cr_positions (bp_crystal bp)) (bp_charges bp) (bp_G bp) (bp_vol bp) (bp_xc bp) true = Ok v /\ tshape v = hk :: tshape (bp_G bp).
(** Grid and mask belong to the crystal. *)
Definition band_grids (bp : band_problem) : Prop :=
  exists n1 n2 n3, g_vectors (cr_cell (bp_crystal bp)) [n1; n2; n3] = Ok (bp_G bp) /\ tshape (bp_mask bp) = [n1; n2; n3].
Definition waves (bp : band_problem) : nat := length (mask_positions (bp_mask bp)).
(** The lowest eigenvalues of an n by n matrix bound B reported energies from below, and its
    highest ones from above. *)
Definition separated (n B : nat) (A : nat -> nat -> C) (e : nat -> R) : Prop :=
  forall lam, spectrum n A lam -> forall b, (b < B)%nat -> lam b <= e b <= lam (n - B + b)%nat.
(** The Hamiltonian of the whole plane-wave basis at the k-point k: jrystal.hamiltonian's
    hamiltonian_matrix_basis with the same density. *)
Definition basis_hamiltonian (xcd : xcdens) (bp : band_problem) (k : v3) : res (tensor C) :=
  hamiltonian_matrix_basis xcd (bp_mask bp) (cr_positions (bp_crystal bp)) (bp_charges bp) (bp_dens bp) (bp_G bp) [k] (bp_vol bp) (bp_xc bp) true.
Definition band_shape (bp : band_problem) (sp : nat) (p : bparams) : Prop :=
  tshape (fst p) = [sp; 1; waves bp; bp_bands bp]%nat /\ tshape (snd p) = [sp; 1; waves bp; bp_bands bp]%nat.
(** [p] are the parameters with which point i of the path is solved: the path is cut into D equal
    blocks, one per device, and each block is run by warm starts from the initial parameters. *)
Definition solved_with {Os} (step : bparams -> Os -> v3 -> bparams * Os) (bp : band_problem) (D : nat) (po : bparams * Os) (i : nat) (p : bparams) : Prop :=
  exists n d j, (length (bp_path bp) = D * n)%nat /\ (d < D)%nat /\ (j < n)%nat /\ i = (d * n + j)%nat /\
    p = fst (warm_start step (bp_first bp) (bp_tune bp) (firstn n (skipn (d * n) (bp_path bp))) po j).
(** ASE's bandpath returns as many points as asked for. *)
Definition path_ok (bandpath : m3 -> cval -> nat -> list v3) : Prop := forall cell special n, length (bandpath cell special n) = n.
(** Coefficients of the plane waves of a mask, one band each, at one k-point. *)
Definition plane_waves (mask : tensor bool) : tensor C :=
  let n := length (mask_positions mask) in
  mkT ([1; 1; n]%nat ++ tshape mask) (fun i => if list_eq_dec Nat.eq_dec (skipn 3 i) (nth (nth 2 i 0%nat) (mask_positions mask) []) then RtoC 1 else RtoC 0).
(** The norm-conserving Hamiltonian between all plane waves of the mask at the k-point k. *)
Definition nc_basis_hamiltonian (xcd : xcdens) (bp : band_problem) (V nl : tensor C) (k : v3) : res (tensor C) :=
  nl_hamiltonian_matrix xcd (plane_waves (bp_mask bp)) (bp_dens bp) V nl (bp_G bp) [k] (bp_vol bp) (bp_xc bp) true.
(** The exchange-correlation potential of the density of [bp] has [hk] channels on the grid. *)
Definition xc_channels (xcd : xcdens) (bp : band_problem) (hk : nat) : Prop :=
  exists v, xcd (bp_dens bp) (bp_G bp) true (bp_xc bp) = Ok v /\ tshape v = hk :: tshape (bp_G bp).
(** Kinetic, local and nonlocal pseudopotential energy of the bands of [c] at the k-point k, one
    electron in each. *)
Definition one_body (c V nl : tensor C) (G : tensor v3) (k : v3) (vol e : R) : Prop :=
  exists occ D kin loc non, tshape occ = firstn 3 (tshape c) /\ (forall i, tget occ i = 1) /\
    e_kinetic G [k] c (Some occ) = Ok kin /\ density_grid_reciprocal c vol (Some occ) = Ok D /\ energy_local D V vol = Ok loc /\ energy_nonlocal c nl vol (Some occ) = Ok non /\ e = tget kin [] + loc + non.
(** Matrix between plane waves i and j of the Hamiltonian of channel h of the effective potential v:
    kinetic energy on the diagonal, Fourier coefficients of the potential. *)
Definition spin_hamiltonian (bp : band_problem) (v : tensor C) (h : nat) (k : v3) (i j : nat) : C :=
  let ns := tshape (bp_G bp) in let g m := nth m (mask_positions (bp_mask bp)) [] in
  ((if (i =? j)%nat then RtoC (let q := vadd (tget (bp_G bp) (g i)) k in dot q q / 2) else RtoC 0)
   + RtoC (/ INR (nprod ns)) * sumC (indices ns) (fun x => RtoC (Re (tget v (h :: x))) * cis (- (2 * PI * phase ns (zsub (zs (g i)) (zs (g j))) (zs x)))%R))%C.
Definition effective_potential (xcd : xcdens) (bp : band_problem) : res (tensor C) :=
  effective_sum xcd (bp_dens bp) (cr_positions (bp_crystal bp)) (bp_charges bp) (bp_G bp) (bp_vol bp) (bp_xc bp) true.
(** The remaining settings of a band-structure run: the optimisation steps at the first point of the
    path and at the others, the points asked for, and the parallel flag. *)
Definition reads_band_settings (c : cfg) (bp : band_problem) : Prop :=
  (exists n, reads c "band_structure_epoch" cfg_int n /\ bp_first bp = Z.to_nat n) /\
  (exists n, reads c "k_path_fine_tuning_epoch" cfg_int n /\ bp_tune bp = Z.to_nat n) /\
  (exists n, reads c "num_kpoints" cfg_int n /\ bp_kpts bp = Z.to_nat n) /\
  (exists v, getattr c "parallel_over_k_path" = Ok v /\ bp_parallel bp = truthy v).
