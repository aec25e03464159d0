(** Raising the cutoff energy never raises the energy a calculation can reach (C160). *)
From Coq Require Import Reals.
From Coquelicot Require Import Coquelicot.
From Coq Require Import Ascii String List Arith ZArith Bool.
From Verif Require Import Base Sums Tensor Lin3 VecModel OccModel OccSpec PwSpec XcModel EnergyModel EnergySpec CalcModel DrvModel DrvSpec DrvProofs6 CalcProofs3 ReachSpec ReachProofs2 AttProofs5 BoundProofs2 RaiseSpec RaiseProofs RaiseProofs2.
Import ListNotations.
Local Open Scope R_scope.

(** An all-electron calculation with a higher cutoff is set up whenever the one with the lower
    cutoff is.  It differs in nothing but plane waves added to the basis.  Whatever occupations,
    entropy and energy parameters of the first have, some parameters of the second have too, so
    what bounds the energies of the second from below bounds those of the first. *)
Theorem C160_all_electron : forall erfc pkg read devices rnd rpw c c' pb p0 qr cqr xcd, reduced_qr qr -> complex_qr cqr -> qr_factors cqr -> shape_ok rnd -> pair_shape_ok rpw -> raised_cutoff c c' ->
  ae_problem erfc pkg read devices c = Ok pb -> ae_init rnd rpw pb = Ok p0 -> bands_hold (pb_method pb) (pb_electrons pb) (pb_spin pb) (pb_bands pb) -> bands_fit_basis pb -> xc_local xcd false (pb_xc pb) ->
  exists pb' p0', ae_problem erfc pkg read devices c' = Ok pb' /\ ae_init rnd rpw pb' = Ok p0' /\ mask_within (pb_mask pb) (pb_mask pb') /\ pb' = with_mask pb (pb_mask pb') /\
    (forall p, reachable pb p0 p -> exists p', reachable pb' p0' p' /\ get_occupation qr pb' p' = get_occupation qr pb p /\ get_entropy qr pb' p' = get_entropy qr pb p /\
      forall e, objective qr cqr xcd pb' p' = Ok e <-> objective qr cqr xcd pb p = Ok e) /\
    (forall a, (forall p' e, reachable pb' p0' p' -> objective qr cqr xcd pb' p' = Ok e -> a <= e) -> forall p e, reachable pb p0 p -> objective qr cqr xcd pb p = Ok e -> a <= e).
Proof. exact raise_ae. Qed.
Print Assumptions C160_all_electron.

(** The same with pseudopotentials. *)
Theorem C160_norm_conserving : forall (PP : Type) erfc pkg read (nc us : crystal -> string -> res PP) valence pp_local pp_nonlocal devices rnd rpw c c' pb p0 qr cqr lib vg,
  reduced_qr qr -> complex_qr cqr -> qr_factors cqr -> shape_ok rnd -> pair_shape_ok rpw -> on_grid pp_local pp_nonlocal -> raised_cutoff c c' ->
  nc_problem erfc pkg read nc us valence pp_local pp_nonlocal devices c = Ok pb -> m3det (cr_cell (pb_crystal pb)) <> 0 ->
  nc_init rnd rpw pb = Ok p0 -> (pb_electrons pb mod 2 = pb_spin pb mod 2)%Z -> bands_hold (pb_method pb) (pb_electrons pb) (pb_spin pb) (pb_bands pb) -> bands_fit_basis pb ->
  (fixed_occ (pb_method pb) -> pb_restricted pb = true) -> (forall t pol, In t (split_on "+" (pb_xc pb)) -> lib t pol <> None) ->
  exists pb' p0', nc_problem erfc pkg read nc us valence pp_local pp_nonlocal devices c' = Ok pb' /\ nc_init rnd rpw pb' = Ok p0' /\ mask_within (pb_mask pb) (pb_mask pb') /\ pb' = with_mask pb (pb_mask pb') /\
    (forall p, reachable pb p0 p -> exists p' e, reachable pb' p0' p' /\ get_occupation qr pb' p' = get_occupation qr pb p /\ get_entropy qr pb' p' = get_entropy qr pb p /\
      objective qr cqr (xc_density lib vg) pb p = Ok e /\ objective qr cqr (xc_density lib vg) pb' p' = Ok e) /\
    (forall a, (forall p' e, reachable pb' p0' p' -> objective qr cqr (xc_density lib vg) pb' p' = Ok e -> a <= e) -> forall p e, reachable pb p0 p -> objective qr cqr (xc_density lib vg) pb p = Ok e -> a <= e).
Proof. exact @raise_nc. Qed.
Print Assumptions C160_norm_conserving.

(** The example calculations with spherical masks. *)
Example C160_example : complex_qr gs_qr /\ qr_factors gs_qr /\
  forall erfc pkg occ r, In occ ex_methods -> exists E pb p0, (forall E', E <= E' -> raised_cutoff (ex_ball occ r false E) (ex_ball occ r false E')) /\
  ae_problem erfc pkg ex_ase 2 (ex_ball occ r false E) = Ok pb /\ ae_init ex_rnd ex_rpw pb = Ok p0 /\ reachable pb p0 p0 /\
  bands_hold (pb_method pb) (pb_electrons pb) (pb_spin pb) (pb_bands pb) /\ bands_fit_basis pb /\ xc_local ex_xcd false "lda_x".
Proof. split; [exact gs_qr_orthonormal|]. split; [exact gs_qr_factors|exact ex_raise_ae]. Qed.
Example C160_example_nc : (forall t pol, linear_lib t pol <> None) /\ forall erfc pkg occ r, In occ ["uniform"; "gamma"; "simplex-projector"]%string -> (occ = "simplex-projector"%string \/ r = true) ->
  exists E pb p0, (forall E', E <= E' -> raised_cutoff (ex_ball occ r true E) (ex_ball occ r true E')) /\
  nc_problem erfc pkg ex_ase ex_loader ex_loader (fun l => l) ex_loc ex_nl 2 (ex_ball occ r true E) = Ok pb /\ m3det (cr_cell (pb_crystal pb)) <> 0 /\ nc_init ex_rnd ex_rpw pb = Ok p0 /\
  (pb_electrons pb mod 2 = pb_spin pb mod 2)%Z /\ bands_hold (pb_method pb) (pb_electrons pb) (pb_spin pb) (pb_bands pb) /\ bands_fit_basis pb /\ (fixed_occ (pb_method pb) -> pb_restricted pb = true) /\ on_grid ex_loc ex_nl.
Proof. split; [discriminate|exact ex_raise_nc]. Qed.
