(** A state of lowest energy exists (C148). *)
From Coq Require Import Reals.
From Coquelicot Require Import Coquelicot.
From Coq Require Import Ascii String List Arith ZArith Bool.
From Verif Require Import Base Sums Tensor Lin3 VecModel OccModel OccSpec PwSpec XcModel EnergyModel CalcModel DrvModel DrvSpec DrvProofs6 CalcProofs3 BoundProofs2 ReachSpec ReachProofs2 GeomSpec IdemSpec IdemProofs2 AttSpec AttProofs4 AttProofs5.
Import ListNotations.
Local Open Scope R_scope.

(** Among the states of N electrons whose occupations are in a closed set, one has the lowest
    energy, if the functionals are continuous.  The gradients of the density may enter. *)
Theorem C148_attained : forall lib vg xt A pos ch G kpts vol sp B n1 n2 n3 mask N (O : tensor R -> Prop), let ns := [n1; n2; n3] in let K := length kpts in
  m3det A <> 0 -> g_vectors A ns = Ok G -> 0 < vol -> (sp = 1 \/ sp = 2)%nat -> length ch = length pos -> tshape mask = ns ->
  (forall t, In t (split_on "+" xt) -> continuous_functional lib (contains "gga" xt) t) -> closed_occupations sp K B O ->
  (exists c occ, electron_state sp K B mask N c occ /\ O occ) ->
  exists c occ e, electron_state sp K B mask N c occ /\ O occ /\ total_energy (xc_density lib vg) c pos ch G kpts vol (Some occ) false xt = Ok e /\
    forall c' occ', electron_state sp K B mask N c' occ' -> O occ' -> exists e', total_energy (xc_density lib vg) c' pos ch G kpts vol (Some occ') false xt = Ok e' /\ e <= e'.
Proof. exact attained. Qed.
Print Assumptions C148_attained.

(** The energies a calculation can reach, with any method, have a lowest value, approached as
    closely as wanted.  It is the energy of a state whose occupations are limits of described ones,
    and it is reached if they are described. *)
Theorem C148_driver : forall erfc pkg read devices rnd rpw c pb p0 qr cqr lib vg, reduced_qr qr -> complex_qr cqr -> qr_factors cqr -> shape_ok rnd -> pair_shape_ok rpw ->
  ae_problem erfc pkg read devices c = Ok pb -> m3det (cr_cell (pb_crystal pb)) <> 0 -> length (cr_charges (pb_crystal pb)) = length (cr_positions (pb_crystal pb)) ->
  ae_init rnd rpw pb = Ok p0 -> bands_hold (pb_method pb) (pb_electrons pb) (pb_spin pb) (pb_bands pb) -> bands_fit_basis pb ->
  (forall t, In t (split_on "+" (pb_xc pb)) -> continuous_functional lib (contains "gga" (pb_xc pb)) t) ->
  exists co occ e, electron_state (num_spin (pb_restricted pb)) (length (pb_k pb)) (pb_bands pb) (pb_mask pb) (IZR (kept_electrons (pb_method pb) (pb_electrons pb) (pb_spin pb))) co occ /\
    limit_occupation [num_spin (pb_restricted pb); length (pb_k pb); pb_bands pb] (described qr pb p0) occ /\
    total_energy (xc_density lib vg) co (cr_positions (pb_crystal pb)) (map IZR (cr_charges (pb_crystal pb))) (pb_G pb) (pb_k pb) (pb_vol pb) (Some occ) false (pb_xc pb) = Ok e /\
    (forall p, reachable pb p0 p -> exists e', objective qr cqr (xc_density lib vg) pb p = Ok e' /\ e <= e') /\
    (forall eps, 0 < eps -> exists p e', reachable pb p0 p /\ objective qr cqr (xc_density lib vg) pb p = Ok e' /\ e' < e + eps) /\
    (described qr pb p0 occ -> exists p, reachable pb p0 p /\ objective qr cqr (xc_density lib vg) pb p = Ok e).
Proof. exact driver_infimum. Qed.
Print Assumptions C148_driver.

(** With the uniform, the gamma and the idempotent occupations some parameters reach it. *)
Theorem C148_minimum : forall erfc pkg read devices rnd rpw c pb p0 qr cqr lib vg, reduced_qr qr -> qr_product qr -> complex_qr cqr -> qr_factors cqr -> shape_ok rnd -> pair_shape_ok rpw ->
  ae_problem erfc pkg read devices c = Ok pb -> m3det (cr_cell (pb_crystal pb)) <> 0 -> length (cr_charges (pb_crystal pb)) = length (cr_positions (pb_crystal pb)) ->
  ae_init rnd rpw pb = Ok p0 -> bands_hold (pb_method pb) (pb_electrons pb) (pb_spin pb) (pb_bands pb) -> bands_fit_basis pb -> pb_method pb <> MSimplex ->
  (forall t, In t (split_on "+" (pb_xc pb)) -> continuous_functional lib (contains "gga" (pb_xc pb)) t) ->
  exists p e, reachable pb p0 p /\ objective qr cqr (xc_density lib vg) pb p = Ok e /\ forall p', reachable pb p0 p' -> exists e', objective qr cqr (xc_density lib vg) pb p' = Ok e' /\ e <= e'.
Proof. exact driver_minimum. Qed.
Print Assumptions C148_minimum.

(** Gram-Schmidt, a functional falling linearly with the density and the example calculations meet
    the hypotheses. *)
Example C148_example : forall erfc pkg occ r, In occ ex_methods -> reduced_qr real_gs_qr /\ qr_product real_gs_qr /\ complex_qr gs_qr /\ qr_factors gs_qr /\ (forall t gga, continuous_functional linear_lib gga t) /\
  exists pb p0, ae_problem erfc pkg ex_ase 2 (ex_drv occ r false 8) = Ok pb /\ m3det (cr_cell (pb_crystal pb)) <> 0 /\
  length (cr_charges (pb_crystal pb)) = length (cr_positions (pb_crystal pb)) /\ ae_init ex_rnd ex_rpw pb = Ok p0 /\ bands_hold (pb_method pb) (pb_electrons pb) (pb_spin pb) (pb_bands pb) /\ bands_fit_basis pb.
Proof. intros erfc pkg occ r Ho. split; [exact real_gs_qr_ok|]. split; [exact real_gs_qr_product|]. split; [exact gs_qr_orthonormal|]. split; [exact gs_qr_factors|]. split; [exact linear_continuous|exact (ex_attained erfc pkg occ r Ho)]. Qed.
