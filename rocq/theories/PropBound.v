(** The energy is bounded below (C143). *)
From Coq Require Import Reals Lra Lia.
From Coquelicot Require Import Coquelicot.
From Coq Require Import Ascii String List Arith ZArith Bool.
From Verif Require Import Base Sums Tensor Lin3 VecModel OccModel OccSpec PwModel PwSpec XcModel EnergyModel CalcModel CalcSpec DrvModel DrvSpec DrvProofs6 BoundSpec BoundProofs BoundProofs2.
Import ListNotations.
Local Open Scope R_scope.

(** For orthonormal orbitals and occupations that are not negative, the energy is never below a
    number fixed by the cell, the grid, the nuclear charges, the functional and the number of
    electrons: whatever the orbitals, the way the electrons are spread over them, the k-points and
    the positions of the atoms. *)
Theorem C143_bounded_below : forall lib vg xt A c pos ch G kpts vol occ sp B n1 n2 n3 fl, let ns := [n1; n2; n3] in let K := length kpts in let N := INR (nprod ns) in
  m3det A <> 0 -> g_vectors A ns = Ok G -> 0 < vol -> (sp = 1 \/ sp = 2)%nat -> length ch = length pos -> tshape c = [sp; K; B] ++ ns -> tshape occ = [sp; K; B] ->
  orthonormal_bands [sp; K] B ns c -> (forall i, inb i [sp; K; B] -> 0 <= tget occ i) ->
  (forall t, In t (split_on "+" xt) -> per_electron_floor lib t (2 * (electrons occ * N / vol)) fl) ->
  exists e, total_energy (xc_density lib vg) c pos ch G kpts vol (Some occ) false xt = Ok e /\
    - electrons occ * (attraction_limit ns G ch vol + INR (length (split_on "+" xt)) * fl) <= e.
Proof. exact bounded_below. Qed.
Print Assumptions C143_bounded_below.

(** So the energy an all-electron calculation minimises returns a number at every parameter it can
    reach, and one such bound holds for all of them. *)
Theorem C143_driver : forall erfc pkg read devices rnd rpw c pb p0 p qr cqr lib vg fl, reduced_qr qr -> complex_qr cqr -> shape_ok rnd -> pair_shape_ok rpw ->
  ae_problem erfc pkg read devices c = Ok pb -> m3det (cr_cell (pb_crystal pb)) <> 0 -> length (cr_charges (pb_crystal pb)) = length (cr_positions (pb_crystal pb)) ->
  ae_init rnd rpw pb = Ok p0 -> reachable pb p0 p -> bands_hold (pb_method pb) (pb_electrons pb) (pb_spin pb) (pb_bands pb) -> bands_fit_basis pb ->
  let ns := tshape (pb_G pb) in let ne := IZR (kept_electrons (pb_method pb) (pb_electrons pb) (pb_spin pb)) in
  (forall t, In t (split_on "+" (pb_xc pb)) -> per_electron_floor lib t (2 * (ne * INR (nprod ns) / pb_vol pb)) fl) ->
  exists e, objective qr cqr (xc_density lib vg) pb p = Ok e /\
    - ne * (attraction_limit ns (pb_G pb) (map IZR (cr_charges (pb_crystal pb))) (pb_vol pb) + INR (length (split_on "+" (pb_xc pb))) * fl) <= e.
Proof. exact driver_below. Qed.
Print Assumptions C143_driver.

(** A functional falling linearly with the density, which has a floor but not the floor 0, and the
    calculations of C90's examples. *)
Example C143_example : (forall t m, 0 <= m -> per_electron_floor linear_lib t m (2 * m) /\ (m <> 0 -> ~ per_electron_floor linear_lib t m 0)) /\
  forall erfc pkg occ r, In occ ex_methods -> exists pb p0 fl, ae_problem erfc pkg ex_ase 2 (ex_drv occ r false 8) = Ok pb /\ m3det (cr_cell (pb_crystal pb)) <> 0 /\
    length (cr_charges (pb_crystal pb)) = length (cr_positions (pb_crystal pb)) /\ ae_init ex_rnd ex_rpw pb = Ok p0 /\ reachable pb p0 p0 /\
    bands_hold (pb_method pb) (pb_electrons pb) (pb_spin pb) (pb_bands pb) /\ bands_fit_basis pb /\ 0 < fl /\
    forall t, In t (split_on "+" (pb_xc pb)) -> per_electron_floor linear_lib t (2 * (IZR (kept_electrons (pb_method pb) (pb_electrons pb) (pb_spin pb)) * INR (nprod (tshape (pb_G pb))) / pb_vol pb)) fl.
Proof. split; [exact linear_floor|exact ex_driver]. Qed.
