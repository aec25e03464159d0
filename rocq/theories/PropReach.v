(** Minimising over the parameters is minimising over the orbitals (C144). *)
From Coq Require Import Reals Lra Lia.
From Coquelicot Require Import Complex.
From Coq Require Import Ascii String List Arith ZArith Bool.
From Verif Require Import Base Sums Tensor PadModel OccModel OccSpec PwModel PwSpec EnergyModel EnergySpec CalcModel CalcSpec DrvModel DrvSpec DrvProofs6 ReachSpec ReachProofs ReachProofs2 ReachProofs3.
Import ListNotations.
Local Open Scope R_scope.

(** Every set of orthonormal orbitals made of the plane waves of the mask is, up to a phase factor
    of each orbital, the coefficients of some parameters. *)
Theorem C144_every_orbital_reached : forall cqr mask sp K B c, complex_qr cqr -> qr_factors cqr -> basis_orbitals sp K B mask c -> (B <= length (mask_positions mask))%nat ->
  exists re im c', tshape re = [sp; K; length (mask_positions mask); B] /\ tshape im = [sp; K; length (mask_positions mask); B] /\
    pw_coeff cqr re im mask = Ok c' /\ same_up_to_phase sp K B (tshape mask) c c'.
Proof. exact reach_orbitals. Qed.
Print Assumptions C144_every_orbital_reached.

(** The energies do not see these phases. *)
Theorem C144_phases_unseen : forall xcd c c' pos ch G kpts vol occ ks xt sp B n1 n2 n3, let ns := [n1; n2; n3] in let K := length kpts in
  xc_local xcd ks xt -> tshape G = ns -> tshape c = [sp; K; B] ++ ns -> tshape occ = [sp; K; B] -> orthonormal_bands [sp; K] B ns c -> same_up_to_phase sp K B ns c c' ->
  total_energy_split xcd c' pos ch G kpts vol (Some occ) ks xt = total_energy_split xcd c pos ch G kpts vol (Some occ) ks xt.
Proof. exact phase_energy. Qed.
Print Assumptions C144_phases_unseen.

(** In an all-electron calculation, parameters with any orbitals of the basis and any occupation
    the parameters can describe exist, and their energy is the total energy of these orbitals. *)
Theorem C144_driver : forall erfc pkg read devices rnd rpw c pb p0 p qr cqr xcd co, reduced_qr qr -> complex_qr cqr -> qr_factors cqr -> shape_ok rnd -> pair_shape_ok rpw ->
  ae_problem erfc pkg read devices c = Ok pb -> ae_init rnd rpw pb = Ok p0 -> reachable pb p0 p -> bands_hold (pb_method pb) (pb_electrons pb) (pb_spin pb) (pb_bands pb) -> bands_fit_basis pb ->
  xc_local xcd false (pb_xc pb) -> basis_orbitals (num_spin (pb_restricted pb)) (length (pb_k pb)) (pb_bands pb) (pb_mask pb) co ->
  exists p' co' occ, reachable pb p0 p' /\ p_occ p' = p_occ p /\ get_occupation qr pb p = Ok occ /\ get_occupation qr pb p' = Ok occ /\
    get_coeff cqr pb p' = Ok co' /\ same_up_to_phase (num_spin (pb_restricted pb)) (length (pb_k pb)) (pb_bands pb) (tshape (pb_mask pb)) co co' /\
    forall e, objective qr cqr xcd pb p' = Ok e <->
      total_energy xcd co (cr_positions (pb_crystal pb)) (map IZR (cr_charges (pb_crystal pb))) (pb_G pb) (pb_k pb) (pb_vol pb) (Some occ) false (pb_xc pb) = Ok e.
Proof. exact reach_driver. Qed.
Print Assumptions C144_driver.

(** So what bounds the energy of all parameters from below is what bounds the total energy of all
    orthonormal orbitals of the basis: nothing is lost by the parametrisation. *)
Theorem C144_same_minimum : forall erfc pkg read devices rnd rpw c pb p0 qr cqr xcd a, reduced_qr qr -> complex_qr cqr -> qr_factors cqr -> shape_ok rnd -> pair_shape_ok rpw ->
  ae_problem erfc pkg read devices c = Ok pb -> ae_init rnd rpw pb = Ok p0 -> bands_hold (pb_method pb) (pb_electrons pb) (pb_spin pb) (pb_bands pb) -> bands_fit_basis pb ->
  xc_local xcd false (pb_xc pb) ->
  (forall p e, reachable pb p0 p -> objective qr cqr xcd pb p = Ok e -> a <= e) <->
  (forall co p occ e, basis_orbitals (num_spin (pb_restricted pb)) (length (pb_k pb)) (pb_bands pb) (pb_mask pb) co -> reachable pb p0 p -> get_occupation qr pb p = Ok occ ->
    total_energy xcd co (cr_positions (pb_crystal pb)) (map IZR (cr_charges (pb_crystal pb))) (pb_G pb) (pb_k pb) (pb_vol pb) (Some occ) false (pb_xc pb) = Ok e -> a <= e).
Proof. exact same_minimum. Qed.
Print Assumptions C144_same_minimum.

(** Gram-Schmidt is such a QR decomposition; the calculations of C90's examples. *)
Example C144_example : complex_qr gs_qr /\ qr_factors gs_qr /\
  forall erfc pkg occ r, In occ ex_methods -> exists pb p0 co, ae_problem erfc pkg ex_ase 2 (ex_drv occ r false 8) = Ok pb /\ ae_init ex_rnd ex_rpw pb = Ok p0 /\ reachable pb p0 p0 /\
    bands_hold (pb_method pb) (pb_electrons pb) (pb_spin pb) (pb_bands pb) /\ bands_fit_basis pb /\ xc_local ex_xcd false "lda_x" /\
    basis_orbitals (num_spin (pb_restricted pb)) (length (pb_k pb)) (pb_bands pb) (pb_mask pb) co.
Proof. split; [exact gs_qr_orthonormal|]. split; [exact gs_qr_factors|exact ex_reach]. Qed.
