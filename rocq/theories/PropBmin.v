(** The minimum of what the band-structure drivers minimise (C146). *)
From Coq Require Import Reals Lra Lia.
From Coquelicot Require Import Complex.
From Coq Require Import Ascii String List Arith ZArith Bool.
From Verif Require Import Base Sums Tensor Lin3 VecModel OccModel OccSpec PwModel PwSpec EnergyModel HamModel CalcModel CalcSpec DrvModel DrvSpec DrvProofs6 EigSpec BndModel BndSpec BndProofs BndProofs5 BndProofs6 ReachSpec ReachProofs2 BminProofs.
Import ListNotations.
Local Open Scope R_scope.

(** All-electron, at any k-point: [lam] lists the eigenvalues of the Hamiltonian in all plane waves
    of the mask (the sum over the channels of the potential; one channel: the Hamiltonian itself).
    No parameters have an objective below the sum of the lowest ones, some have exactly this sum,
    and parameters have it exactly if the reported energies are the lowest eigenvalues. *)
Theorem C146_all_electron : forall pkg read bandpath gs c bp cqr xcd ev v hk k lam, complex_qr cqr -> qr_factors cqr -> eigvalsh_ok ev -> ae_band_problem pkg read bandpath gs c = Ok bp ->
  m3det (cr_cell (bp_crystal bp)) <> 0 -> (1 <= bp_bands bp)%nat -> (bp_bands bp <= waves bp)%nat -> effective_potential xcd bp = Ok v -> tshape v = hk :: tshape (bp_G bp) ->
  spectrum (waves bp) (fun a b => sumC (seq 0 hk) (fun h => spin_hamiltonian bp v h k a b)) lam ->
  let sp := num_spin (bp_restricted bp) in let low := INR sp * sumR (seq 0 (bp_bands bp)) lam in
  (forall p, band_shape bp sp p -> exists e t, ae_eig cqr xcd ev bp p k = Ok e /\ ae_trace cqr xcd bp p k = Ok t /\ low <= t /\
     (t = low <-> forall s b, (s < sp)%nat -> (b < bp_bands bp)%nat -> tget e [s; 0%nat; b] = lam b)) /\
  (exists p, band_shape bp sp p /\ ae_trace cqr xcd bp p k = Ok low).
Proof. exact ae_minimum. Qed.
Print Assumptions C146_all_electron.

(** Norm-conserving pseudopotentials, one channel. *)
Theorem C146_norm_conserving : forall (PP : Type) pkg read (nc us : crystal -> string -> res PP) valence bandpath gs c bp cqr xcd ev V nlk nl A k sp' nb nm lam, complex_qr cqr -> qr_factors cqr -> eigvalsh_ok ev ->
  nc_band_problem pkg read nc us valence bandpath gs c = Ok bp -> m3det (cr_cell (bp_crystal bp)) <> 0 -> tshape (bp_dens bp) = sp' :: tshape (bp_G bp) -> tshape V = tshape (bp_G bp) ->
  nlk k = Ok nl -> tshape nl = [1; nb; nm]%nat ++ tshape (bp_G bp) -> xc_channels xcd bp 1 -> (1 <= bp_bands bp)%nat -> (bp_bands bp <= waves bp)%nat ->
  nc_basis_hamiltonian xcd bp V nl k = Ok A -> spectrum (waves bp) (hermitian_part (matrix_at A [0%nat; 0%nat])) lam ->
  let low := sumR (seq 0 (bp_bands bp)) lam in
  (forall p, band_shape bp 1 p -> exists e t, nc_eig cqr xcd ev bp V nlk p k = Ok e /\ nc_trace cqr xcd bp V nlk p k = Ok t /\ low <= t /\
     (t = low <-> forall b, (b < bp_bands bp)%nat -> tget e [0%nat; b] = lam b)) /\
  (exists p, band_shape bp 1 p /\ nc_trace cqr xcd bp V nlk p k = Ok low).
Proof. exact @nc_minimum. Qed.
Print Assumptions C146_norm_conserving.

(** The calculations of C116's and C117's examples, with Gram-Schmidt as QR decomposition. *)
Example C146_example : complex_qr gs_qr /\ qr_factors gs_qr /\ eigvalsh_ok eig_ev /\
  forall erfc pkg grad occ r k, In occ ex_methods -> exists bp v lam, ae_band_problem pkg ex_ase ex_bandpath (ex_gs erfc pkg grad) (ex_drv occ r false 8) = Ok bp /\
  m3det (cr_cell (bp_crystal bp)) <> 0 /\ bp_bands bp = 10%nat /\ (bp_bands bp <= waves bp)%nat /\ bp_restricted bp = r /\ effective_potential ex_xcd bp = Ok v /\ tshape v = num_spin r :: tshape (bp_G bp) /\
  spectrum (waves bp) (fun a b => sumC (seq 0 (num_spin r)) (fun h => spin_hamiltonian bp v h k a b)) lam.
Proof. split; [exact gs_qr_orthonormal|]. split; [exact gs_qr_factors|]. split; [exact eig_ev_ok|exact ex_ae_minimum]. Qed.
Example C146_example_norm_conserving : forall erfc pkg grad k, let cf := ex_drv "simplex-projector" true true 8 in
  exists bp V nl A lam, nc_band_problem pkg ex_ase ex_loader ex_loader (fun l => l) ex_bandpath (ex_ngs erfc pkg grad) cf = Ok bp /\ m3det (cr_cell (bp_crystal bp)) <> 0 /\
    tshape (bp_dens bp) = 1%nat :: tshape (bp_G bp) /\ tshape V = tshape (bp_G bp) /\ ex_nlk [4; 4]%Z (bp_crystal bp) (bp_G bp) (bp_path bp) k = Ok nl /\ (exists nb nm, tshape nl = [1; nb; nm]%nat ++ tshape (bp_G bp)) /\
    xc_channels ex_xcd bp 1 /\ bp_bands bp = 8%nat /\ (bp_bands bp <= waves bp)%nat /\ nc_basis_hamiltonian ex_xcd bp V nl k = Ok A /\ spectrum (waves bp) (hermitian_part (matrix_at A [0%nat; 0%nat])) lam.
Proof. exact ex_nc_minimum. Qed.
