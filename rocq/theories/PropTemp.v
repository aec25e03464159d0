(** Free energies at a temperature and the error of smearing (C155). *)
From Coq Require Import Reals.
From Coquelicot Require Import Coquelicot.
From Coq Require Import Ascii String List Arith ZArith Bool.
From Verif Require Import Base Sums Tensor Lin3 VecModel OccModel OccSpec PwSpec XcModel EnergyModel CalcModel DrvModel DrvSpec DrvProofs6 CalcProofs3 BoundProofs2 ReachSpec ReachProofs2 IdemSpec IdemProofs2 AttSpec AttProofs5 TempSpec TempProofs TempProofs2 TempProofs3 TempProofs4.
Import ListNotations.
Local Open Scope R_scope.

(** The entropies of two occupations between empty and full differ by no more than ln 2 for each of
    the two spins of each band, whatever the number of k-points. *)
Theorem C155_entropy_range : forall S K B eps occ occ' h h', (S = 1 \/ S = 2)%nat -> (1 <= K)%nat -> 0 < eps -> tshape occ = [S; K; B] -> tshape occ' = [S; K; B] ->
  within 0 ((3 - INR S) / INR K) occ -> within 0 ((3 - INR S) / INR K) occ' -> fermi_dirac occ eps = Ok h -> fermi_dirac occ' eps = Ok h' -> h <= h' + 2 * INR B * ln 2.
Proof. exact entropy_range. Qed.
Print Assumptions C155_entropy_range.

(** The gamma method with several k-points is outside of this range: a logarithm of the entropy is
    taken of a negative number, so the loss shown by the driver is not a number. *)
Theorem C155_gamma_outside : forall K N s B r occ eps, (2 <= K)%nat -> (1 <= B)%nat -> (N mod 2 = s mod 2)%Z -> (1 <= (N - Z.abs s) / 2)%Z -> ((N + Z.abs s) / 2 <= Z.of_nat B)%Z -> eps < / 2 -> gamma K N s (Some B) r = Ok occ ->
  exists i, inb i (tshape occ) /\ eps + (3 - INR (num_spin r)) / INR K - tget occ i < 0.
Proof. exact gamma_outside. Qed.
Print Assumptions C155_gamma_outside.

(** At every temperature the free energies an all-electron calculation can reach have a greatest lower
    bound, and with the uniform and the idempotent occupations some parameters have the lowest one. *)
Theorem C155_lowest : forall erfc pkg read devices rnd rpw c pb p0 qr cqr lib vg, reduced_qr qr -> complex_qr cqr -> qr_factors cqr -> shape_ok rnd -> pair_shape_ok rpw ->
  ae_problem erfc pkg read devices c = Ok pb -> m3det (cr_cell (pb_crystal pb)) <> 0 -> length (cr_charges (pb_crystal pb)) = length (cr_positions (pb_crystal pb)) ->
  ae_init rnd rpw pb = Ok p0 -> bands_hold (pb_method pb) (pb_electrons pb) (pb_spin pb) (pb_bands pb) -> bands_fit_basis pb ->
  (forall t, In t (split_on "+" (pb_xc pb)) -> continuous_functional lib (contains "gga" (pb_xc pb)) t) -> entropy_defined pb -> 0 < pb_eps pb ->
  forall T, exists m, free_bound qr cqr (xc_density lib vg) pb p0 T m /\ (qr_product qr -> pb_method pb <> MSimplex -> exists p, lowest_free qr cqr (xc_density lib vg) pb p0 T p).
Proof. exact ae_free. Qed.
Print Assumptions C155_lowest.
Theorem C155_nc_lowest : forall (PP : Type) erfc pkg read (nc us : crystal -> string -> res PP) valence pp_local pp_nonlocal devices rnd rpw c pb p0 qr cqr lib vg,
  reduced_qr qr -> complex_qr cqr -> qr_factors cqr -> shape_ok rnd -> pair_shape_ok rpw -> on_grid pp_local pp_nonlocal ->
  nc_problem erfc pkg read nc us valence pp_local pp_nonlocal devices c = Ok pb -> m3det (cr_cell (pb_crystal pb)) <> 0 ->
  nc_init rnd rpw pb = Ok p0 -> (pb_electrons pb mod 2 = pb_spin pb mod 2)%Z -> bands_hold (pb_method pb) (pb_electrons pb) (pb_spin pb) (pb_bands pb) -> bands_fit_basis pb ->
  (fixed_occ (pb_method pb) -> pb_restricted pb = true) -> (forall t, In t (split_on "+" (pb_xc pb)) -> continuous_functional lib (contains "gga" (pb_xc pb)) t) -> entropy_defined pb -> 0 < pb_eps pb ->
  forall T, exists m, free_bound qr cqr (xc_density lib vg) pb p0 T m /\ (pb_method pb <> MSimplex -> exists p, lowest_free qr cqr (xc_density lib vg) pb p0 T p).
Proof. exact (@nc_free). Qed.
Print Assumptions C155_nc_lowest.

(** The energy of parameters whose free energy at temperature T is within d of that bound is within
    d + 2 B T ln 2 of every energy the calculation can reach, B being the number of bands. *)
Theorem C155_error : forall erfc pkg read devices rnd rpw c pb p0 qr cqr lib vg, reduced_qr qr -> complex_qr cqr -> qr_factors cqr -> shape_ok rnd -> pair_shape_ok rpw ->
  ae_problem erfc pkg read devices c = Ok pb -> m3det (cr_cell (pb_crystal pb)) <> 0 -> length (cr_charges (pb_crystal pb)) = length (cr_positions (pb_crystal pb)) ->
  ae_init rnd rpw pb = Ok p0 -> bands_hold (pb_method pb) (pb_electrons pb) (pb_spin pb) (pb_bands pb) -> bands_fit_basis pb ->
  (forall t, In t (split_on "+" (pb_xc pb)) -> continuous_functional lib (contains "gga" (pb_xc pb)) t) -> entropy_defined pb -> 0 < pb_eps pb ->
  forall T m p f e h d p' e', 0 <= T -> free_bound qr cqr (xc_density lib vg) pb p0 T m -> reachable pb p0 p -> free_energy_of qr cqr (xc_density lib vg) pb T p = Ok (f, (e, h)) -> f <= m + d ->
  reachable pb p0 p' -> objective qr cqr (xc_density lib vg) pb p' = Ok e' -> e <= e' + d + T * (2 * INR (pb_bands pb) * ln 2).
Proof. exact ae_error. Qed.
Print Assumptions C155_error.
Theorem C155_nc_error : forall (PP : Type) erfc pkg read (nc us : crystal -> string -> res PP) valence pp_local pp_nonlocal devices rnd rpw c pb p0 qr cqr lib vg,
  reduced_qr qr -> complex_qr cqr -> qr_factors cqr -> shape_ok rnd -> pair_shape_ok rpw -> on_grid pp_local pp_nonlocal ->
  nc_problem erfc pkg read nc us valence pp_local pp_nonlocal devices c = Ok pb -> m3det (cr_cell (pb_crystal pb)) <> 0 ->
  nc_init rnd rpw pb = Ok p0 -> (pb_electrons pb mod 2 = pb_spin pb mod 2)%Z -> bands_hold (pb_method pb) (pb_electrons pb) (pb_spin pb) (pb_bands pb) -> bands_fit_basis pb ->
  (fixed_occ (pb_method pb) -> pb_restricted pb = true) -> (forall t, In t (split_on "+" (pb_xc pb)) -> continuous_functional lib (contains "gga" (pb_xc pb)) t) -> entropy_defined pb -> 0 < pb_eps pb ->
  forall T m p f e h d p' e', 0 <= T -> free_bound qr cqr (xc_density lib vg) pb p0 T m -> reachable pb p0 p -> free_energy_of qr cqr (xc_density lib vg) pb T p = Ok (f, (e, h)) -> f <= m + d ->
  reachable pb p0 p' -> objective qr cqr (xc_density lib vg) pb p' = Ok e' -> e <= e' + d + T * (2 * INR (pb_bands pb) * ln 2).
Proof. exact (@nc_error). Qed.
Print Assumptions C155_nc_error.

(** Parameters of lowest free energy at a higher temperature have no less entropy and no less energy;
    the lowest free energy falls with a slope between the two entropies. *)
Theorem C155_order : forall qr cqr xcd pb p0 T T' p p' f e h f' e' h', T < T' -> lowest_free qr cqr xcd pb p0 T p -> lowest_free qr cqr xcd pb p0 T' p' ->
  free_energy_of qr cqr xcd pb T p = Ok (f, (e, h)) -> free_energy_of qr cqr xcd pb T' p' = Ok (f', (e', h')) ->
  h <= h' /\ (0 <= T -> e <= e') /\ f - (T' - T) * h' <= f' <= f - (T' - T) * h.
Proof. exact free_order. Qed.
Print Assumptions C155_order.

(** The example calculations meet the hypotheses; two fillings of two bands, and a gamma occupation. *)
Example C155_example : forall erfc pkg, reduced_qr real_gs_qr /\ qr_product real_gs_qr /\ complex_qr gs_qr /\ qr_factors gs_qr /\ shape_ok ex_rnd /\ pair_shape_ok ex_rpw /\ (forall t gga, continuous_functional linear_lib gga t) /\
  (forall occ r, In occ ["uniform"; "idempotent"; "simplex-projector"]%string -> exists pb p0, ae_problem erfc pkg ex_ase 2 (ex_drv occ r false 8) = Ok pb /\ m3det (cr_cell (pb_crystal pb)) <> 0 /\
    length (cr_charges (pb_crystal pb)) = length (cr_positions (pb_crystal pb)) /\ ae_init ex_rnd ex_rpw pb = Ok p0 /\ bands_hold (pb_method pb) (pb_electrons pb) (pb_spin pb) (pb_bands pb) /\ bands_fit_basis pb /\
    entropy_defined pb /\ 0 < pb_eps pb) /\
  (forall occ r, In occ ["uniform"; "simplex-projector"]%string -> (occ = "simplex-projector"%string \/ r = true) ->
    exists pb p0, nc_problem erfc pkg ex_ase ex_loader ex_loader (fun l => l) ex_loc ex_nl 2 (ex_drv occ r true 8) = Ok pb /\ m3det (cr_cell (pb_crystal pb)) <> 0 /\ nc_init ex_rnd ex_rpw pb = Ok p0 /\
    (pb_electrons pb mod 2 = pb_spin pb mod 2)%Z /\ bands_hold (pb_method pb) (pb_electrons pb) (pb_spin pb) (pb_bands pb) /\ bands_fit_basis pb /\ (fixed_occ (pb_method pb) -> pb_restricted pb = true) /\ on_grid ex_loc ex_nl /\
    entropy_defined pb /\ 0 < pb_eps pb) /\
  within 0 ((3 - INR 1) / INR 1) (mkT [1; 1; 2]%nat (fun i => if (nth 2 i 0 =? 0)%nat then 2 else 0)) /\ within 0 ((3 - INR 1) / INR 1) (mkT [1; 1; 2]%nat (fun _ => 1)) /\
  exists occ, gamma 4 6 2 (Some 5%nat) true = Ok occ.
Proof. intros erfc pkg. split; [exact real_gs_qr_ok|]. split; [exact real_gs_qr_product|]. split; [exact gs_qr_orthonormal|]. split; [exact gs_qr_factors|]. split; [exact ex_rnd_ok|]. split; [exact ex_rpw_ok|]. split; [exact linear_continuous|]. split; [exact (ex_temp erfc pkg)|]. split; [exact (ex_nc_temp erfc pkg)|exact ex_fillings]. Qed.
