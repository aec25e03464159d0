(** Forces at an electronic temperature, and the slope in the temperature (C158). *)
From Coq Require Import Reals.
From Coquelicot Require Import Coquelicot.
From Coq Require Import Ascii String List Arith ZArith Bool.
From Verif Require Import Base Sums Tensor GridModel Lin3 VecModel OccModel PwModel PwSpec XcModel XcSpec EwaldModel EwaldSpec EnergyModel EnergySpec LocModel LocSpec LocProofs2 NlocModel NlocSpec NlocProofs6 NcAttSpec ForceSpec BoundSpec BoundProofs2 ReachSpec GeomSpec GeomProofs
  NcForceSpec NcForceProofs2 CalcModel DrvModel DrvSpec DrvProofs6 CalcProofs3 ReachProofs2 IdemSpec IdemProofs2 AttSpec AttProofs5 OccSpec TempSpec TempProofs TempProofs2 TempProofs3 TempProofs4 TempForceSpec TempForceProofs TempForceProofs2.
Import ListNotations.
Local Open Scope R_scope.

(** m t is a lower bound of the free energies E - tau S of the allowed states after the move t u, attained
    at t = 0 by (c, occ); w t is the repulsion of the nuclei.  The forces on the atoms are the slope of
    m + w; neither the orbitals nor the occupations need to follow. *)
Theorem C158_forces : forall (lib : xclib) vg xt (f f' : R -> R) A pos ch G kpts vol eta T sp B n1 n2 n3 u tau eps (allowed : tensor C -> tensor R -> Prop) (m w : R -> R) c occ e0 h0, let ns := [n1; n2; n3] in let K := length kpts in let xcd := xc_density lib vg in
  m3det A <> 0 -> g_vectors A ns = Ok G -> vol <> 0 -> (sp = 1 \/ sp = 2)%nat -> (forall t pol, In t (split_on "+" xt) -> lib t pol <> None) -> length ch = length pos ->
  (forall x, is_derive f x (f' x)) -> eta <> 0 ->
  (forall i j t, (i < length pos)%nat -> (j < length pos)%nat -> In t T -> sqrt (Lin3.norm2 (vsub (vsub (nth j pos vzero) (nth i pos vzero)) t) + / 10 ^ 20) <> / 10 ^ 9) ->
  (forall t c' occ' e h, allowed c' occ' -> total_energy xcd c' (displaced pos u t) ch G kpts vol (Some occ') false xt = Ok e -> fermi_dirac occ' eps = Ok h -> m t <= e - tau * h) ->
  (forall t, ewald_coulomb_repulsion f (displaced pos u t) ch G vol eta T = Ok (w t)) ->
  allowed c occ -> tshape c = [sp; K; B] ++ ns -> tshape occ = [sp; K; B] -> total_energy xcd c pos ch G kpts vol (Some occ) false xt = Ok e0 -> fermi_dirac occ eps = Ok h0 -> m 0 = e0 - tau * h0 ->
  exists D, density_grid_reciprocal c vol (Some occ) = Ok D /\
    let W := work (length pos) (fun a => vadd (electron_force ns G D pos ch a) (nuclear_force f f' eta T G vol pos ch a)) u in let E t := m t + w t in
    (forall eps, 0 < eps -> exists d, 0 < d /\ forall t, Rabs t < d -> E t <= E 0 - t * W + eps * Rabs t) /\
    (forall l, is_derive E 0 l -> l = - W) /\ (0 < W -> exists d, 0 < d /\ forall t, 0 < t < d -> E t < E 0).
Proof. exact warm_forces. Qed.
Print Assumptions C158_forces.

(** The same with norm-conserving pseudopotentials. *)
Theorem C158_nc_forces : forall jn spline ml Y eigh mn rs betas la pa (Va : nat -> tensor C) (lib : xclib) vg xt (f f' : R -> R) A pos ch G kpts vol eta T sp B n1 n2 n3 u tau eps (allowed : tensor C -> tensor R -> Prop) (V psi : R -> tensor C) (m w : R -> R) c occ e0 h0, let ns := [n1; n2; n3] in let K := length kpts in
  m3det A <> 0 -> g_vectors A ns = Ok G -> vol <> 0 -> (sp = 1 \/ sp = 2)%nat -> (forall t pol, In t (split_on "+" xt) -> lib t pol <> None) ->
  la <> [] -> length pa = length la -> length pos = length la -> length ch = length la -> (forall a, (a < length la)%nat -> local_of jn spline [nth a la no_atom] G vol ml = Ok (Va a)) -> columns eigh pa ->
  (exists p, psi_of jn spline Y eigh pa G kpts rs betas mn = Ok p) -> (forall x, is_derive f x (f' x)) -> eta <> 0 ->
  (forall i j t, (i < length pos)%nat -> (j < length pos)%nat -> In t T -> sqrt (Lin3.norm2 (vsub (vsub (nth j pos vzero) (nth i pos vzero)) t) + / 10 ^ 20) <> / 10 ^ 9) ->
  (forall t, local_of jn spline (loc_displaced la u t) G vol ml = Ok (V t) /\ psi_of jn spline Y eigh (proj_displaced pa u t) G kpts rs betas mn = Ok (psi t)) ->
  (forall t c' occ' e h, allowed c' occ' -> valence_energy (xc_density lib vg) G kpts vol (V t) (psi t) xt c' occ' e -> fermi_dirac occ' eps = Ok h -> m t <= e - tau * h) ->
  (forall t, ewald_coulomb_repulsion f (displaced pos u t) ch G vol eta T = Ok (w t)) ->
  allowed c occ -> tshape c = [sp; K; B] ++ ns -> tshape occ = [sp; K; B] -> valence_energy (xc_density lib vg) G kpts vol (V 0) (psi 0) xt c occ e0 -> fermi_dirac occ eps = Ok h0 -> m 0 = e0 - tau * h0 ->
  exists D, density_grid_reciprocal c vol (Some occ) = Ok D /\
    let W := work (length la) (fun a => vadd (vadd (local_force ns G D (Va a) vol) (nonlocal_force Y eigh G kpts c vol occ sp B (nth a pa no_proj))) (nuclear_force f f' eta T G vol pos ch a)) u in let E t := m t + w t in
    (forall eps, 0 < eps -> exists d, 0 < d /\ forall t, Rabs t < d -> E t <= E 0 - t * W + eps * Rabs t) /\
    (forall l, is_derive E 0 l -> l = - W) /\ (0 < W -> exists d, 0 < d /\ forall t, 0 < t < d -> E t < E 0).
Proof. exact warm_valence_forces. Qed.
Print Assumptions C158_nc_forces.

(** The lowest free energy an all-electron calculation can reach is a concave function of the
    temperature, with slope minus the entropy; without the capped simplex it is attained at each temperature. *)
Theorem C158_temperature : forall erfc pkg read devices rnd rpw c pb p0 qr cqr lib vg, reduced_qr qr -> complex_qr cqr -> qr_factors cqr -> shape_ok rnd -> pair_shape_ok rpw ->
  ae_problem erfc pkg read devices c = Ok pb -> m3det (cr_cell (pb_crystal pb)) <> 0 -> length (cr_charges (pb_crystal pb)) = length (cr_positions (pb_crystal pb)) ->
  ae_init rnd rpw pb = Ok p0 -> bands_hold (pb_method pb) (pb_electrons pb) (pb_spin pb) (pb_bands pb) -> bands_fit_basis pb ->
  (forall t, In t (split_on "+" (pb_xc pb)) -> continuous_functional lib (contains "gga" (pb_xc pb)) t) -> entropy_defined pb -> 0 < pb_eps pb ->
  exists m, temperature_curve qr cqr (xc_density lib vg) pb p0 m /\ (qr_product qr -> pb_method pb <> MSimplex -> forall T, exists p e h, reachable pb p0 p /\ free_energy_of qr cqr (xc_density lib vg) pb T p = Ok (m T, (e, h))).
Proof. exact ae_curve. Qed.
Print Assumptions C158_temperature.

(** The same with norm-conserving pseudopotentials. *)
Theorem C158_nc_temperature : forall (PP : Type) erfc pkg read (nc us : crystal -> string -> res PP) valence pp_local pp_nonlocal devices rnd rpw c pb p0 qr cqr lib vg,
  reduced_qr qr -> complex_qr cqr -> qr_factors cqr -> shape_ok rnd -> pair_shape_ok rpw -> on_grid pp_local pp_nonlocal ->
  nc_problem erfc pkg read nc us valence pp_local pp_nonlocal devices c = Ok pb -> m3det (cr_cell (pb_crystal pb)) <> 0 ->
  nc_init rnd rpw pb = Ok p0 -> (pb_electrons pb mod 2 = pb_spin pb mod 2)%Z -> bands_hold (pb_method pb) (pb_electrons pb) (pb_spin pb) (pb_bands pb) -> bands_fit_basis pb ->
  (fixed_occ (pb_method pb) -> pb_restricted pb = true) -> (forall t, In t (split_on "+" (pb_xc pb)) -> continuous_functional lib (contains "gga" (pb_xc pb)) t) -> entropy_defined pb -> 0 < pb_eps pb ->
  exists m, temperature_curve qr cqr (xc_density lib vg) pb p0 m /\ (pb_method pb <> MSimplex -> forall T, exists p e h, reachable pb p0 p /\ free_energy_of qr cqr (xc_density lib vg) pb T p = Ok (m T, (e, h))).
Proof. exact (@nc_curve). Qed.
Print Assumptions C158_nc_temperature.

(** Two atoms, and all orbitals that differ from a given one by a phase. *)
Example C158_example : forall xt c occ u tau eps, let A := M3 (V3 4 0 0) (V3 0 4 0) (V3 0 0 4) in let ns := [2; 3; 4]%nat in let pos := [V3 0 0 0; V3 1 1 1] in let T := [vzero; V3 4 0 0] in let ch := [1; 2] in
  tshape c = [1; 1; 1]%nat ++ ns -> tshape occ = [1; 1; 1]%nat -> orthonormal_bands [1; 1]%nat 1 ns c ->
  exists G (m w : R -> R) e0 h0, let allowed c' occ' := same_up_to_phase 1 1 1 ns c c' /\ occ' = occ in
  m3det A <> 0 /\ g_vectors A ns = Ok G /\ (forall t pol, In t (split_on "+" xt) -> linear_lib t pol <> None) /\ (forall x, is_derive erfc x (- (2 / sqrt PI) * exp (- x ^ 2))) /\
  (forall i j t, (i < length pos)%nat -> (j < length pos)%nat -> In t T -> sqrt (Lin3.norm2 (vsub (vsub (nth j pos vzero) (nth i pos vzero)) t) + / 10 ^ 20) <> / 10 ^ 9) /\
  (forall t c' occ' e h, allowed c' occ' -> total_energy (xc_density linear_lib ex_vg0) c' (displaced pos u t) ch G [vzero] 64 (Some occ') false xt = Ok e -> fermi_dirac occ' eps = Ok h -> m t <= e - tau * h) /\
  (forall t, ewald_coulomb_repulsion erfc (displaced pos u t) ch G 64 1 T = Ok (w t)) /\
  allowed c occ /\ total_energy (xc_density linear_lib ex_vg0) c pos ch G [vzero] 64 (Some occ) false xt = Ok e0 /\ fermi_dirac occ eps = Ok h0 /\ m 0 = e0 - tau * h0.
Proof. exact ex_warm. Qed.

(** Two atoms with a projector each. *)
Example C158_nc_example : forall xt u tau eps, let A := M3 (V3 4 0 0) (V3 0 4 0) (V3 0 0 4) in let ns := [1; 1; 3]%nat in let pos := [V3 0 0 0; V3 1 1 1] in let T := [vzero; V3 4 0 0] in let ch := [1; 2] in
  exists G Va (V psi : R -> tensor C) (m w : R -> R) e0 h0, let allowed c' occ' := c' = ex_c /\ occ' = ex_two in
  m3det A <> 0 /\ g_vectors A ns = Ok G /\ (forall t pol, In t (split_on "+" xt) -> linear_lib t pol <> None) /\ (forall a, (a < length ex_la)%nat -> local_of ex_jn ex_spline [nth a ex_la no_atom] G 64 SbtMethod = Ok (Va a)) /\
  columns ex_eigh ex_pas /\ (exists psi, psi_of ex_jn ex_spline ex_Y ex_eigh ex_pas G [vzero] [] [[]; []] NlSbt = Ok psi) /\ (forall x, is_derive erfc x (- (2 / sqrt PI) * exp (- x ^ 2))) /\
  (forall i j t, (i < length pos)%nat -> (j < length pos)%nat -> In t T -> sqrt (Lin3.norm2 (vsub (vsub (nth j pos vzero) (nth i pos vzero)) t) + / 10 ^ 20) <> / 10 ^ 9) /\
  (forall t, local_of ex_jn ex_spline (loc_displaced ex_la u t) G 64 SbtMethod = Ok (V t) /\ psi_of ex_jn ex_spline ex_Y ex_eigh (proj_displaced ex_pas u t) G [vzero] [] [[]; []] NlSbt = Ok (psi t)) /\
  (forall t c' occ' e h, allowed c' occ' -> valence_energy (xc_density linear_lib ex_vg0) G [vzero] 64 (V t) (psi t) xt c' occ' e -> fermi_dirac occ' eps = Ok h -> m t <= e - tau * h) /\
  (forall t, ewald_coulomb_repulsion erfc (displaced pos u t) ch G 64 1 T = Ok (w t)) /\
  tshape ex_c = [1; 1; 1]%nat ++ ns /\ valence_energy (xc_density linear_lib ex_vg0) G [vzero] 64 (V 0) (psi 0) xt ex_c ex_two e0 /\ fermi_dirac ex_two eps = Ok h0 /\ m 0 = e0 - tau * h0.
Proof. exact ex_warm_valence. Qed.

(** The example calculations, for the theorems about the temperature. *)
Example C158_temperature_example : forall erfc pkg, reduced_qr real_gs_qr /\ qr_product real_gs_qr /\ complex_qr gs_qr /\ qr_factors gs_qr /\ shape_ok ex_rnd /\ pair_shape_ok ex_rpw /\ (forall t gga, continuous_functional linear_lib gga t) /\
  (forall occ r, In occ ["uniform"; "idempotent"; "simplex-projector"]%string -> exists pb p0, ae_problem erfc pkg ex_ase 2 (ex_drv occ r false 8) = Ok pb /\ m3det (cr_cell (pb_crystal pb)) <> 0 /\
    length (cr_charges (pb_crystal pb)) = length (cr_positions (pb_crystal pb)) /\ ae_init ex_rnd ex_rpw pb = Ok p0 /\ bands_hold (pb_method pb) (pb_electrons pb) (pb_spin pb) (pb_bands pb) /\ bands_fit_basis pb /\
    entropy_defined pb /\ 0 < pb_eps pb) /\
  (forall occ r, In occ ["uniform"; "simplex-projector"]%string -> (occ = "simplex-projector"%string \/ r = true) ->
    exists pb p0, nc_problem erfc pkg ex_ase ex_loader ex_loader (fun l => l) ex_loc ex_nl 2 (ex_drv occ r true 8) = Ok pb /\ m3det (cr_cell (pb_crystal pb)) <> 0 /\ nc_init ex_rnd ex_rpw pb = Ok p0 /\
    (pb_electrons pb mod 2 = pb_spin pb mod 2)%Z /\ bands_hold (pb_method pb) (pb_electrons pb) (pb_spin pb) (pb_bands pb) /\ bands_fit_basis pb /\ (fixed_occ (pb_method pb) -> pb_restricted pb = true) /\ on_grid ex_loc ex_nl /\
    entropy_defined pb /\ 0 < pb_eps pb).
Proof. intros erfc pkg. split; [exact real_gs_qr_ok|]. split; [exact real_gs_qr_product|]. split; [exact gs_qr_orthonormal|]. split; [exact gs_qr_factors|]. split; [exact ex_rnd_ok|]. split; [exact ex_rpw_ok|]. split; [exact linear_continuous|]. split; [exact (ex_temp erfc pkg)|exact (ex_nc_temp erfc pkg)]. Qed.
