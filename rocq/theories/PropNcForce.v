(** Forces on atoms described by pseudopotentials (C157). *)
From Coq Require Import Reals.
From Coquelicot Require Import Coquelicot.
From Coq Require Import Ascii String List Arith ZArith Bool.
From Verif Require Import Base Sums Tensor GridModel Lin3 VecModel OccModel PwModel PwSpec XcModel XcSpec EwaldModel EwaldSpec EnergyModel EnergySpec LocModel LocSpec LocProofs2 NlocModel NlocSpec NlocProofs6 NcAttSpec ForceSpec BoundProofs2 GeomProofs
  NcForceSpec NcForceProofs NcForceProofs2.
Import ListNotations.
Local Open Scope R_scope.

(** Moving every atom along its own direction u_a: the local energy of a fixed density changes by
    minus the work of the local forces.  [Va a] is the potential of atom a alone. *)
Theorem C157_local : forall jn spline m G vol atoms (Va : nat -> tensor C), atoms <> [] -> (forall a, (a < length atoms)%nat -> local_of jn spline [nth a atoms no_atom] G vol m = Ok (Va a)) ->
  forall D sp n1 n2 n3 u, let ns := [n1; n2; n3] in tshape G = ns -> tshape D = sp :: ns ->
  exists E : R -> R, (forall t, exists V, local_of jn spline (loc_displaced atoms u t) G vol m = Ok V /\ tshape V = ns /\ energy_local D V vol = Ok (E t)) /\
    is_derive E 0 (- work (length atoms) (fun a => local_force ns G D (Va a) vol) u).
Proof. exact local_derive. Qed.
Print Assumptions C157_local.

(** The same for the energy in the projectors, at fixed orbitals and occupations. *)
Theorem C157_nonlocal : forall jn spline Y eigh m G kpts vol atoms rs betas c occ sp B n1 n2 n3 u, let ns := [n1; n2; n3] in let K := length kpts in
  tshape G = ns -> tshape c = [sp; K; B] ++ ns -> tshape occ = [sp; K; B] -> columns eigh atoms -> (exists psi, psi_of jn spline Y eigh atoms G kpts rs betas m = Ok psi) ->
  exists E : R -> R, (forall t, exists psi nb nm, psi_of jn spline Y eigh (proj_displaced atoms u t) G kpts rs betas m = Ok psi /\ tshape psi = [K; nb; nm] ++ ns /\ energy_nonlocal c psi vol (Some occ) = Ok (E t)) /\
    is_derive E 0 (- work (length atoms) (fun a => nonlocal_force Y eigh G kpts c vol occ sp B (nth a atoms no_proj)) u).
Proof. exact nonlocal_derive. Qed.
Print Assumptions C157_nonlocal.

(** The whole energy of the valence electrons. *)
Theorem C157_valence : forall jn spline ml Y eigh mn rs betas la pa (Va : nat -> tensor C) (lib : xclib) vg xt A c G kpts vol occ sp B n1 n2 n3 u, let ns := [n1; n2; n3] in let K := length kpts in
  m3det A <> 0 -> g_vectors A ns = Ok G -> (sp = 1 \/ sp = 2)%nat -> (forall t pol, In t (split_on "+" xt) -> lib t pol <> None) -> tshape c = [sp; K; B] ++ ns -> tshape occ = [sp; K; B] ->
  la <> [] -> length pa = length la -> (forall a, (a < length la)%nat -> local_of jn spline [nth a la no_atom] G vol ml = Ok (Va a)) ->
  columns eigh pa -> (exists psi, psi_of jn spline Y eigh pa G kpts rs betas mn = Ok psi) ->
  exists D E, density_grid_reciprocal c vol (Some occ) = Ok D /\
    (forall t, exists V psi, local_of jn spline (loc_displaced la u t) G vol ml = Ok V /\ psi_of jn spline Y eigh (proj_displaced pa u t) G kpts rs betas mn = Ok psi /\
       valence_energy (xc_density lib vg) G kpts vol V psi xt c occ (E t)) /\
    is_derive E 0 (- work (length la) (fun a => vadd (local_force ns G D (Va a) vol) (nonlocal_force Y eigh G kpts c vol occ sp B (nth a pa no_proj))) u).
Proof. exact valence_derive. Qed.
Print Assumptions C157_valence.

(** m t is a lower bound of the valence energies of the allowed states after the move t u, attained at
    t = 0 by (c, occ); w t is the repulsion of the cores.  The forces of that one state tell how m + w changes. *)
Theorem C157_ground : forall jn spline ml Y eigh mn rs betas la pa (Va : nat -> tensor C) (lib : xclib) vg xt (f f' : R -> R) A pos ch G kpts vol eta T sp B n1 n2 n3 u (allowed : tensor C -> tensor R -> Prop) (V psi : R -> tensor C) (m w : R -> R) c occ,
  let ns := [n1; n2; n3] in let K := length kpts in
  m3det A <> 0 -> g_vectors A ns = Ok G -> vol <> 0 -> (sp = 1 \/ sp = 2)%nat -> (forall t pol, In t (split_on "+" xt) -> lib t pol <> None) ->
  la <> [] -> length pa = length la -> length pos = length la -> length ch = length la -> (forall a, (a < length la)%nat -> local_of jn spline [nth a la no_atom] G vol ml = Ok (Va a)) -> columns eigh pa ->
  (forall x, is_derive f x (f' x)) -> eta <> 0 ->
  (forall i j t, (i < length pos)%nat -> (j < length pos)%nat -> In t T -> sqrt (Lin3.norm2 (vsub (vsub (nth j pos vzero) (nth i pos vzero)) t) + / 10 ^ 20) <> / 10 ^ 9) ->
  (forall t, local_of jn spline (loc_displaced la u t) G vol ml = Ok (V t) /\ psi_of jn spline Y eigh (proj_displaced pa u t) G kpts rs betas mn = Ok (psi t)) ->
  (forall t c' occ' e, allowed c' occ' -> valence_energy (xc_density lib vg) G kpts vol (V t) (psi t) xt c' occ' e -> m t <= e) ->
  (forall t, ewald_coulomb_repulsion f (displaced pos u t) ch G vol eta T = Ok (w t)) ->
  allowed c occ -> tshape c = [sp; K; B] ++ ns -> tshape occ = [sp; K; B] -> valence_energy (xc_density lib vg) G kpts vol (V 0) (psi 0) xt c occ (m 0) ->
  exists D, density_grid_reciprocal c vol (Some occ) = Ok D /\
    let W := work (length la) (fun a => vadd (vadd (local_force ns G D (Va a) vol) (nonlocal_force Y eigh G kpts c vol occ sp B (nth a pa no_proj))) (nuclear_force f f' eta T G vol pos ch a)) u in let E t := m t + w t in
    (forall eps, 0 < eps -> exists d, 0 < d /\ forall t, Rabs t < d -> E t <= E 0 - t * W + eps * Rabs t) /\
    (forall l, is_derive E 0 l -> l = - W) /\ (0 < W -> exists d, 0 < d /\ forall t, 0 < t < d -> E t < E 0).
Proof. exact valence_ground. Qed.
Print Assumptions C157_ground.

(** Two atoms with a projector each, and one doubly filled orbital, meet all hypotheses. *)
Example C157_example : forall xt u, let A := M3 (V3 4 0 0) (V3 0 4 0) (V3 0 0 4) in let ns := [1; 1; 3]%nat in let pos := [V3 0 0 0; V3 1 1 1] in let T := [vzero; V3 4 0 0] in let ch := [1; 2] in
  exists G Va (V psi : R -> tensor C) (m w : R -> R), let allowed c' occ' := c' = ex_c /\ occ' = ex_two in
  m3det A <> 0 /\ g_vectors A ns = Ok G /\ (forall t pol, In t (split_on "+" xt) -> linear_lib t pol <> None) /\ (forall a, (a < length ex_la)%nat -> local_of ex_jn ex_spline [nth a ex_la no_atom] G 64 SbtMethod = Ok (Va a)) /\
  columns ex_eigh ex_pas /\ (exists psi, psi_of ex_jn ex_spline ex_Y ex_eigh ex_pas G [vzero] [] [[]; []] NlSbt = Ok psi) /\ (forall x, is_derive erfc x (- (2 / sqrt PI) * exp (- x ^ 2))) /\
  (forall i j t, (i < length pos)%nat -> (j < length pos)%nat -> In t T -> sqrt (Lin3.norm2 (vsub (vsub (nth j pos vzero) (nth i pos vzero)) t) + / 10 ^ 20) <> / 10 ^ 9) /\
  (forall t, local_of ex_jn ex_spline (loc_displaced ex_la u t) G 64 SbtMethod = Ok (V t) /\ psi_of ex_jn ex_spline ex_Y ex_eigh (proj_displaced ex_pas u t) G [vzero] [] [[]; []] NlSbt = Ok (psi t)) /\
  (forall t c' occ' e, allowed c' occ' -> valence_energy (xc_density linear_lib ex_vg0) G [vzero] 64 (V t) (psi t) xt c' occ' e -> m t <= e) /\
  (forall t, ewald_coulomb_repulsion erfc (displaced pos u t) ch G 64 1 T = Ok (w t)) /\
  tshape ex_c = [1; 1; 1]%nat ++ ns /\ valence_energy (xc_density linear_lib ex_vg0) G [vzero] 64 (V 0) (psi 0) xt ex_c ex_two (m 0).
Proof. exact ex_forces. Qed.
