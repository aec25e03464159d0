(** The ground-state energy and the forces (C147). *)
From Coq Require Import Reals Lra Lia.
From Coquelicot Require Import Coquelicot.
From Coq Require Import Ascii String List Arith ZArith Bool.
From Verif Require Import Base Sums Tensor GridModel PadModel Lin3 VecModel PwModel PwSpec XcModel EwaldModel EwaldSpec EnergyModel EnergySpec ForceSpec BoundSpec BoundProofs2 ReachSpec GeomSpec GeomProofs.
Import ListNotations.
Local Open Scope R_scope.

(** Whatever states are allowed (all of a basis, or some of them), as long as they hold a fixed
    number of electrons their energies have one greatest lower bound. *)
Theorem C147_ground_exists : forall lib vg xt A pos ch G kpts vol sp B n1 n2 n3 mask N fl (allowed : tensor C -> tensor R -> Prop), let ns := [n1; n2; n3] in let K := length kpts in
  m3det A <> 0 -> g_vectors A ns = Ok G -> 0 < vol -> (sp = 1 \/ sp = 2)%nat -> length ch = length pos -> tshape mask = ns ->
  (forall t, In t (split_on "+" xt) -> per_electron_floor lib t (2 * (N * INR (nprod ns) / vol)) fl) ->
  (forall c occ, allowed c occ -> electron_state sp K B mask N c occ) -> (exists c occ, allowed c occ) ->
  exists m, ground allowed (fun c occ => total_energy (xc_density lib vg) c pos ch G kpts vol (Some occ) false xt) m /\
    (forall m', ground allowed (fun c occ => total_energy (xc_density lib vg) c pos ch G kpts vol (Some occ) false xt) m' -> m' = m).
Proof. exact ground_of_states. Qed.
Print Assumptions C147_ground_exists.

(** E t: lowest energy of the electrons plus repulsion of the nuclei after the atoms have moved by t u.
    The state (c, occ) has the lowest energy before the move.  Then the forces of this state alone
    tell how E changes: E lies below its tangent up to a smaller term, the derivative of E, if it has
    one, is minus the work, and a short move the forces favour lowers E. *)
Theorem C147_hellmann_feynman : forall lib vg xt (f f' : R -> R) A pos ch G kpts vol eta T sp B n1 n2 n3 u (allowed : tensor C -> tensor R -> Prop) (m w : R -> R) c occ,
  let ns := [n1; n2; n3] in let K := length kpts in let xcd := xc_density lib vg in
  m3det A <> 0 -> g_vectors A ns = Ok G -> vol <> 0 -> (sp = 1 \/ sp = 2)%nat -> (forall t pol, In t (split_on "+" xt) -> lib t pol <> None) -> length ch = length pos ->
  (forall x, is_derive f x (f' x)) -> eta <> 0 ->
  (forall i j t, (i < length pos)%nat -> (j < length pos)%nat -> In t T -> sqrt (Lin3.norm2 (vsub (vsub (nth j pos vzero) (nth i pos vzero)) t) + / 10 ^ 20) <> / 10 ^ 9) ->
  (forall c occ, allowed c occ -> tshape c = [sp; K; B] ++ ns /\ tshape occ = [sp; K; B]) ->
  (forall t, ground allowed (fun c occ => total_energy xcd c (displaced pos u t) ch G kpts vol (Some occ) false xt) (m t)) ->
  (forall t, ewald_coulomb_repulsion f (displaced pos u t) ch G vol eta T = Ok (w t)) ->
  allowed c occ -> total_energy xcd c pos ch G kpts vol (Some occ) false xt = Ok (m 0) ->
  exists D, density_grid_reciprocal c vol (Some occ) = Ok D /\
    let W := work (length pos) (fun a => vadd (electron_force ns G D pos ch a) (nuclear_force f f' eta T G vol pos ch a)) u in let E t := m t + w t in
    (forall eps, 0 < eps -> exists d, 0 < d /\ forall t, Rabs t < d -> E t <= E 0 - t * W + eps * Rabs t) /\
    (forall l, is_derive E 0 l -> l = - W) /\ (0 < W -> exists d, 0 < d /\ forall t, 0 < t < d -> E t < E 0).
Proof. exact hellmann_feynman. Qed.
Print Assumptions C147_hellmann_feynman.

(** Two atoms, and all orbitals that differ from a given one by a phase. *)
Example C147_example : forall xt c occ u, let A := M3 (V3 4 0 0) (V3 0 4 0) (V3 0 0 4) in let ns := [2; 3; 4]%nat in let pos := [V3 0 0 0; V3 1 1 1] in let T := [vzero; V3 4 0 0] in let ch := [1; 2] in
  tshape c = [1; 1; 1]%nat ++ ns -> tshape occ = [1; 1; 1]%nat -> orthonormal_bands [1; 1]%nat 1 ns c ->
  exists G (m w : R -> R), let allowed c' occ' := same_up_to_phase 1 1 1 ns c c' /\ occ' = occ in
  m3det A <> 0 /\ g_vectors A ns = Ok G /\ (forall t pol, In t (split_on "+" xt) -> linear_lib t pol <> None) /\ (forall x, is_derive erfc x (- (2 / sqrt PI) * exp (- x ^ 2))) /\
  (forall i j t, (i < length pos)%nat -> (j < length pos)%nat -> In t T -> sqrt (Lin3.norm2 (vsub (vsub (nth j pos vzero) (nth i pos vzero)) t) + / 10 ^ 20) <> / 10 ^ 9) /\
  (forall c' occ', allowed c' occ' -> tshape c' = [1; 1; 1]%nat ++ ns /\ tshape occ' = [1; 1; 1]%nat) /\
  (forall t, ground allowed (fun c occ => total_energy (xc_density linear_lib ex_vg0) c (displaced pos u t) ch G [vzero] 64 (Some occ) false xt) (m t)) /\
  (forall t, ewald_coulomb_repulsion erfc (displaced pos u t) ch G 64 1 T = Ok (w t)) /\
  allowed c occ /\ total_energy (xc_density linear_lib ex_vg0) c pos ch G [vzero] 64 (Some occ) false xt = Ok (m 0).
Proof. exact ex_geom. Qed.
