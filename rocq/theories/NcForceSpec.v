(** Forces on the atoms described by pseudopotentials (C157). *)
From Coq Require Import Reals.
From Coquelicot Require Import Coquelicot.
From Coq Require Import List Arith.
From Verif Require Import Base Sums Tensor DFT Lin3 EnergySpec ForceSpec LocModel LocSpec NlocModel NlocSpec.
Import ListNotations.
Local Open Scope R_scope.

(** Atom [a] moved by t u_a, with its local potential or its projectors. *)
Definition no_atom : atom := mkAtom vzero [] [] 0.
Definition no_proj : proj_atom := mkProj vzero [] [] (mkT [] (fun _ => 0)).
Definition loc_displaced (atoms : list atom) (u : nat -> v3) (t : R) : list atom := map (fun a => moved (nth a atoms no_atom) (vscale t (u a))) (seq 0 (length atoms)).
Definition proj_displaced (atoms : list proj_atom) (u : nat -> v3) (t : R) : list proj_atom := map (fun a => p_moved (nth a atoms no_proj) (vscale t (u a))) (seq 0 (length atoms)).

(** Force of the electrons (density with Fourier components [D]) on an atom whose own local potential has the
    Fourier components [V]. *)
Definition local_force (ns : list nat) (G : tensor v3) (D V : tensor C) (vol : R) : v3 :=
  vscale (vol / INR (nprod ns) ^ 2) (vsum (indices ns) (fun x => vscale (Im (Cconj (tget V x) * spin_sum D x)%C) (tget G x))).

(** The part of the plane wave G+k in the projection <beta_j Y_m at R | psi_b>: adding these up gives [projection]. *)
Definition projected_wave Y (G : tensor v3) (kpts : list v3) (a : proj_atom) (c : tensor C) (b : list nat) (k j m : nat) (x : list nat) : C :=
  let q := vadd (nth k kpts vzero) (tget G x) in
  (tget c (b ++ x) * (RtoC (tget (p_beta a) (k :: j :: x)) * harmonic Y (nth j (p_l a) 0%nat) q m * cis (-1 * dot q (p_pos a))))%C.
(** Gradient of |<beta_j Y_m at R | psi_b>|^2 with respect to R. *)
Definition projection_gradient Y (G : tensor v3) (kpts : list v3) (a : proj_atom) (c : tensor C) (b : list nat) (k j m : nat) : v3 :=
  vsum (indices (tshape G)) (fun x => vscale (2 * Im (Cconj (projection (-1) Y G kpts a c b k j m) * projected_wave Y G kpts a c b k j m x)%C) (vadd (nth k kpts vzero) (tget G x))).
(** Force of the electrons on an atom through its projectors; projector j has the weight |lambda_j|. *)
Definition nonlocal_force Y (eigh : list (list R) -> list R * list (list R)) (G : tensor v3) (kpts : list v3) (c : tensor C) (vol : R) (occ : tensor R) (sp B : nat) (a : proj_atom) : v3 :=
  vscale (- ((4 * PI) ^ 2 / vol)) (vsum (seq 0 sp) (fun s => vsum (seq 0 (length kpts)) (fun k => vsum (seq 0 B) (fun b => vscale (tget occ [s; k; b])
    (vsum (seq 0 (length (p_l a))) (fun j => vscale (Rabs (nth j (fst (eigh (p_D a))) 0)) (vsum (seq 0 (2 * nth j (p_l a) 0%nat + 1)) (fun m => projection_gradient Y G kpts a c [s; k; b] k j m)))))))).
