(** Forces on the atoms (C141). *)
From Coq Require Import Reals.
From Coquelicot Require Import Coquelicot.
From Coq Require Import List Arith.
From Verif Require Import Base Sums Tensor DFT Lin3 EnergySpec.
Import ListNotations.
Local Open Scope R_scope.

Definition vsum {X} (l : list X) (f : X -> v3) : v3 := V3 (sumR l (fun x => vx (f x))) (sumR l (fun x => vy (f x))) (sumR l (fun x => vz (f x))).
(** Atom [a] moved by t u_a. *)
Definition displaced (pos : list v3) (u : nat -> v3) (t : R) : list v3 := map (fun a => vadd (nth a pos vzero) (vscale t (u a))) (seq 0 (length pos)).
(** The work done by forces [F] when the atoms move by [u]. *)
Definition work (n : nat) (F u : nat -> v3) : R := sumR (seq 0 n) (fun a => dot (F a) (u a)).

(** Force of the electrons (density with Fourier components [D]) on atom [a]. *)
Definition electron_force (ns : list nat) (G : tensor v3) (D : tensor C) (pos : list v3) (charge : list R) (a : nat) : v3 :=
  let q x := tget G x in
  vscale (- (4 * PI / INR (nprod ns)) * nth a charge 0) (vsum (filter (fun x => negb (forallb (Nat.eqb 0) x)) (indices ns)) (fun x =>
    vscale (Im (cis (dot (q x) (nth a pos vzero)) * spin_sum D x)%C / (norm2 (q x) + / 10 ^ 10)) (q x))).

(** Gradient of the Ewald potential of one unit charge at [tau] with all its images; [f'] is the derivative
    of the complementary error function [f].  The distance of each image is sqrt(d^2 + 1e-20), and images at a distance
    of at most 1e-9 do not count. *)
Definition ewald_gradient (f f' : R -> R) (eta : R) (T : list v3) (G : tensor v3) (vol : R) (tau : v3) : v3 :=
  vadd (vsum T (fun t => let v := vsub tau t in let d := sqrt (norm2 v + / 10 ^ 20) in
          if Rle_dec d (/ 10 ^ 9) then vzero else vscale ((eta * d * f' (eta * d) - f (eta * d)) / d ^ 3) v))
       (vscale (- (4 * PI / vol)) (vsum (filter (fun x => negb (forallb (Nat.eqb 0) x)) (indices (tshape G))) (fun x => let q := tget G x in
          vscale (exp (- norm2 q / (4 * eta ^ 2)) / norm2 q * sin (dot q tau)) q))).
Definition nuclear_force (f f' : R -> R) (eta : R) (T : list v3) (G : tensor v3) (vol : R) (pos : list v3) (charge : list R) (a : nat) : v3 :=
  let r i := nth i pos vzero in let g := ewald_gradient f f' eta T G vol in
  vscale (- nth a charge 0 / 2) (vsum (seq 0 (length pos)) (fun i => vscale (nth i charge 0) (vsub (g (vsub (r a) (r i))) (g (vsub (r i) (r a)))))).
