(** Specification of the derivatives of a function on one periodic axis, for the
    gradient-dependent potential. *)
From Coq Require Import Reals.
From Coquelicot Require Import Coquelicot.
From Coq Require Import Ascii String List Arith ZArith.
From Verif Require Import Base Sums GridModel Lin3 DFT XcModel.
Import ListNotations.
Local Open Scope R_scope.

(** integer frequency of index [k] on an axis of [n] points: 0, 1, ..., -2, -1 *)
Definition freq (n k : nat) : R := IZR (fftfreq (Z.of_nat n) (Z.of_nat k)).
(** Fourier coefficient [k] of [f] *)
Definition coefficient (n : nat) (f : nat -> R) (k : nat) : C :=
  sumC (seq 0 n) (fun y => RtoC (f y) * cis (- (2 * PI * (INR k * INR y / INR n))))%C.
(** the function with Fourier coefficients [c] *)
Definition synthesis (n : nat) (c : nat -> C) (x : nat) : C :=
  (RtoC (/ INR n) * sumC (seq 0 n) (fun k => c k * cis (2 * PI * (INR k * INR x / INR n))))%C.
(** first and second derivative along the axis, in units of 1 / (2 pi / length) *)
Definition deriv1 (n : nat) (f : nat -> R) : nat -> C := synthesis n (fun k => Ci * RtoC (freq n k) * coefficient n f k)%C.
Definition deriv2 (n : nat) (f : nat -> R) : nat -> C := synthesis n (fun k => RtoC (- (freq n k * freq n k)) * coefficient n f k)%C.

(** The code's factor in place of [|b|^2] for the product of the two gradients: it transforms
    the three components of [b] as if they were a grid axis. *)
Definition mixed (b : v3) : R := (vx b * vx b + 2 * (vy b * vz b)) / 3.

(** Energy per particle [exc], density and squared gradient at the points of the axis: the density
    times the derivative of [exc] by the squared gradient, where the latter is positive, and the
    part of the potential without gradients of the density. *)
Definition line_weight (exc : xcfun) (rho sigma : nat -> R) (z : nat) : R :=
  if Rlt_dec 0 (sigma z) then rho z * Derive (fun s => exc [rho z] [s]) (sigma z) else 0.
Definition line_local (exc : xcfun) (rho sigma : nat -> R) (z : nat) : R :=
  Derive (fun r => exc [r] [sigma z]) (rho z) * rho z + exc [rho z] [sigma z].

(** the correction of one channel: [t] the weight of the channel's own gradient, [c] that of the
    mixed gradient, [own] and [other] the densities *)
Definition pol_correction (n : nat) (b : v3) (t own c other : nat -> R) (z : nat) : C :=
  (RtoC 2 * (RtoC (mixed b) * (deriv1 n t z * deriv1 n own z) + RtoC (norm2 b) * (RtoC (t z) * deriv2 n own z))
   + (RtoC (mixed b) * (deriv1 n c z * deriv1 n other z) + RtoC (norm2 b) * (RtoC (c z) * deriv2 n other z)))%C.

(** What a functional named [t] contributes to the energy per particle at a point with densities [v]
    and gradient products [sg]: for two channels exchange is the mean of the unpolarised functional at
    twice each channel, and correlation is the polarised functional. *)
Definition contribution (lib : xclib) (t : string) (v sg : list R) : R :=
  match v with
  | [u; w] => if contains "_x" t
              then match lib t false with Some f => (f [2 * u] [4 * nth 0 sg 0] + f [2 * w] [4 * nth 2 sg 0]) / 2 | None => 0 end
              else match lib t true with Some f => f v sg | None => 0 end
  | _ => match lib t false with Some f => f v sg | None => 0 end
  end.
(** The energy per particle of a sum of functionals. *)
Definition per_particle (lib : xclib) (ts : list string) (v sg : list R) : R := sumR ts (fun t => contribution lib t v sg).
