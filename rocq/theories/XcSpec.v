(** Vocabulary for the exchange-correlation properties. *)
From Coq Require Import Reals.
From Coquelicot Require Import Complex.
From Coq Require Import Ascii String List Arith.
From Verif Require Import Base Sums Tensor DFT Lin3 VecModel XcModel.
Import ListNotations.
Local Open Scope R_scope.

(** A functional name that is one LDA exchange functional: no '+', "_x" inside, no "gga". *)
Definition exchange_name (xt : string) : Prop := split_on "+" xt = [xt] /\ contains "_x" xt = true /\ contains "gga" xt = false.

(** The trigonometric interpolant of a grid function, at any point of space. *)
Definition interpolant (ns : list nat) (G : tensor v3) (f : list nat -> R) (r : v3) : C :=
  (RtoC (/ INR (nprod ns)) * sumC (indices ns) (fun g => dft ns (fun y => RtoC (f y)) g * cis (dot (tget G g) r)))%C.

(** A complex vector, given by its three components, along a direction. *)
Definition vec (c : nat -> C) (e : v3) : C := (c 0%nat * RtoC (vx e) + c 1%nat * RtoC (vy e) + c 2%nat * RtoC (vz e))%C.

(** The energy per particle of a sum of local functionals of one unpolarised density. *)
Definition local_particle (lib : xclib) (ts : list string) (r : R) : R :=
  sumR ts (fun t => match lib t false with Some f => f [r] [] | None => 0 end).
