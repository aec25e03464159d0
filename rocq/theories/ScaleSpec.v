(** Vocabulary for the uniform scaling of a crystal (C138). *)
From Coq Require Import Reals.
From Coquelicot Require Import Coquelicot.
From Coq Require Import Ascii String List Arith Bool.
From Verif Require Import Base Sums Tensor Lin3 XcModel EnergySpec.
Import ListNotations.
Local Open Scope R_scope.

(** The attraction of the electrons, with the density [D] in reciprocal space, by point charges at
    [pos], with [delta] added to every |G|^2; [ns] are the sizes of the grid. *)
Definition attraction (ns : list nat) (G : tensor v3) (D : tensor C) (pos : list v3) (charge : list R) (delta : R) : R :=
  - (4 * PI / INR (nprod ns)) *
  Re (sumC (filter (existsb (fun k => negb (k =? 0)%nat)) (indices ns))
        (fun g => Cconj (structure_factor charge pos (tget G g)) * spin_sum D g * RtoC (/ (norm2 (tget G g) + delta)))%C).

(** Every named functional is homogeneous as exchange is: when all lengths grow by [lam], densities
    shrink by lam^3 and squared gradients by lam^8, and the energy per particle shrinks by [lam]. *)
Definition exchange_like (lib : xclib) (xt : string) (lam : R) : Prop :=
  forall t b, In t (split_on "+" xt) -> exists f, lib t b = Some f /\
    forall v s, f (map (fun r => r / lam ^ 3) v) (map (fun r => r / lam ^ 8) s) = f v s / lam.
