(** Vocabulary for the plane-wave properties. *)
From Coq Require Import List Arith ZArith Reals.
From Coquelicot Require Import Complex.
From Verif Require Import Base Sums Tensor DFT GridModel Lin3 VecModel.
Import ListNotations.
Local Open Scope C_scope.

(** Inner product over the grid [ns] of the entries of [c] at leading indices [i] and [j]. *)
Definition inner (ns : list nat) (c : tensor C) (i j : list nat) : C :=
  sumC (indices ns) (fun g => Cconj (tget c (i ++ g)) * tget c (j ++ g)).

(** For every leading index b, the bands k are orthonormal over the grid [ns]. *)
Definition orthonormal_bands (bs : list nat) (B : nat) (ns : list nat) (c : tensor C) : Prop :=
  forall b k k', inb b bs -> (k < B)%nat -> (k' < B)%nat ->
    inner ns c (b ++ [k]) (b ++ [k']) = RtoC (if Nat.eqb k k' then 1 else 0).

(** Contract of jnp.linalg.qr(mode='reduced')[0], batched. *)
Definition complex_qr (qr : tensor C -> tensor C) : Prop :=
  forall w bs M m, tshape w = bs ++ [M; m] ->
    tshape (qr w) = bs ++ [M; Nat.min M m] /\
    forall b j l, inb b bs -> (j < Nat.min M m)%nat -> (l < Nat.min M m)%nat ->
      sumC (seq 0 M) (fun i => Cconj (tget (qr w) (b ++ [i; j])) * tget (qr w) (b ++ [i; l]))
      = RtoC (if Nat.eqb j l then 1 else 0).

(** Position of the opposite frequency, and position shifted by an integer vector. *)
Definition neg_index (ns i : list nat) : list nat :=
  map (fun p => ((fst p - snd p) mod fst p)%nat) (combine ns i).
Definition shift_index (ns i : list nat) (t : list Z) : list nat :=
  map (fun p => Z.to_nat ((Z.of_nat (snd (fst p)) - snd p) mod Z.of_nat (fst (fst p)))%Z) (combine (combine ns i) t).
(** Integer frequency vector of a position. *)
Definition freqs (ns i : list nat) : list Z :=
  map (fun p => fftfreq (Z.of_nat (fst p)) (Z.of_nat (snd p))) (combine ns i).

(** The orbital and the density at an arbitrary point, as in the documentation:
    psi(r) = (1/sqrt vol) sum_G c_G exp(i G.r), rho(r) = sum occ |psi(r)|^2. *)
Definition orbital_at (ns : list nat) (G : tensor v3) (vol : R) (c : tensor C) (b : list nat) (r : v3) : C :=
  RtoC (/ sqrt vol) * sumC (indices ns) (fun x => tget c (b ++ x) * cis (dot (tget G x) r)).
Definition density_at (ns : list nat) (G : tensor v3) (vol : R) (c : tensor C) (occ : tensor R) (r : v3) : R :=
  sumR (indices (tshape occ)) (fun b => tget occ b * Cnorm2 (orbital_at ns G vol c b r))%R.
