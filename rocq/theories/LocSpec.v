(** Vocabulary of the local pseudopotential properties. *)
From Coq Require Import List Arith ZArith Reals.
From Coquelicot Require Import Complex.
From Verif Require Import Base Sums Tensor DFT Lin3 LocModel.
Import ListNotations.
Local Open Scope R_scope.

(** One atom: position, radial grid, local potential on it, valence charge. *)
Record atom := mkAtom { a_pos : v3; a_r : list R; a_v : list R; a_z : R }.
(** The call with one entry per atom in every argument. *)
Definition local_of jn spline (atoms : list atom) (G : tensor v3) (vol : R) (m : ft_method) : res (tensor C) :=
  potential_local_reciprocal jn spline (map a_pos atoms) G (map a_r atoms) (map a_v atoms) (map a_z atoms) vol m.
Definition moved (a : atom) (t : v3) : atom := mkAtom (vadd (a_pos a) t) (a_r a) (a_v a) (a_z a).
(** v(r) + Z/r on the radial grid. *)
Definition screened (a : atom) : list R := map (fun p => snd p + a_z a / fst p) (combine (a_r a) (a_v a)).
(** Left Riemann sum of the radial integral of f(r) r^2 j_0(g r). *)
Definition radial_sum (jn : Z -> R -> R) (r f : list R) (g : R) : R :=
  sumR (seq 0 (length r - 1)) (fun i => nth i f 0 * nth i r 0 ^ 2 * jn 0%Z (g * nth i r 0) * (nth (S i) r 0 - nth i r 0)).
(** Quadrature on the real-space grid of the integral over the cell of f(|r|) exp(-i q.r). *)
Definition cell_integral (ns : list nat) (X : tensor v3) (vol : R) (f : R -> R) (q : v3) : C :=
  (RtoC (vol / INR (nprod ns)) * sumC (indices ns) (fun y => RtoC (f (norm (tget X y))) * cis (- dot q (tget X y))))%C.
