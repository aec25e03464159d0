(** Vocabulary of the angular properties. *)
From Coq Require Import Reals ZArith List.
From Coquelicot Require Import Coquelicot.
From Verif Require Import SphModel Sums.
Import ListNotations.
Local Open Scope R_scope.

Definition dot (a b : vec) : R := vx a * vx b + vy a * vy b + vz a * vz b.
Definition origin : vec := (0, 0, 0).
(** Cartesian point with radius r, azimuth theta, polar angle phi. *)
Definition spherical_point (s : vec) : vec :=
  let r := vx s in let theta := vy s in let phi := vz s in (r * sin phi * cos theta, r * sin phi * sin theta, r * cos phi).
(** Legendre polynomials, by Bonnet's recursion (n+1) P_(n+1) = (2n+1) x P_n - n P_(n-1). *)
Fixpoint legendre_pair (n : nat) (x : R) : R * R :=
  match n with
  | O => (1, x)
  | S n' => let '(p, q) := legendre_pair n' x in (q, ((2 * INR n' + 3) * x * q - (INR n' + 1) * p) / (INR n' + 2))
  end.
Definition legendre (n : nat) (x : R) : R := fst (legendre_pair n x).
(** Conjugation symmetry of the complex spherical harmonics. *)
Definition conjugation_symmetry (Y : Z -> Z -> R -> R -> C) (l : nat) : Prop :=
  forall m polar azimuth, (0 <= m <= Z.of_nat l)%Z ->
    Y (Z.of_nat l) (- m)%Z polar azimuth = Cmult (RtoC (if Z.even m then 1 else -1)) (Cconj (Y (Z.of_nat l) m polar azimuth)).
(** Addition theorem, for polar angles in [0, pi]. *)
Definition addition_theorem (Y : Z -> Z -> R -> R -> C) (l : nat) : Prop :=
  forall polar azimuth polar' azimuth', 0 <= polar <= PI -> 0 <= polar' <= PI ->
    sumC (ms l) (fun m => Cmult (Y (Z.of_nat l) m polar azimuth) (Cconj (Y (Z.of_nat l) m polar' azimuth'))) =
    RtoC ((2 * INR l + 1) / (4 * PI) * legendre l (dot (spherical_point (1, azimuth, polar)) (spherical_point (1, azimuth', polar')))).

(** The standard spherical harmonics (as in scipy and jax).  The associated Legendre function is
    P_l^m(x) = (1 - x^2)^(m/2) d^m/dx^m P_l(x); for m >= 0
    Y_l^m = (-1)^m sqrt((2l+1)/(4 pi) (l-m)!/(l+m)!) P_l^m(cos polar) e^(i m azimuth),
    and Y_l^(-m) = (-1)^m conj(Y_l^m). *)
Definition assoc_legendre (l m : nat) (x : R) : R := sqrt (1 - x ^ 2) ^ m * Derive_n (legendre l) m x.
Definition harmonic_nonneg (l m : nat) (polar azimuth : R) : C :=
  Cmult (RtoC ((-1) ^ m * sqrt ((2 * INR l + 1) / (4 * PI) * (INR (fact (l - m)) / INR (fact (l + m)))) * assoc_legendre l m (cos polar)))
        (cos (INR m * azimuth), sin (INR m * azimuth)).
Definition standard_harmonic (l m : Z) (polar azimuth : R) : C :=
  if (0 <=? m)%Z then harmonic_nonneg (Z.to_nat l) (Z.to_nat m) polar azimuth
  else Cmult (RtoC ((-1) ^ Z.to_nat (- m))) (Cconj (harmonic_nonneg (Z.to_nat l) (Z.to_nat (- m)) polar azimuth)).
(** The real harmonics, explicitly: sqrt 2 N P_l^|m|(cos polar) times cos(m azimuth) for m > 0 and
    sin(|m| azimuth) for m < 0, and N P_l(cos polar) for m = 0: no sign (-1)^m. *)
Definition real_harmonic (l : nat) (m : Z) (polar azimuth : R) : R :=
  let n := Z.abs_nat m in
  (if (m =? 0)%Z then 1 else sqrt 2) * sqrt ((2 * INR l + 1) / (4 * PI) * (INR (fact (l - n)) / INR (fact (l + n)))) * assoc_legendre l n (cos polar) *
  (if (0 <=? m)%Z then cos (INR n * azimuth) else sin (INR n * azimuth)).
