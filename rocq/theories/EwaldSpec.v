(** Vocabulary for the Ewald properties. *)
From Coq Require Import Reals.
From Coquelicot Require Import Coquelicot.
From Coq Require Import List.
From Verif Require Import Base Sums Tensor Lin3.
Import ListNotations.
Local Open Scope R_scope.

(** Atoms as (position, charge) pairs. *)
Definition positions (l : list (v3 * R)) : list v3 := map fst l.
Definition charges (l : list (v3 * R)) : list R := map snd l.
(** Rotations and reflections. *)
Definition orthogonal (Q : m3) : Prop := m3mul Q (m3t Q) = m3id.
(** Sum over ordered pairs of atoms of q q' f(r' - r). *)
Definition pair_sum (l : list (v3 * R)) (f : v3 -> R) : R :=
  sumR l (fun a => sumR l (fun b => snd a * snd b * f (vsub (fst b) (fst a)))).
(** The same atoms with every position mapped by f. *)
Definition move_all (f : v3 -> v3) (l : list (v3 * R)) : list (v3 * R) := map (fun a => (f (fst a), snd a)) l.

(** The complementary error function. *)
Definition erfc (x : R) : R := 1 - 2 / sqrt PI * RInt (fun t => exp (- t ^ 2)) 0 x.
(** What is used of an implementation of it. *)
Definition erfc_ok (f : R -> R) : Prop :=
  (forall x, 0 <= x -> 0 <= f x <= 1) /\ forall x y, Rabs (f x - f y) <= 2 / sqrt PI * Rabs (x - y).
(** The Ewald formula for translations T and reciprocal vectors Gs: screened pairs at every
    non-zero distance, smooth part over the non-zero reciprocal vectors, self energy, neutralising
    background. *)
Definition screened (f : R -> R) (eta : R) (v : v3) : R := if Req_EM_T (norm v) 0 then 0 else f (eta * norm v) / norm v.
Definition smooth (vol eta : R) (tau g : v3) : R :=
  if Req_EM_T (norm g) 0 then 0 else 4 * PI / vol * (exp (- (norm g) ^ 2 / (4 * eta ^ 2)) / (norm g) ^ 2 * cos (dot g tau)).
Definition ewald_formula (f : R -> R) (l : list (v3 * R)) (Gs : list v3) (vol eta : R) (T : list v3) : R :=
  pair_sum l (fun tau => sumR T (fun t => screened f eta (vsub tau t)) + sumR Gs (smooth vol eta tau)) / 2
  - eta / sqrt PI * sumR (charges l) (fun q => q ^ 2) - PI / (2 * vol * eta ^ 2) * sumR (charges l) (fun q => q) ^ 2.
(** Error of the regularised distance per pair and translation when all non-zero distances are at
    least delta. *)
Definition regular_error (eta delta : R) : R := / 10 ^ 20 * (1 + eta / delta ^ 2 + / delta ^ 3).
