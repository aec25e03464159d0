(** Vocabulary of the spherical Bessel transform properties. *)
From Coq Require Import Reals List Arith.
From Verif Require Import Sums.
Import ListNotations.
Local Open Scope R_scope.

(** Simpson's rule on one panel of three equally spaced points. *)
Definition simpson_panel (h fa fm fb : R) : R := h / 3 * (fa + 4 * fm + fb).
(** Composite rule on the p panels that start at index [first]. *)
Definition composite (h : R) (F : nat -> R) (first p : nat) : R :=
  sumR (seq 0 p) (fun q => simpson_panel h (F (first + 2 * q)%nat) (F (first + 2 * q + 1)%nat) (F (first + 2 * q + 2)%nat)).
Definition cubic (a b c d t : R) : R := a + b * t + c * t ^ 2 + d * t ^ 3.
(** [r] increases weakly with steps at most [h]. *)
Fixpoint steps_upto (h : R) (r : list R) : Prop :=
  match r with a :: ((b :: _) as r') => a <= b <= a + h /\ steps_upto h r' | _ => True end.
(** Elementwise a u + b v. *)
Definition lincomb (a b : R) (u v : list R) : list R := map (fun p => a * fst p + b * snd p) (combine u v).
(** Logarithmic grid with step [h]. *)
Definition log_grid (r : list R) (h : R) : Prop := 0 < hd 0 r /\ forall i, (i < length r)%nat -> nth i r 0 = hd 0 r * exp (INR i * h).
