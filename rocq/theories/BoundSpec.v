(** A lower bound of the energy (C143). *)
From Coq Require Import Reals.
From Coquelicot Require Import Coquelicot.
From Coq Require Import String List Arith.
From Verif Require Import Base Sums Tensor Lin3 OccSpec XcModel.
Import ListNotations.
Local Open Scope R_scope.

(** All electrons of the occupations. *)
Definition electrons (occ : tensor R) : R := sumR (seq 0 (hd 0%nat (tshape occ))) (channel occ).
(** The functional named [t] has at most the energy [fl] per electron to give, for one density (or two
    spin densities) up to [m] and whatever their gradients. *)
Definition per_electron_floor (lib : xclib) (t : string) (m fl : R) : Prop :=
  forall pol, exists f, lib t pol = Some f /\ forall v sg, length v = (if pol then 2 else 1)%nat -> Forall (fun n => 0 <= n <= m) v -> - fl <= f v sg.
(** The attraction of all nuclei at all wave vectors. *)
Definition attraction_limit (ns : list nat) (G : tensor v3) (charge : list R) (vol : R) : R :=
  4 * PI / vol * sumR charge Rabs * sumR (filter (fun x => negb (forallb (Nat.eqb 0) x)) (indices ns)) (fun x => / (norm2 (tget G x) + / 10 ^ 10)).
