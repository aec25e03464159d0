(** Vocabulary for the occupation properties: totals, ranges, distances. *)
From Coq Require Import List Arith ZArith Reals.
From Verif Require Import Base Sums Tensor.
Import ListNotations.
Local Open Scope R_scope.

(** Sum of all entries. *)
Definition total (t : tensor R) : R := sumR (indices (tshape t)) (tget t).
(** Sum of one spin channel of a [spin, kpt, band] array. *)
Definition channel (t : tensor R) (sp : nat) : R :=
  sumR (indices (tl (tshape t))) (fun i => tget t (sp :: i)).
(** Every entry lies in [lo, hi]. *)
Definition within (lo hi : R) (t : tensor R) : Prop :=
  forall i, inb i (tshape t) -> lo <= tget t i <= hi.
(** num_spin of an output: 1 if restricted, else 2. *)
Definition num_spin (restricted : bool) : nat := if restricted then 1 else 2.
(** Sum of a list; all entries in [0,1]; squared Euclidean distance of lists. *)
Fixpoint list_sum (l : list R) : R := match l with [] => 0 | v :: l' => v + list_sum l' end.
Definition unit_entries (l : list R) : Prop := forall v, In v l -> 0 <= v <= 1.
Fixpoint sqdist (a b : list R) : R :=
  match a, b with x :: a', y :: b' => (x - y) * (x - y) + sqdist a' b' | _, _ => 0 end.
Definition constant_list (l : list R) : Prop := forall a b, In a l -> In b l -> a = b.

(** What jnp.linalg.qr(mode='reduced')[0] guarantees: an M x min(M,m) matrix with
    orthonormal columns. *)
Definition reduced_qr (qr : tensor R -> tensor R) : Prop :=
  forall w M m, tshape w = [M; m] ->
    tshape (qr w) = [M; Nat.min M m] /\
    forall j l, (j < Nat.min M m)%nat -> (l < Nat.min M m)%nat ->
      sumR (seq 0 M) (fun i => tget (qr w) [i; j] * tget (qr w) [i; l]) = if Nat.eqb j l then 1 else 0.
(** A random generator returns the shape it is asked for. *)
Definition shape_ok (rnd : list nat -> tensor R) : Prop := forall sh, tshape (rnd sh) = sh.
