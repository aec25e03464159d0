(** States of lowest energy (C148). *)
From Coq Require Import Reals.
From Coquelicot Require Import Coquelicot.
From Coq Require Import String List Arith.
From Verif Require Import Base Sums Tensor XcModel OccModel DrvModel DrvSpec.
Import ListNotations.
Local Open Scope R_scope.

(** The functional named [t] is a continuous function of one density or two spin densities, none of
    them negative, and, when [gga], of one or three products of their gradients. *)
Definition continuous_functional (lib : xclib) (gga : bool) (t : string) : Prop :=
  forall pol : bool, exists f, lib t pol = Some f /\
    forall v sg, length v = (if pol then 2 else 1)%nat -> length sg = (if gga then if pol then 3 else 1 else 0)%nat -> Forall (Rle 0) v ->
    forall eps, 0 < eps -> exists d, 0 < d /\ forall v' sg', Forall (Rle 0) v' ->
      Forall2 (fun a b => Rabs (b - a) < d) v v' -> Forall2 (fun a b => Rabs (b - a) < d) sg sg' -> Rabs (f v' sg' - f v sg) < eps.
(** Near occupations outside of the set are outside of it. *)
Definition closed_occupations (sp K B : nat) (O : tensor R -> Prop) : Prop :=
  forall occ, tshape occ = [sp; K; B] -> ~ O occ -> exists d, 0 < d /\
    forall occ', tshape occ' = [sp; K; B] -> (forall i, inb i [sp; K; B] -> Rabs (tget occ' i - tget occ i) < d) -> ~ O occ'.
(** Some parameters of the run give the occupation. *)
Definition described (qr : tensor R -> tensor R) (pb : problem) (p0 : params) (occ : tensor R) : Prop :=
  exists p o, reachable pb p0 p /\ get_occupation qr pb p = Ok o /\ teq o occ.
(** Members of [O] come as near to the occupation as wanted. *)
Definition limit_occupation (sh : list nat) (O : tensor R -> Prop) (occ : tensor R) : Prop :=
  tshape occ = sh /\ forall d, 0 < d -> exists occ', O occ' /\ tshape occ' = sh /\ forall i, inb i sh -> Rabs (tget occ' i - tget occ i) < d.
