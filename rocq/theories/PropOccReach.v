(** Which occupations the capped-simplex method describes (C145). *)
From Coq Require Import Reals List Arith ZArith.
From Verif Require Import Base Tensor OccModel OccSpec OccReachSpec OccReachProofs.
Import ListNotations.
Local Open Scope R_scope.

(** Some parameters give the occupation exactly if it holds the right number of electrons in each
    channel and no channel has both an empty and a full state. *)
Theorem C145_described : forall occ N s K B, (1 <= K)%nat -> tshape occ = [2; K; B]%nat -> (0 < (N - Z.abs s) / 2)%Z -> ((N + Z.abs s) / 2 < Z.of_nat B)%Z ->
  (exists up down o, tshape up = [K; B] /\ tshape down = [K; B] /\ simplex_projector up down N s false = Ok o /\ teq o occ) <->
  admissible occ K B N s /\ forall i, (i < 2)%nat -> ~ (has_empty occ i K B /\ has_full occ i K B).
Proof. exact simplex_reach. Qed.
Print Assumptions C145_described.

(** With the spins summed, no result has both an empty and a doubly occupied state. *)
Theorem C145_restricted : forall up down N s K B o, (1 <= K)%nat -> (0 < (N - Z.abs s) / 2)%Z -> ((N + Z.abs s) / 2 < Z.of_nat B)%Z ->
  tshape up = [K; B] -> tshape down = [K; B] -> simplex_projector up down N s true = Ok o ->
  ~ ((exists k b, (k < K)%nat /\ (b < B)%nat /\ tget o [0%nat; k; b] = 0) /\ (exists k b, (k < K)%nat /\ (b < B)%nat /\ tget o [0%nat; k; b] = 2 / INR K)).
Proof. exact simplex_reach_restricted. Qed.
Print Assumptions C145_restricted.

(** Every occupation with the right number of electrons is approached as closely as wanted. *)
Theorem C145_approached : forall occ N s K B eps, (1 <= K)%nat -> (0 < (N - Z.abs s) / 2)%Z -> ((N + Z.abs s) / 2 < Z.of_nat B)%Z -> admissible occ K B N s -> 0 < eps ->
  exists up down o, tshape up = [K; B] /\ tshape down = [K; B] /\ simplex_projector up down N s false = Ok o /\ tshape o = tshape occ /\ forall i, inb i (tshape occ) -> Rabs (tget o i - tget occ i) < eps.
Proof. exact simplex_dense. Qed.
Print Assumptions C145_approached.

(** Not every such occupation is described: two electrons in the lower one of two bands are not. *)
Theorem C145_insulator_refuted : exists occ, admissible occ 1 2 2 0 /\
  ~ exists up down o, tshape up = [1; 2]%nat /\ tshape down = [1; 2]%nat /\ simplex_projector up down 2 0 false = Ok o /\ teq o occ.
Proof. exists two_bands. split; [exact two_bands_admissible|exact two_bands_missed]. Qed.
Print Assumptions C145_insulator_refuted.

(** An occupation with a full and two half filled bands meets the conditions. *)
Example C145_example : (0 < (4 - Z.abs 0) / 2)%Z /\ ((4 + Z.abs 0) / 2 < Z.of_nat 3)%Z /\ admissible metal 1 3 4 0 /\ (forall i, (i < 2)%nat -> ~ (has_empty metal i 1 3 /\ has_full metal i 1 3)) /\ has_full metal 0 1 3.
Proof. split; [reflexivity|]. split; [reflexivity|exact metal_fits]. Qed.
