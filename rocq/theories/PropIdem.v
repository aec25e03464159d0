(** Which occupations the idempotent method describes (C149). *)
From Coq Require Import Reals List Arith.
From Verif Require Import Base Tensor OccModel OccSpec IdemSpec IdemProofs IdemProofs2.
Import ListNotations.
Local Open Scope R_scope.

(** Some parameters give the occupation exactly if every state holds between 0 and 1/K electrons
    and each channel holds its number of electrons: no further restriction. *)
Theorem C149_described : forall qr occ nu nd K B, reduced_qr qr -> qr_product qr -> (1 <= K)%nat -> (nu <= B)%nat -> (nd <= B)%nat -> tshape occ = [2; K; B]%nat ->
  (exists up down o, tshape up = [B * K; nu * K]%nat /\ tshape down = [B * K; nd * K]%nat /\ idempotent qr up down K false = Ok o /\ teq o occ) <->
  within 0 (1 / INR K) occ /\ channel occ 0 = INR nu /\ channel occ 1 = INR nd.
Proof. exact idem_reach. Qed.
Print Assumptions C149_described.

(** The same with the spins summed. *)
Theorem C149_restricted : forall qr occ n K B, reduced_qr qr -> qr_product qr -> (1 <= K)%nat -> (n <= B)%nat -> tshape occ = [1; K; B]%nat ->
  (exists up down o, tshape up = [B * K; n * K]%nat /\ tshape down = [B * K; n * K]%nat /\ idempotent qr up down K true = Ok o /\ teq o occ) <->
  within 0 (2 / INR K) occ /\ total occ = 2 * INR n.
Proof. exact idem_reach_restricted. Qed.
Print Assumptions C149_restricted.

(** Gram-Schmidt meets the two contracts, and an insulator, which the capped-simplex method misses,
    meets the conditions. *)
Example C149_example : reduced_qr real_gs_qr /\ qr_product real_gs_qr /\
  tshape insulator = [2; 2; 2]%nat /\ within 0 (1 / INR 2) insulator /\ channel insulator 0 = INR 1 /\ channel insulator 1 = INR 1.
Proof. split; [exact real_gs_qr_ok|]. split; [exact real_gs_qr_product|exact insulator_fits]. Qed.
