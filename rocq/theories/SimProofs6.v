(** Parameters of a capped-simplex calculation that are not of lowest energy (C153). *)
From Coq Require Import Reals Lra Lia Classical.
From Coquelicot Require Import Coquelicot.
From Coq Require Import Ascii String List Arith ZArith Bool.
From Verif Require Import Base Sums Tensor Lin3 VecModel OccModel OccSpec PwModel PwSpec XcModel XcSpec EnergyModel HamModel HamSpec OccProofs
  CalcModel CalcSpec DrvModel DrvSpec DrvProofs2 DrvProofs6 BoundSpec BoundProofs2 ReachSpec ReachProofs2 IdemSpec IdemProofs2 AttSpec AttProofs5 KsSpec SimSpec SimProofs SimProofs2 SimProofs3.
Import ListNotations.
Local Open Scope R_scope.

Lemma sim_not_lowest erfc pkg read devices rnd rpw c pb p0 p qr cqr lib vg co occ d M e : let K := length (pb_k pb) in let B := pb_bands pb in let level k b := Re (tget M [0%nat; k; b; b]) in
  reduced_qr qr -> complex_qr cqr -> qr_factors cqr -> shape_ok rnd -> pair_shape_ok rpw ->
  ae_problem erfc pkg read devices c = Ok pb -> m3det (cr_cell (pb_crystal pb)) <> 0 -> length (cr_charges (pb_crystal pb)) = length (cr_positions (pb_crystal pb)) ->
  ae_init rnd rpw pb = Ok p0 -> bands_hold (pb_method pb) (pb_electrons pb) (pb_spin pb) (pb_bands pb) -> bands_fit_basis pb ->
  pb_method pb = MSimplex -> pb_restricted pb = true -> pb_spin pb = 0%Z -> contains "gga" (pb_xc pb) = false ->
  (forall t, In t (split_on "+" (pb_xc pb)) -> continuous_functional lib false t) ->
  reachable pb p0 p -> objective qr cqr (xc_density lib vg) pb p = Ok e ->
  get_coeff cqr pb p = Ok co -> get_occupation qr pb p = Ok occ -> density_grid co (pb_vol pb) (Some occ) = Ok d ->
  (forall x, inb x (tshape (pb_G pb)) -> ex_derive (local_particle lib (split_on "+" (pb_xc pb))) (tget d (0%nat :: x))) ->
  hamiltonian_matrix (xc_density lib vg) co (cr_positions (pb_crystal pb)) (map IZR (cr_charges (pb_crystal pb))) d (pb_G pb) (pb_k pb) (pb_vol pb) (pb_xc pb) true = Ok M ->
  (exists k b k' b', (k < K)%nat /\ (b < B)%nat /\ (k' < K)%nat /\ (b' < B)%nat /\ 0 < tget occ [0%nat; k; b] /\ 0 < tget occ [0%nat; k'; b'] /\ level k b <> level k' b') ->
  (exists k b k' b', (k < K)%nat /\ (b < B)%nat /\ (k' < K)%nat /\ (b' < B)%nat /\ tget occ [0%nat; k; b] < 2 / INR K /\ tget occ [0%nat; k'; b'] < 2 / INR K /\ level k b <> level k' b') ->
  exists p' e', reachable pb p0 p' /\ objective qr cqr (xc_density lib vg) pb p' = Ok e' /\ e' < e.
Proof.
  intros K B level Hq Hcq Hf Hr Hrp Hpb HA Hl Hi Hb Hfit Hm Er Es Hg HF Hre He Ec Eo Ed Hex EM H1 H2. apply NNPP. intros No.
  assert (HF' : forall t, In t (split_on "+" (pb_xc pb)) -> continuous_functional lib (contains "gga" (pb_xc pb)) t) by (rewrite Hg; exact HF).
  destruct (sim_infimum erfc pkg read devices rnd rpw c pb p0 qr cqr lib vg Hq Hcq Hf Hr Hrp Hpb HA Hl Hi Hb Hfit Hm (fun _ => Es) HF') as (_ & _ & e0 & _ & _ & _ & _ & All & _).
  assert (Min : forall p', reachable pb p0 p' -> exists e', objective qr cqr (xc_density lib vg) pb p' = Ok e' /\ e <= e').
  { intros p' Hp'. destruct (All p' Hp') as (e' & E' & _). exists e'. split; [exact E'|]. apply Rnot_lt_le. intros Hlt. apply No. exists p', e'. split; [exact Hp'|]. split; assumption. }
  destruct (sim_reached erfc pkg read devices rnd rpw c pb p0 p qr cqr lib vg e Hq Hcq Hf Hr Hrp Hpb HA Hl Hi Hb Hfit Hm Er Es Hg HF Hre He Min) as (co' & occ' & d' & Ec' & Eo' & Ed' & Con).
  rewrite Ec in Ec'. injection Ec' as <-. rewrite Eo in Eo'. injection Eo' as <-. rewrite Ed in Ed'. injection Ed' as <-.
  destruct (Con Hex) as (M' & mu & EM' & One). rewrite EM in EM'. injection EM' as <-.
  destruct One as [One|One].
  - destruct H1 as (k & b & k' & b' & Hk & Hb1 & Hk' & Hb' & P & P' & Ne). apply Ne. unfold level. rewrite (One k b Hk Hb1 P), (One k' b' Hk' Hb' P'). reflexivity.
  - destruct H2 as (k & b & k' & b' & Hk & Hb1 & Hk' & Hb' & P & P' & Ne). apply Ne. unfold level. rewrite (One k b Hk Hb1 P), (One k' b' Hk' Hb' P'). reflexivity.
Qed.

(** The first [n] of [B] bands full at each of [K] k-points. *)
Definition shell (K B n : nat) : tensor R := mkT [1%nat; K; B] (fun i => if (nth 2 i 0 <? n)%nat then 2 / INR K else 0).
Lemma shell_capped : capped true 8 14 12 0 (shell 8 14 6) /\ ~ never_both 8 14 (INR (3 - num_spin true) / INR 8) (shell 8 14 6).
Proof.
  split.
  - split; [reflexivity|]. split; [|split; [|discriminate]].
    + rewrite cap2. intros i Hi. cbn [shell tget]. assert (0 < 2 / INR 8) by (apply Rdiv_lt_0_compat; simpl; lra). destruct (nth 2 i 0 <? 6)%nat; lra.
    + unfold total, shell. cbn [tshape tget]. cbv -[Rplus Rmult Rdiv Rinv IZR INR]. simpl INR. lra.
  - intros H. apply (H 0 0 6 0 0)%nat; try (cbn; lia); cbn [shell tget nth Nat.ltb Nat.leb].
    + reflexivity.
    + symmetry. exact (cap2 8).
Qed.
