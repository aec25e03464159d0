(** A calculation the theorems on plane waves apply to (C154). *)
From Coq Require Import Reals Lra Lia.
From Coquelicot Require Import Coquelicot.
From Coq Require Import Ascii String List Arith ZArith Bool.
From Verif Require Import Base Sums Tensor GridModel PadModel Lin3 VecModel OccModel OccSpec PwModel PwSpec XcModel XcSpec PadProofs
  CalcModel CalcSpec DrvModel DrvSpec DrvProofs2 DrvProofs4 DrvProofs6 CalcProofs3 BoundProofs2 ReachSpec IdemSpec IdemProofs2 AttProofs5 SimProofs5 FreeSpec FreeProofs2.
Import ListNotations.
Local Open Scope R_scope.

Lemma ex_waves erfc pkg : exists pb p0 occ sel, let K := length (pb_k pb) in let B := pb_bands pb in
  ae_problem erfc pkg ex_ase 2 (ex_drv0 "simplex-projector" true false 8) = Ok pb /\ m3det (cr_cell (pb_crystal pb)) <> 0 /\ length (cr_charges (pb_crystal pb)) = length (cr_positions (pb_crystal pb)) /\
  ae_init ex_rnd ex_rpw pb = Ok p0 /\ bands_hold (pb_method pb) (pb_electrons pb) (pb_spin pb) (pb_bands pb) /\ bands_fit_basis pb /\
  pb_restricted pb = true /\ contains "gga" (pb_xc pb) = false /\ reachable pb p0 p0 /\ get_occupation real_gs_qr pb p0 = Ok occ /\
  (forall k b, (k < K)%nat -> (b < B)%nat -> inb (sel k b) (tshape (pb_mask pb)) /\ tget (pb_mask pb) (sel k b) = true) /\
  (forall k b b', (k < K)%nat -> (b < B)%nat -> (b' < B)%nat -> sel k b = sel k b' -> b = b').
Proof.
  destruct (ex_closed erfc pkg true) as (pb & p0 & Hpb & HA & Hl & Hi & Hb & Hfit & Hm & Er & En & Es & EB & Ex & Sm & Gm).
  pose proof (setup_grids _ _ _ _ _ _ _ _ _ Hpb) as Hgr. destruct (ae_parity _ _ _ _ _ _ Hpb) as (_ & Hpar & _ & Hir).
  pose proof (start_reachable ex_rnd ex_rpw pb p0 Hi) as Hre.
  destruct (occ_along ex_rnd ex_rpw pb p0 p0 real_gs_qr real_gs_qr_ok ex_rnd_ok Hgr Hi Hre Hpar (fun _ => Hir) Hb) as (occ & Eo & _).
  exists pb, p0, occ, (fun _ b => nth b (mask_positions (pb_mask pb)) []). cbv zeta. do 7 (split; [assumption|]). split; [rewrite Ex; reflexivity|]. split; [exact Hre|]. split; [exact Eo|]. split.
  - intros k b _ Hb'. apply mask_positions_in, nth_In. unfold bands_fit_basis in Hfit. lia.
  - intros k b b' _ H1 H2 E. unfold bands_fit_basis in Hfit. apply (NoDup_nth (mask_positions (pb_mask pb)) []); [apply mask_positions_NoDup|lia|lia|exact E].
Qed.
Lemma ex_empty : exists G, g_vectors m3id [3; 3; 3]%nat = Ok G /\ m3det m3id <> 0 /\ plane_waves 1 2 3 [3; 3; 3]%nat (fun _ k b => [k; b; 2%nat]) (waves 1 2 3 [3; 3; 3]%nat (fun _ k b => [k; b; 2%nat])).
Proof.
  destruct (proj2 (VecProofs.g_vectors_ok m3id 3 3 3)) as (G & HG); [lia|]. exists G. split; [exact HG|]. split; [unfold m3det, m3id, cross, dot; cbn; lra|]. apply waves_ok. intros s k b Hs Hk Hb. constructor; [lia|]. constructor; [lia|]. constructor; [lia|constructor].
Qed.
