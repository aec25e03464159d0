(** A capped-simplex calculation with parameters that are not of lowest energy (C153). *)
From Coq Require Import Reals Lra Lia Classical.
From Coquelicot Require Import Coquelicot.
From Coq Require Import Ascii String List Arith ZArith Bool.
From Verif Require Import Base Sums Tensor DFT GridModel PadModel Lin3 VecModel VecProofs OccModel OccSpec OccProofs PwModel PwSpec PwProofs XcModel XcSpec EnergyModel HamModel HamSpec HamProofs2 TotalProofs PadProofs
  CalcModel CalcSpec DrvModel DrvSpec DrvProofs2 DrvProofs3 DrvProofs4 DrvProofs6 CalcProofs3 BoundSpec BoundProofs2 ReachSpec ReachProofs2 IdemSpec IdemProofs2 AttSpec AttProofs5 KsSpec KsProofs3 KsProofs5 SimSpec SimProofs SimProofs2 SimProofs3 SimProofs5 FreeSpec FreeProofs FreeProofs2.
Import ListNotations.
Local Open Scope R_scope.

Lemma even_capped K : (1 <= K)%nat -> let o := mkT [1%nat; K; 14%nat] (fun _ => 12 / (INR K * 14)) in capped true K 14 12 0 o /\ never_both K 14 (INR (3 - num_spin true) / INR K) o /\ forall i, 0 < tget o i < 2 / INR K.
Proof.
  intros HK o. assert (HKp : 0 < INR K) by (apply lt_0_INR; lia). assert (E : 12 / (INR K * 14) = (12 / 14) / INR K) by (field; lra). assert (P : 0 < / INR K) by (apply Rinv_0_lt_compat, HKp).
  assert (Hi : forall i, 0 < tget o i < 2 / INR K) by (intros i; unfold o; cbn [tget]; rewrite E; unfold Rdiv; split; [apply Rmult_lt_0_compat; lra|apply Rmult_lt_compat_r; lra]).
  split; [|split; [|exact Hi]].
  - split; [reflexivity|]. split; [rewrite cap2; intros i _; pose proof (Hi i); lra|]. split; [|discriminate].
    unfold total, o. cbn [tshape tget]. rewrite sumR_const, length_indices. replace (nprod [1%nat; K; 14%nat]) with (K * 14)%nat by (cbn [nprod fold_right]; lia). rewrite mult_INR. replace (INR 14) with 14 by (simpl; lra). field. lra.
  - intros c k b k' b' _ _ _ _ _ E0. pose proof (Hi [c; k; b]). lra.
Qed.

(** Of the waves at 0, g and - g two have different energies. *)
Lemma three_waves q g : dot g g <> 0 -> dot q q <> dot (vadd g q) (vadd g q) \/ dot q q <> dot (vadd (vscale (-1) g) q) (vadd (vscale (-1) g) q).
Proof.
  intros Hg. destruct (Req_dec (dot q q) (dot (vadd g q) (vadd g q))) as [E|N]; [|left; exact N]. right. intros E'. apply Hg. destruct q as [a b c], g as [x y z]. unfold dot, vadd, vscale in *. cbn in *. lra.
Qed.

Lemma ex_not_lowest erfc pkg vg : exists pb p0 p co occ d M e, let K := length (pb_k pb) in let B := pb_bands pb in let level k b := Re (tget M [0%nat; k; b; b]) in
  ae_problem erfc pkg ex_ase 2 (ex_drv0 "simplex-projector" true false 8) = Ok pb /\ m3det (cr_cell (pb_crystal pb)) <> 0 /\ length (cr_charges (pb_crystal pb)) = length (cr_positions (pb_crystal pb)) /\
  ae_init ex_rnd ex_rpw pb = Ok p0 /\ bands_hold (pb_method pb) (pb_electrons pb) (pb_spin pb) (pb_bands pb) /\ bands_fit_basis pb /\
  pb_method pb = MSimplex /\ pb_restricted pb = true /\ pb_spin pb = 0%Z /\ contains "gga" (pb_xc pb) = false /\
  reachable pb p0 p /\ objective real_gs_qr gs_qr (xc_density linear_lib vg) pb p = Ok e /\
  get_coeff gs_qr pb p = Ok co /\ get_occupation real_gs_qr pb p = Ok occ /\ density_grid co (pb_vol pb) (Some occ) = Ok d /\
  hamiltonian_matrix (xc_density linear_lib vg) co (cr_positions (pb_crystal pb)) (map IZR (cr_charges (pb_crystal pb))) d (pb_G pb) (pb_k pb) (pb_vol pb) (pb_xc pb) true = Ok M /\
  (exists k b k' b', (k < K)%nat /\ (b < B)%nat /\ (k' < K)%nat /\ (b' < B)%nat /\ 0 < tget occ [0%nat; k; b] /\ 0 < tget occ [0%nat; k'; b'] /\ level k b <> level k' b') /\
  (exists k b k' b', (k < K)%nat /\ (b < B)%nat /\ (k' < K)%nat /\ (b' < B)%nat /\ tget occ [0%nat; k; b] < 2 / INR K /\ tget occ [0%nat; k'; b'] < 2 / INR K /\ level k b <> level k' b').
Proof.
  destruct (ex_closed erfc pkg true) as (pb & p0 & Hpb & HA & Hl & Hi & Hb & Hfit & Hm & Er & En & Es & EB & Ex & Sm & Gm).
  pose proof (setup_grids _ _ _ _ _ _ _ _ _ Hpb) as Hgr. destruct (ae_parity _ _ _ _ _ _ Hpb) as (_ & Hpar & _ & Hir).
  assert (HK : (1 <= length (pb_k pb))%nat) by (destruct Hgr as (? & ? & ? & _ & _ & HK); exact HK).
  destruct (grid_facts pb Hgr HA) as (n1 & n2 & n3 & HG & Sm' & SG & Hp & Hv). rewrite Sm in Sm'. injection Sm' as <- <- <-.
  assert (Hlib : forall t b, In t (split_on "+" (pb_xc pb)) -> linear_lib t b <> None) by (intros t b _ H; discriminate H).
  assert (Hgg : contains "gga" (pb_xc pb) = false) by (rewrite Ex; reflexivity).
  destruct (even_capped (length (pb_k pb)) HK) as (Hcap & Hnb & Hval). set (o := mkT [1%nat; length (pb_k pb); 14%nat] (fun _ => 12 / (INR (length (pb_k pb)) * 14))) in *.
  assert (D : described real_gs_qr pb p0 o).
  { apply (sim_described ex_rnd ex_rpw pb p0 real_gs_qr HK Hi Hm Hpar Hb o (fun _ => Es)). rewrite Er, En, Es, EB. split; assumption. }
  destruct D as (p & occ & Hre & Eo & T).
  assert (Hmp : mask_positions (pb_mask pb) = filter (fun i => match cubic_mask [8; 8; 8]%Z with Ok f => f (map Z.of_nat i) | Err _ => false end) (indices [8; 8; 8]%nat)).
  { unfold mask_positions. rewrite Sm. apply filter_ext. exact Gm. }
  assert (L64 : length (mask_positions (pb_mask pb)) = 64%nat) by (rewrite Hmp; vm_compute; reflexivity).
  set (sel := fun (_ : nat) (b : nat) => nth b (mask_positions (pb_mask pb)) []).
  assert (S1 : forall k b, (k < length (pb_k pb))%nat -> (b < pb_bands pb)%nat -> inb (sel k b) (tshape (pb_mask pb)) /\ tget (pb_mask pb) (sel k b) = true).
  { intros k b _ Hb'. unfold sel. apply mask_positions_in, nth_In. rewrite L64. lia. }
  assert (S2 : forall k b b', (k < length (pb_k pb))%nat -> (b < pb_bands pb)%nat -> (b' < pb_bands pb)%nat -> sel k b = sel k b' -> b = b').
  { intros k b b' _ H1 H2 E. apply (NoDup_nth (mask_positions (pb_mask pb)) []); [apply mask_positions_NoDup|lia|lia|exact E]. }
  destruct (waves_reached erfc pkg ex_ase 2 ex_rnd ex_rpw _ pb p0 p real_gs_qr gs_qr linear_lib vg sel occ real_gs_qr_ok gs_qr_orthonormal gs_qr_factors ex_rnd_ok ex_rpw_ok Hpb HA Hl Hi Hb Hfit Er Hgg Hlib Hre Eo S1 S2) as (p' & co & Hre' & Eo' & Ec & W & Hob).
  assert (So : tshape occ = [1%nat; length (pb_k pb); pb_bands pb]) by (rewrite EB; apply T).
  assert (Hbo : basis_orbitals 1 (length (pb_k pb)) (pb_bands pb) (pb_mask pb) co) by (apply (waves_basis 1 _ _ (pb_mask pb) (fun _ => sel) co W); [intros s k b _ Hk Hb'; apply S1; assumption|intros s k b b' _; apply S2]).
  assert (Sc : tshape co = [1%nat; length (pb_k pb); pb_bands pb] ++ [8; 8; 8]%nat) by (destruct Hbo as (S & _); rewrite Sm in S; exact S).
  destruct (density_eq co (pb_vol pb) occ 1 _ _ 8 8 8 Sc So) as (d & Ed & _).
  assert (Hl' : length (map IZR (cr_charges (pb_crystal pb))) = length (cr_positions (pb_crystal pb))) by (rewrite map_length; exact Hl).
  destruct (potential_exists linear_lib vg (pb_xc pb) (cr_cell (pb_crystal pb)) co (cr_positions (pb_crystal pb)) (map IZR (cr_charges (pb_crystal pb))) (pb_G pb) (pb_k pb) (pb_vol pb) occ d (pb_bands pb) 8 8 8 (pb_mask pb) Hgg Hlib HA Hv HG Hl' Sm Hbo So Ed (fun x _ => linear_smooth _ _)) as (v & Ev & Sv).
  destruct (wave_grid_eq co (pb_vol pb) _ [8; 8; 8]%nat eq_refl Sc) as (w & Ew & _).
  destruct (matrix_value (xc_density linear_lib vg) co (cr_positions (pb_crystal pb)) (map IZR (cr_charges (pb_crystal pb))) d (pb_G pb) (pb_k pb) (pb_vol pb) (pb_xc pb) true 1 (pb_bands pb) 1 8 8 8 v w Sc SG Ev Sv Ew) as (M & HM & _).
  rewrite Sm in W.
  pose proof (wave_level 1 _ (pb_bands pb) 8 8 8 (fun _ => sel) co (pb_vol pb) W Hv (xc_density linear_lib vg) (cr_positions (pb_crystal pb)) (map IZR (cr_charges (pb_crystal pb))) d (pb_G pb) (pb_k pb) (pb_xc pb) true v M eq_refl SG Ev Sv HM) as Lev.
  assert (G1 : tget (pb_G pb) (sel 0%nat 0%nat) = vzero) by (unfold sel; rewrite Hmp; exact (proj1 (proj2 (g_vectors_dual _ _ _ _ _ HA HG)))).
  destruct (vector_grid_get _ _ _ _ _ _ HG) as (_ & Gget).
  set (g := tget (pb_G pb) (sel 0%nat 1%nat)).
  assert (G3 : tget (pb_G pb) (sel 0%nat 3%nat) = vscale (-1) g).
  { unfold g, sel. rewrite Hmp. change (nth 3 _ []) with [0; 0; 7]%nat. change (nth 1 (filter _ _) []) with [0; 0; 1]%nat. rewrite !Gget. unfold coef. change (fftfreq (Z.of_nat 8) (Z.of_nat 7)) with (-1)%Z. change (fftfreq (Z.of_nat 8) (Z.of_nat 1)) with 1%Z. change (fftfreq (Z.of_nat 8) (Z.of_nat 0)) with 0%Z.
    unfold vmul, vscale, vadd. destruct (reciprocal_vectors (cr_cell (pb_crystal pb))) as [[a1 a2 a3] [a4 a5 a6] [a7 a8 a9]]. cbn. change (fr 8 0) with 0. change (fr 8 7) with (-1). change (fr 8 1) with 1. f_equal; ring. }
  assert (Gn : dot g g <> 0).
  { intros E. assert (Z : g = vzero) by (destruct g as [a b c]; unfold dot in E; cbn in E; assert (a = 0) by nra; assert (b = 0) by nra; assert (c = 0) by nra; subst; reflexivity).
    assert (E01 : sel 0%nat 0%nat = sel 0%nat 1%nat) by (apply (proj1 (proj2 (proj2 (g_vectors_dual _ _ _ _ _ HA HG)))); [rewrite <- Sm; apply S1; lia|rewrite <- Sm; apply S1; lia|fold g; rewrite Z; exact G1]).
    apply S2 in E01; lia. }
  assert (Occ : forall k b, (k < length (pb_k pb))%nat -> (b < pb_bands pb)%nat -> 0 < tget occ [0%nat; k; b] < 2 / INR (length (pb_k pb))).
  { intros k b Hk Hb'. rewrite (proj2 T) by (rewrite So; repeat constructor; assumption). apply Hval. }
  assert (Two : exists b', (b' < pb_bands pb)%nat /\ Re (tget M [0%nat; 0%nat; 0%nat; 0%nat]) <> Re (tget M [0%nat; 0%nat; b'; b'])).
  { rewrite (Lev 0 0 0)%nat by lia. destruct (three_waves (nth 0 (pb_k pb) vzero) g Gn) as [N|N].
    - exists 1%nat. split; [lia|]. rewrite (Lev 0 0 1)%nat by lia. change (Re (RtoC ?a)) with a. unfold free_energy. rewrite G1. fold g. intros E. apply N. replace (vadd vzero (nth 0 (pb_k pb) vzero)) with (nth 0 (pb_k pb) vzero) in E by (destruct (nth 0 (pb_k pb) vzero); unfold vadd, vzero; cbn; f_equal; ring). cbv zeta in E. lra.
    - exists 3%nat. split; [lia|]. rewrite (Lev 0 0 3)%nat by lia. change (Re (RtoC ?a)) with a. unfold free_energy. rewrite G1, G3. intros E. apply N. replace (vadd vzero (nth 0 (pb_k pb) vzero)) with (nth 0 (pb_k pb) vzero) in E by (destruct (nth 0 (pb_k pb) vzero); unfold vadd, vzero; cbn; f_equal; ring). cbv zeta in E. lra. }
  destruct Two as (b' & Hb' & Ne).
  exists pb, p0, p', co, occ, d, M. eexists. cbv zeta. do 11 (split; [assumption|]). split; [exact Hob|]. do 4 (split; [assumption|]).
  split; exists 0%nat, 0%nat, 0%nat, b'; (split; [lia|]); (split; [lia|]); (split; [lia|]); (split; [exact Hb'|]); (split; [apply Occ; lia|]); (split; [apply Occ; lia|exact Ne]).
Qed.
